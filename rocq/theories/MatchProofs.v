From Verif Require Import ListAux FileModel ParseProofs OperatorProofs DerivedProofs TextProofs EquationProofs EquationProofs2 EquationProofs3 EquationProofs4 EquationProofs5 EquationProofs6 EquationProofs7 EquationProofs8.
From Verif Require Import RegistryProofs RegistryProofs2 RegistryProofs3 StepProofs SplitSpec MatchSpec SimProofs SimProofs2 SimProofs3 SimProofs4 SimProofs5 SplitProofs2 SplitProofs3 SplitProofs4.
From Coq Require Import Lia Permutation.
Open Scope nat_scope.

Section Two.
  Variable rel : nat -> nat -> Prop.
  Variables (L : lang) (cs : list call) (es : list eqtext) (m : mstate) (lib : library).
  Variables (L' : lang) (cs' : list call) (es' : list eqtext) (m' : mstate) (lib' : library).
  Hypothesis HD : declared L cs es.
  Hypothesis HD' : declared L' cs' es'.
  Hypothesis Em : run_calls new_mstate (cs ++ [CInit]) = Ok m.
  Hypothesis Em' : run_calls new_mstate (cs' ++ [CInit]) = Ok m'.
  Variables (n : nat) (ft : transform).
  Hypothesis GL : good_library L n lib.
  Hypothesis GL' : good_library L' n lib'.
  Hypothesis Horder : map q_field es = l_fields L.
  Hypothesis Horder' : map q_field es' = l_fields L'.
  Hypothesis HC : corresponds rel L cs es lib L' cs' es' lib'.
  Let HL := dc_lang _ _ _ HD.
  Let HL' := dc_lang _ _ _ HD'.
  Let p := simulation n ft lib m.
  Let p' := simulation n ft lib' m'.

  Notation sf := (same_factor rel L lib L' lib').
  Notation st := (same_term rel L cs lib L' cs' lib').

  Definition same_name (x x' : str) : Prop := same_field rel L L' x x' \/ same_function rel L lib L' lib' x x'.

  Lemma values_match fs fs' val val' x x' : length fs = length (l_fields L) -> length fs' = length (l_fields L') -> agree rel fs fs' ->
    values L lib fs val -> values L' lib' fs' val' -> same_name x x' -> forall j, val x j = val' x' j.
  Proof.
    intros Hl Hl' HA [V1 V2] [V1' V2'] [(i & i' & Hr & Hx & Hx')|(Hx & Hx' & Hc)] j.
    - assert (Hi : i < length fs) by (rewrite Hl; apply nth_error_Some; congruence).
      destruct (nth_error fs i) as [d|] eqn:Ed; [|apply nth_error_None in Ed; lia].
      assert (Ed' : nth_error fs' i' = Some d) by (rewrite <- (HA i i' Hr); exact Ed).
      rewrite (V1 i x d Hx Ed), (V1' i' x' d Hx' Ed'). reflexivity.
    - destruct (proj1 (lb_functions _ _ _ GL x) Hx) as (c & Ec). destruct (proj1 (lb_functions _ _ _ GL' x') Hx') as (c' & Ec').
      rewrite (V2 x c Hx Ec), (V2' x' c' Hx' Ec'), (Hc c c' Ec Ec' fs fs' Hl Hl' HA). reflexivity.
  Qed.

  Lemma lone_match seen seen' lone lone' k val val' x x' : length seen = length (l_fields L) -> agree rel seen seen' ->
    (forall j name d, nth_error (l_fields L) j = Some name -> nth_error seen j = Some d -> lone name = nth k d C0) ->
    (forall name, In name (l_functions L) -> lone name = amplitude_at n ft k (val name)) ->
    (forall j name d, nth_error (l_fields L') j = Some name -> nth_error seen' j = Some d -> lone' name = nth k d C0) ->
    (forall name, In name (l_functions L') -> lone' name = amplitude_at n ft k (val' name)) ->
    (same_name x x' -> forall j, val x j = val' x' j) ->
    same_name x x' -> lone x = lone' x'.
  Proof.
    intros Hl HA H1 H2 H1' H2' HV Hs. assert (HV' := HV Hs). destruct Hs as [(i & i' & Hr & Hx & Hx')|(Hx & Hx' & _)].
    - assert (Hi : i < length seen) by (rewrite Hl; apply nth_error_Some; congruence).
      destruct (nth_error seen i) as [d|] eqn:Ed; [|apply nth_error_None in Ed; lia].
      assert (Ed' : nth_error seen' i' = Some d) by (rewrite <- (HA i i' Hr); exact Ed).
      rewrite (H1 i x d Hx Ed), (H1' i' x' d Hx' Ed'). reflexivity.
    - rewrite (H2 x Hx), (H2' x' Hx'). unfold amplitude_at. f_equal. f_equal. apply map_ext. exact HV'.
  Qed.

  Lemma power_match f f' : option_map expo_value (fa_exp f) = option_map expo_value (fa_exp f') -> factor_power f = factor_power f'.
  Proof. unfold factor_power. destruct (fa_exp f), (fa_exp f'); cbn [option_map]; congruence. Qed.

  Lemma product_match fs fs' v v' : Forall2 sf fs fs' -> (forall x x', same_name x x' -> v x = v' x') ->
    product_value (lb_pow lib) v fs = product_value (lb_pow lib') v' fs'.
  Proof.
    intros HF Hv. induction HF as [|f f' fs fs' [H1 H2] _ IH]; [reflexivity|]. cbn [product_value].
    rewrite IH, (power_match _ _ H2), (co_pow _ _ _ _ _ _ _ _ _ HC), (Hv _ _ H1). reflexivity.
  Qed.

  Lemma amplitude_match k fs fs' val val' : Forall2 sf fs fs' -> (forall x x', same_name x x' -> forall j, val x j = val' x' j) ->
    amplitude (lb_pow lib) val (amplitude_at n ft k) fs = amplitude (lb_pow lib') val' (amplitude_at n ft k) fs'.
  Proof.
    intros HF Hv.
    assert (HP : amplitude_at n ft k (fun j => product_value (lb_pow lib) (fun x => val x j) fs) = amplitude_at n ft k (fun j => product_value (lb_pow lib') (fun x => val' x j) fs')).
    { unfold amplitude_at. f_equal. f_equal. apply map_ext. intros j. apply product_match; [exact HF|]. intros x x' H. apply Hv, H. }
    unfold amplitude. destruct HF as [|f f' fs fs' [H1 H2] HF]; [reflexivity|]. destruct HF as [|g g' fs fs' H3 HF]; [|exact HP].
    destruct (fa_exp f), (fa_exp f'); try discriminate H2; [exact HP|].
    unfold amplitude_at. f_equal. f_equal. apply map_ext. apply Hv, H1.
  Qed.

  Lemma shown_match k t t' fs val val' lone lone' : Permutation (field_factors L' t') fs -> Forall2 sf (field_factors L t) fs ->
    (forall x x', same_name x x' -> forall j, val x j = val' x' j) -> (forall x x', same_name x x' -> lone x = lone' x') ->
    shown_amplitude L (lb_pow lib) val (amplitude_at n ft k) lone t = shown_amplitude L' (lb_pow lib') val' (amplitude_at n ft k) lone' t'.
  Proof.
    intros HP HF Hv Hl. assert (HA := amplitude_match k _ _ val val' HF Hv).
    rewrite <- (amplitude_perm _ _ _ _ _ HP) in HA. assert (Hlen := Permutation_length HP).
    unfold shown_amplitude. destruct HF as [|f f' l l' [H1 H2] HF].
    - destruct (field_factors L' t') as [|? ?]; [exact HA|discriminate Hlen].
    - destruct HF as [|g g' l l' H3 HF].
      + apply Permutation_sym, Permutation_length_1_inv in HP. rewrite HP in *. destruct (fa_exp f) eqn:Ef, (fa_exp f') eqn:Ef'; try discriminate H2; [exact HA|].
        apply Hl, H1.
      + destruct (field_factors L' t') as [|a [|b r]]; [discriminate Hlen|discriminate Hlen|exact HA].
  Qed.

  Lemma linear_match t t' fs i i' q q' : rel i i' -> nth_error es i = Some q -> nth_error es' i' = Some q' ->
    Permutation (field_factors L' t') fs -> Forall2 sf (field_factors L t) fs -> linear_in L (q_field q) t = linear_in L' (q_field q') t'.
  Proof.
    intros Hr Hq Hq' HP HF. assert (Hlen := Permutation_length HP).
    assert (Hn : nth_error (l_fields L) i = Some (q_field q)) by (rewrite <- Horder, nth_error_map, Hq; reflexivity).
    assert (Hn' : nth_error (l_fields L') i' = Some (q_field q')) by (rewrite <- Horder', nth_error_map, Hq'; reflexivity).
    unfold linear_in. destruct HF as [|f f' l l' [H1 H2] HF].
    - destruct (field_factors L' t') as [|? ?]; [reflexivity|discriminate Hlen].
    - destruct HF as [|g g' l l' H3 HF].
      + apply Permutation_sym, Permutation_length_1_inv in HP. rewrite HP in *. destruct (fa_exp f) eqn:Ef, (fa_exp f') eqn:Ef'; try discriminate H2; [reflexivity|].
        apply Bool.eq_true_iff_eq. rewrite !str_eqb_eq. destruct H1 as [(a & b & Hab & Ha & Hb)|(Hf & Hf' & _)].
        * split; intros E; rewrite E in *.
          -- assert (a = i) by exact (index_unique L cs es HD a i _ Ha Hn). subst a.
             assert (b = i') by exact (co_function _ _ _ _ _ _ _ _ _ HC i b i' Hab Hr). subst b. congruence.
          -- assert (b = i') by exact (index_unique L' cs' es' HD' b i' _ Hb Hn'). subst b.
             assert (a = i) by exact (co_injective _ _ _ _ _ _ _ _ _ HC a i i' Hab Hr). subst a. congruence.
        * split; intros E; exfalso.
          -- apply (function_not_field L HL _ Hf). rewrite E. eapply nth_error_In, Hn.
          -- apply (function_not_field L' HL' _ Hf'). rewrite E. eapply nth_error_In, Hn'.
      + destruct (field_factors L' t') as [|a [|b r]]; [discriminate Hlen|discriminate Hlen|reflexivity].
  Qed.

  Lemma kind_registered (K : lang) (ds : list call) (qs : list eqtext) x : declared K ds qs -> In x (user_terms K) -> exists s, registered ds (kind_of K x) x s.
  Proof.
    intros D Hx. destruct (dc_names _ _ _ D) as [_ Hd]. destruct (Hd x) as (_ & _ & H1 & H2 & H3).
    unfold kind_of. destruct (mem_str x (l_implicit K)) eqn:E1; [apply terms_of_registered, H1, mem_str_In, E1|].
    destruct (mem_str x (l_explicit K)) eqn:E2; [apply terms_of_registered, H2, mem_str_In, E2|].
    apply terms_of_registered, H3. unfold user_terms in Hx. rewrite !in_app_iff in Hx.
    destruct Hx as [Hx|[Hx|Hx]]; [|  |exact Hx].
    - apply mem_str_In in Hx. congruence.
    - apply mem_str_In in Hx. congruence.
  Qed.

  Lemma item_good (K : lang) (ds : list call) (qs : list eqtext) i q it d : declared K ds qs -> nth_error qs i = Some q -> In (it, d) (signed_items q) -> good_item K it.
  Proof.
    intros D Hq Hin. assert (Hg := dc_good _ _ _ D). rewrite Forall_forall in Hg. destruct (Hg q (nth_error_In _ _ Hq)) as (_ & _ & G1 & G2).
    unfold signed_items in Hin. destruct Hin as [Hin|Hin]; [injection Hin as <- _; exact G1|].
    apply in_map_iff in Hin. destruct Hin as ([s j] & Hs & Hin). cbn [fst snd] in Hs. injection Hs as -> _.
    rewrite Forall_forall in G2. apply (G2 _ Hin).
  Qed.

  Lemma sum_match (R : item * option ascii -> item * option ascii -> Prop) f f' l l' : Forall2 R l l' ->
    (forall a b, In a l -> In b l' -> R a b -> Cmul (RtoC (sign_value (snd a))) (f (fst a)) = Cmul (RtoC (sign_value (snd b))) (f' (fst b))) ->
    sum_signed f l = sum_signed f' l'.
  Proof.
    unfold sum_signed. induction 1 as [|a b l l' Hab _ IH]; intros H; [reflexivity|]. cbn [map Csum].
    rewrite (H a b (or_introl eq_refl) (or_introl eq_refl) Hab), IH; [reflexivity|]. intros x y Hx Hy. apply H; right; assumption.
  Qed.

  (** The two parts of corresponding equations are the same. *)
  Lemma parts_match i i' q q' fields fields' E E' t k X A X' A' : rel i i' -> nth_error es i = Some q -> nth_error es' i' = Some q' ->
    length fields = length (l_fields L) -> length fields' = length (l_fields L') -> agree rel fields fields' ->
    length (e_fields E) = length (l_fields L) -> length (e_fields E') = length (l_fields L') -> agree rel (e_fields E) (e_fields E') ->
    split_written L cs n ft lib fields (e_fields E) E t q k X A -> split_written L' cs' n ft lib' fields' (e_fields E') E' t q' k X' A' ->
    X = X' /\ A = A'.
  Proof.
    intros Hr Hq Hq' Hl Hl' HA HE HE' HAE (val & lone & im & ex & li & nl & HV & Hlo & Hfu & R1 & R2 & R3 & -> & ->)
      (val' & lone' & im' & ex' & li' & nl' & HV' & Hlo' & Hfu' & R1' & R2' & R3' & -> & ->).
    assert (Hval : forall x x', same_name x x' -> forall j, val x j = val' x' j) by (intros x x'; exact (values_match fields fields' val val' x x' Hl Hl' HA HV HV')).
    assert (Hlone : forall x x', same_name x x' -> lone x = lone' x').
    { intros x x'. exact (lone_match (e_fields E) (e_fields E') lone lone' k val val' x x' HE HAE Hlo Hfu Hlo' Hfu' (Hval x x')). }
    destruct (co_equation _ _ _ _ _ _ _ _ _ HC i i' q q' Hr Hq Hq') as (l & HP & HF).
    assert (HU : forall os x d os' x' d', In (IUser os x, d) (signed_items q) -> In (IUser os' x', d') l -> st (IUser os x, d) (IUser os' x', d') ->
      match kind_of L x with
      | KImplicit => im x = im' x'
      | KExplicit => ex x = ex' x'
      | KMixed => li x = li' x' /\ nl x = nl' x'
      end).
    { intros os x d os' x' d' Hin Hin' (_ & _ & Hk & HS). cbn [fst snd] in HS.
      destruct (item_good L cs es i q _ _ HD Hq Hin) as [Hu _].
      assert (Hin2 : In (IUser os' x', d') (signed_items q')) by (eapply Permutation_in; [apply Permutation_sym, HP|exact Hin']).
      destruct (item_good L' cs' es' i' q' _ _ HD' Hq' Hin2) as [Hu' _].
      destruct (kind_registered L cs es x HD Hu) as (s & Hs). destruct (kind_registered L' cs' es' x' HD' Hu') as (s' & Hs').
      specialize (HS s s' Hs Hs' E E' t HE HE' HAE). rewrite <- Hk in Hs'. destruct (kind_of L x).
      - rewrite (R1 x s Hs), (R1' x' s' Hs'), HS. reflexivity.
      - rewrite (R2 x s Hs), (R2' x' s' Hs'), HS. reflexivity.
      - destruct (R3 x s Hs) as [-> ->]. destruct (R3' x' s' Hs') as [-> ->]. destruct HS as [-> ->]. split; reflexivity. }
    rewrite (sum_signed_perm _ _ _ HP), (sum_signed_perm (implicit_item L' _ _ _ _ _ _) _ _ HP).
    split; (eapply sum_match; [exact HF|]).
    - intros [[t1|os x] d] [[t2|os' x'] d'] Ha Hb Hab; try exact (False_ind _ Hab); cbn [fst snd explicit_item].
      + destruct Hab as (Hc & Hp & fs & HPf & HFf). cbn [fst snd] in Hc.
        rewrite (linear_match t1 t2 fs i i' q q' Hr Hq Hq' HPf HFf). destruct (linear_in L' (q_field q') t2); [ring|].
        rewrite (shown_match k t1 t2 fs val val' lone lone' HPf HFf Hval Hlone). unfold coefficient. rewrite Hp.
        transitivity (Cmul (RtoC (lap_symbol (tfreq ft k) ^ total_power t2)) (Cmul (Cmul (RtoC (sign_value d)) (product_value (lb_pow lib) (lb_scalar lib) (scalar_factors L t1)))
          (shown_amplitude L' (lb_pow lib') val' (amplitude_at n ft k) lone' t2))); [ring|]. rewrite Hc. ring.
      + assert (HUx := HU _ _ _ _ _ _ Ha Hb Hab). destruct Hab as (Hs & Hp & Hk & _). cbn [snd] in Hs. rewrite Hs, Hp. f_equal. f_equal.
        unfold kind_of in *. destruct (mem_str x (l_implicit L)), (mem_str x' (l_implicit L')); try (destruct (mem_str x (l_explicit L)); discriminate Hk); try (destruct (mem_str x' (l_explicit L')); discriminate Hk); [reflexivity|].
        destruct (mem_str x (l_explicit L)), (mem_str x' (l_explicit L')); try discriminate Hk; [exact HUx|apply HUx].
    - intros [[t1|os x] d] [[t2|os' x'] d'] Ha Hb Hab; try exact (False_ind _ Hab); cbn [fst snd implicit_item].
      + destruct Hab as (Hc & Hp & fs & HPf & HFf). cbn [fst snd] in Hc.
        rewrite (linear_match t1 t2 fs i i' q q' Hr Hq Hq' HPf HFf). destruct (linear_in L' (q_field q') t2); [|ring].
        unfold coefficient. rewrite Hp.
        transitivity (Cmul (RtoC (lap_symbol (tfreq ft k) ^ total_power t2)) (Cmul (RtoC (sign_value d)) (product_value (lb_pow lib) (lb_scalar lib) (scalar_factors L t1)))); [ring|]. rewrite Hc. ring.
      + assert (HUx := HU _ _ _ _ _ _ Ha Hb Hab). destruct Hab as (Hs & Hp & Hk & _). cbn [snd] in Hs. rewrite Hs, Hp. f_equal. f_equal.
        unfold kind_of in *. destruct (mem_str x (l_implicit L)), (mem_str x' (l_implicit L')); try (destruct (mem_str x (l_explicit L)); discriminate Hk); try (destruct (mem_str x' (l_explicit L')); discriminate Hk); [exact HUx|].
        destruct (mem_str x (l_explicit L)), (mem_str x' (l_explicit L')); try discriminate Hk; [reflexivity|apply HUx].
  Qed.

  Lemma some_equation i : i < length (l_fields L) -> exists q, nth_error es i = Some q.
  Proof. intros H. rewrite <- Horder, map_length in H. destruct (nth_error es i) as [q|] eqn:E; [eauto|]. apply nth_error_None in E. lia. Qed.
  Lemma some_equation' i : i < length (l_fields L') -> exists q, nth_error es' i = Some q.
  Proof. intros H. rewrite <- Horder', map_length in H. destruct (nth_error es' i) as [q|] eqn:E; [eauto|]. apply nth_error_None in E. lia. Qed.

  (** Right-hand sides and denominators of corresponding equations are equal. *)
  Lemma rhs_match i i' E E' e e' t : rel i i' -> fits L n m e -> fits L' n m' e' -> agree rel (e_fields e) (e_fields e') ->
    e_derived E = e_derived (spectrum p ft e) -> e_derived E' = e_derived (spectrum p' ft e') ->
    length (e_fields E) = length (l_fields L) -> length (e_fields E') = length (l_fields L') -> agree rel (e_fields E) (e_fields E') ->
    exists r a, get_rhs p E i t n = Some r /\ get_rhs p' E' i' t n = Some r /\ get_denum p E i t n = Some a /\ get_denum p' E' i' t n = Some a
    /\ length r = n /\ length a = n.
  Proof.
    intros Hr Hf Hf' HA Hd Hd' HE HE' HAE. destruct (co_range _ _ _ _ _ _ _ _ _ HC i i' Hr) as [Hi Hi'].
    destruct (some_equation i Hi) as (q & Hq). destruct (some_equation' i' Hi') as (q' & Hq').
    destruct (split_state L cs es m HD Em n ft lib GL E e t i q Hf Hd HE Hq) as (r & a & Er & Ea & Lr & La & HV).
    destruct (split_state L' cs' es' m' HD' Em' n ft lib' GL' E' e' t i' q' Hf' Hd' HE' Hq') as (r' & a' & Er' & Ea' & Lr' & La' & HV').
    assert (HRA : forall k, k < n -> nth k r C0 = nth k r' C0 /\ nth k a C0 = nth k a' C0).
    { intros k Hk. destruct (split_exists L cs es m HD Em n ft lib E t q k (e_fields e) (e_fields E)) as (X & A & HX).
      destruct (split_exists L' cs' es' m' HD' Em' n ft lib' E' t q' k (e_fields e') (e_fields E')) as (X' & A' & HX').
      destruct (parts_match i i' q q' (e_fields e) (e_fields e') E E' t k X A X' A' Hr Hq Hq' (proj1 Hf) (proj1 Hf') HA HE HE' HAE HX HX') as [<- <-].
      destruct (HV k X A Hk HX) as [-> ->]. destruct (HV' k X A Hk HX') as [-> ->]. split; [|reflexivity]. f_equal. apply (co_source _ _ _ _ _ _ _ _ _ HC), Hr. }
    assert (r' = r) as ->.
    { apply nth_ext with (d := C0) (d' := C0); [congruence|]. intros k Hk. symmetry. apply HRA. congruence. }
    assert (a' = a) as ->.
    { apply nth_ext with (d := C0) (d' := C0); [congruence|]. intros k Hk. symmetry. apply HRA. congruence. }
    exists r, a. repeat split; assumption.
  Qed.
End Two.
