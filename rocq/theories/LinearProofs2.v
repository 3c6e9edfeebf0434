From Verif Require Import ListAux FileModel ParseProofs RegistryProofs RegistryProofs2 RegistryProofs3 StepProofs LinearSpec SimProofs SimProofs2 SimProofs3 SimProofs4 SimProofs5 SimProofs6 LinearProofs.
From Coq Require Import Lia.
Open Scope nat_scope.

Lemma map_nth_seq {A} (d : list A) x : map (fun j => nth j d x) (seq 0 (length d)) = d.
Proof.
  apply nth_ext with x x; [rewrite map_length, seq_length; reflexivity|]. intros k Hk. rewrite map_length, seq_length in Hk.
  rewrite nth_indep with (d' := nth (length d) d x) by (rewrite map_length, seq_length; exact Hk).
  rewrite (map_nth (fun j => nth j d x)), seq_nth by exact Hk. reflexivity.
Qed.

Lemma Csum_mul_r (y : C) l : Csum (map (fun x => Cmul x y) l) = Cmul (Csum l) y.
Proof. induction l as [|x l IH]; cbn [map Csum]; [ring|rewrite IH; ring]. Qed.

(** A linear right-hand side is its symbol times the amplitude of the field. *)
Lemma linear_meaning L lib val ft implicit explicit linear nonlinear freq y q : linear_equation L q ->
  rhs_meaning L (lb_pow lib) val ft (lb_scalar lib) implicit explicit linear nonlinear freq y q = Cmul (symbol L lib freq q) (ft (val (q_field q))).
Proof.
  intros Hl. unfold rhs_meaning, symbol, linear_equation in *. rewrite <- Csum_mul_r, map_map.
  apply (f_equal Csum). apply map_ext_in. intros p Hp. rewrite Forall_forall in Hl. destruct (Hl p Hp) as (t & Et & Ht). rewrite Et.
  cbn [item_meaning item_symbol]. unfold product_meaning, amplitude. rewrite Ht. cbn [fa_exp fa_name]. ring.
Qed.

Section Linear.
  Variables (L : lang) (cs : list call) (es : list eqtext).
  Hypothesis LM : linear_model L cs es.
  Let HD := lm_declared _ _ _ LM.
  Let HL := dc_lang _ _ _ HD.
  Variable m : mstate.
  Hypothesis Em : run_calls new_mstate (cs ++ [CInit]) = Ok m.
  Variables (n : nat) (ft : transform) (lib : library).
  Hypothesis GL : good_library L n lib.
  Let p := simulation n ft lib m.

  Lemma linear_rhs e i t : i < length es -> get_rhs p e i t n = Some (repeat C0 n).
  Proof.
    intros Hi. destruct (declared_state L cs es m HD Em) as (_ & Hls & Hlr & _).
    destruct (nth_error (ms_rhs m) i) as [[tt dd]|] eqn:Er; [|apply nth_error_None in Er; lia].
    destruct (no_explicit L cs es LM m Em i tt dd Er) as [-> Hs].
    destruct (equations_with_nth (entry_term n ft lib (ms_names m)) (fun s t _ => lb_source lib s t) _ _ _ _ _ Hls Er) as (ss & Hss & Heq).
    rewrite Hs in Hss. injection Hss as <-. unfold get_rhs, p, simulation. cbn [p_eqns p_mods]. rewrite Heq. reflexivity.
  Qed.

  Lemma linear_written fields E t q k M d i : Forall (fun d => length d = n) fields -> linear_equation L q -> nth_error (l_fields L) i = Some (q_field q) ->
    nth_error fields i = Some d -> written L cs n ft lib fields E t q k M -> M = Cmul (symbol L lib (tfreq ft k) q) (nth k (fft ft d) C0).
  Proof.
    intros Hall Hl Hi Hd (val & im & ex & li & nl & (HV & _) & _ & _ & _ & ->). rewrite (linear_meaning L lib val (amplitude_at n ft k) im ex li nl (tfreq ft k) _ q Hl).
    apply (f_equal (Cmul _)). unfold amplitude_at. apply (f_equal (fun x => nth k (fft ft x) C0)).
    rewrite Forall_forall in Hall. rewrite <- (Hall d (nth_error_In _ _ Hd)). rewrite <- (map_nth_seq d C0) at 2. apply map_ext. intros j. exact (HV i _ d Hi Hd j).
  Qed.

  Hypothesis GT : good_transform n ft.

  (** The coefficient of the implicit part is the symbol. *)
  Lemma linear_denum e i q t : nth_error es i = Some q -> exists a, get_denum p e i t n = Some a /\ length a = n
    /\ forall k, k < n -> nth k a C0 = symbol L lib (tfreq ft k) q.
  Proof.
    intros Hq. destruct (declared_rhs L cs es HD) as (m' & Em' & _ & HR). rewrite Em in Em'. injection Em' as <-.
    assert (Hf := order_nth L es (lm_order _ _ _ LM) i q Hq).
    set (ones := to_real ft (repeat C1 n)).
    set (e0 := {| e_fields := map (fun _ => ones) (l_fields L); e_derived := map (fun _ => []) (pm_derived (ms_names m)) |}).
    assert (Lo : length ones = n).
    { unfold ones, to_real. rewrite div_real_length. apply (gt_ifft_len n ft GT). apply repeat_length. }
    assert (Hfit : fits L n m e0).
    { split; [cbn [e0 e_fields]; apply map_length|]. split; [|cbn [e0 e_derived]; apply map_length].
      cbn [e0 e_fields]. unfold all_length. apply Forall_forall. intros x Hx. apply in_map_iff in Hx. destruct Hx as (z & <- & _). exact Lo. }
    destruct (HR n ft lib e0 t i q GL Hfit Hq Hf) as (r & a & y & Er & Ea & Ey & Lr & La & HV). fold p in Er, Ea, Ey, HV.
    exists a. split; [|split; [exact La|]].
    { rewrite <- Ea. apply (sim_denum L cs es m HD Em n ft lib (linear_independent L cs es LM lib)). }
    intros k Hk. destruct (written_exists L cs es m HD Em n ft lib (spectrum p ft e0) t q k (e_fields e0)) as (M & HM).
    assert (Hi : i < length es) by (apply nth_error_Some; congruence).
    assert (HE := HV k Hk M HM). rewrite (linear_rhs _ i t Hi) in Er. injection Er as <-.
    assert (Hd : nth_error (e_fields e0) i = Some ones) by (cbn [e0 e_fields]; rewrite nth_error_map, Hf; reflexivity).
    assert (Hlin : linear_equation L q) by (assert (P := lm_linear _ _ _ LM); rewrite Forall_forall in P; apply P; eapply nth_error_In, Hq).
    rewrite (linear_written (e_fields e0) _ t q k M ones i (proj1 (proj2 Hfit)) Hlin Hf Hd HM) in HE.
    unfold spectrum in Ey. cbn [e_fields] in Ey. rewrite nth_error_map, Hd in Ey. injection Ey as <-.
    assert (H1 : nth k (fft ft ones) C0 = C1).
    { unfold ones. rewrite (gt_inverse n ft GT) by apply repeat_length. apply (repeat_spec n C1). apply nth_In. rewrite repeat_length. exact Hk. }
    rewrite H1 in HE. unfold source_sum in HE. rewrite (no_sources L cs es LM i) in HE. cbn [map Csum] in HE.
    rewrite nth_repeat in HE. transitivity (Cadd C0 (Cmul (nth k a C0) C1)); [ring|]. rewrite HE. ring.
  Qed.

  Lemma linear_order i q : nth_error es i = Some q -> i < length (l_fields L).
  Proof. intros Hq. rewrite <- (lm_order _ _ _ LM), map_length. apply nth_error_Some. congruence. Qed.

  Lemma mode_nth e i d k : nth_error (e_fields e) i = Some d -> mode ft e i k = nth k (fft ft d) C0.
  Proof. intros H. unfold mode. rewrite (nth_error_nth _ _ _ H). reflexivity. Qed.

  Lemma real_mode x k : length x = n -> nth k (fft ft (to_real ft x)) C0 = nth k x C0.
  Proof. intros H. rewrite (gt_inverse n ft GT) by exact H. reflexivity. Qed.

  Lemma all_nth (l : list data) N : length l = N -> (forall i, i < N -> exists d, nth_error l i = Some d /\ length d = n) -> all_length n l.
  Proof.
    intros HN H. unfold all_length. apply Forall_forall. intros x Hx. apply In_nth_error in Hx. destruct Hx as (i & Hi).
    destruct (H i) as (d & Hd & Hl); [rewrite <- HN; apply nth_error_Some; congruence|]. congruence.
  Qed.

  Lemma linear_euler dt t e : fits L n m e -> exists e', euler_step p ft None dt t e = Some e' /\ fits L n m e'
    /\ forall i q k, nth_error es i = Some q -> k < n ->
       mode ft e' i k = Cdiv (mode ft e i k) (Csub C1 (Cmul (RtoC dt) (symbol L lib (tfreq ft k) q))).
  Proof.
    intros Hf. assert (Hle := sim_enough L cs es m HD Em n ft lib (lm_order _ _ _ LM) e Hf). fold p in Hle.
    assert (Hu : unaffected_by_earlier p t (spectrum p ft e)).
    { intros i e' d Hd _ _ _. assert (Ld : length d = n) by exact (spectrum_length n p ft GT e (proj1 (proj2 Hf)) i d Hd). rewrite Ld.
      assert (Hi : i < length es).
      { rewrite <- (map_length q_field es), (lm_order _ _ _ LM). destruct Hf as (<- & _). rewrite <- (map_length (fft ft)). apply nth_error_Some.
        change (map (fft ft) (e_fields e)) with (e_fields (spectrum p ft e)). congruence. }
      split; [rewrite !linear_rhs by exact Hi; reflexivity|]. apply (sim_denum L cs es m HD Em n ft lib (linear_independent L cs es LM lib)). }
    destruct (euler_step_scheme p ft None dt t e Hle Hu) as (e' & Es & Lf & HS).
    assert (HF : forall i q, nth_error es i = Some q -> exists d d', nth_error (e_fields e) i = Some d /\ nth_error (e_fields e') i = Some d' /\ length d' = n
      /\ forall k, k < n -> nth k (fft ft d') C0 = Cdiv (nth k (fft ft d) C0) (Csub C1 (Cmul (RtoC dt) (symbol L lib (tfreq ft k) q)))).
    { intros i q Hq. assert (Hi := linear_order i q Hq). destruct (nth_error (e_fields e) i) as [d|] eqn:Ed.
      2: { apply nth_error_None in Ed. destruct Hf as (H & _). lia. }
      assert (Ey : nth_error (e_fields (spectrum p ft e)) i = Some (fft ft d)) by (unfold spectrum; cbn [e_fields]; rewrite nth_error_map, Ed; reflexivity).
      assert (Ly : length (fft ft d) = n) by exact (spectrum_length n p ft GT e (proj1 (proj2 Hf)) i _ Ey).
      destruct (linear_denum (spectrum p ft e) i q t Hq) as (a & Ea & La & HA).
      assert (Hil : i < length es) by (apply nth_error_Some; congruence).
      assert (Er := linear_rhs (spectrum p ft e) i t Hil).
      rewrite <- Ly in Ea at 1. rewrite <- Ly in Er at 1. assert (H := HS i _ _ _ Ey Er Ea). cbn [apply_filter] in H.
      assert (L3 : length (map3 (semi_implicit dt) (fft ft d) (repeat C0 n) a) = n) by (apply map3_length; [exact Ly|apply repeat_length|exact La]).
      exists d. eexists. split; [reflexivity|]. split; [exact H|]. split; [unfold to_real; rewrite div_real_length; apply (gt_ifft_len n ft GT); exact L3|].
      intros k Hk. rewrite real_mode by exact L3. rewrite (nth_map3 (semi_implicit dt) _ _ _ k n Ly (repeat_length _ _) La Hk).
      rewrite (HA k Hk), nth_repeat. unfold semi_implicit. apply (f_equal (fun z => Cdiv z _)). ring. }
    exists e'. split; [exact Es|]. split.
    - split; [rewrite Lf; apply Hf|]. split.
      + apply (all_nth (e_fields e') (length es)); [rewrite Lf, <- (map_length q_field es), (lm_order _ _ _ LM); apply Hf|].
        intros i Hi. destruct (nth_error es i) as [q|] eqn:Eq; [|apply nth_error_None in Eq; lia].
        destruct (HF i q Eq) as (d & d' & _ & Hd' & Ld' & _). exists d'. split; assumption.
      + destruct Hf as (_ & _ & H3). rewrite <- H3. unfold euler_step in Es.
        destruct (euler_fields _ _ _ _ _ _ _ _) as [e3|] eqn:E3; [|discriminate]. injection Es as <-. cbn [e_derived].
        destruct (euler_fields_keeps _ _ _ _ _ _ _ _ _ E3) as (-> & _). cbn [e_derived]. rewrite map_length. unfold sync. apply sync_from_count.
    - intros i q k Hq Hk. destruct (HF i q Hq) as (d & d' & Hd & Hd' & _ & HK). rewrite (mode_nth e i d k Hd), (mode_nth e' i d' k Hd'). exact (HK k Hk).
  Qed.

  Lemma linear_stage h t e Y K S : length Y = length es -> all_length n Y -> all_length n K -> length K = length Y -> implicit_stage p h t e Y K S -> length S = length Y /\ all_length n S.
  Proof.
    intros LY AY AK LK (LS & HS). split; [exact LS|]. apply (all_nth S (length es)); [congruence|]. intros i Hi.
    destruct (nth_error es i) as [q|] eqn:Eq; [|apply nth_error_None in Eq; lia].
    destruct (nth_error Y i) as [y|] eqn:Ey; [|apply nth_error_None in Ey; lia]. destruct (nth_error K i) as [r|] eqn:Er; [|apply nth_error_None in Er; lia].
    assert (Ly := all_length_nth n Y i y AY Ey). assert (Lr := all_length_nth n K i r AK Er).
    destruct (linear_denum e i q t Eq) as (a & Ea & La & _). rewrite <- Ly in Ea at 1. eexists. split; [exact (HS i y r a Ey Er Ea)|].
    apply map3_length; assumption.
  Qed.

  Lemma linear_part t d0 Y K : length Y = length es -> all_length n Y -> nonlinear_part p ft t d0 Y K -> forall i, i < length es -> nth_error K i = Some (repeat C0 n).
  Proof.
    intros LY AY (LK & HK) i Hi. destruct (nth_error Y i) as [y|] eqn:Ey; [|apply nth_error_None in Ey; lia].
    rewrite (HK i y Ey), (all_length_nth n Y i y AY Ey). apply linear_rhs, Hi.
  Qed.

  Lemma linear_part_length t d0 Y K : length Y = length es -> all_length n Y -> nonlinear_part p ft t d0 Y K -> all_length n K /\ length K = length Y.
  Proof.
    intros LY AY HP. assert (LK := proj1 HP). split; [|exact LK]. apply (all_nth K (length es)); [congruence|]. intros i Hi.
    exists (repeat C0 n). split; [exact (linear_part t d0 Y K LY AY HP i Hi)|apply repeat_length].
  Qed.

  Lemma linear_rk4 dt t e : fits L n m e -> exists e', rk4_step p ft None dt t e = Some e' /\ fits L n m e'
    /\ forall i q k, nth_error es i = Some q -> k < n ->
       mode ft e' i k = Cdiv (mode ft e i k) (Csub C1 (Cmul (RtoC dt) (symbol L lib (tfreq ft k) q))).
  Proof.
    intros Hf. assert (Hle := sim_enough L cs es m HD Em n ft lib (lm_order _ _ _ LM) e Hf). fold p in Hle.
    destruct (rk4_step_scheme n p ft None dt t GT (sim_keeps_length L m n ft lib GL) (sim_denum L cs es m HD Em n ft lib (linear_independent L cs es LM lib))
      (sim_derived m n ft lib) e (proj1 (proj2 Hf)) Hle (calc_count L m n ft lib e Hf))
      as (k1 & s2 & k2 & s3 & k3 & s4 & k4 & e' & N1 & I2 & N2 & I3 & N3 & I4 & N4 & Es & Lf & Ld & Hfin).
    set (Y := map (fft ft) (e_fields e)) in *.
    assert (Lfe : length (e_fields e) = length es) by (rewrite <- (map_length q_field es), (lm_order _ _ _ LM); apply Hf).
    assert (LY : length Y = length es) by (unfold Y; rewrite map_length; exact Lfe).
    assert (AY : all_length n Y).
    { unfold all_length, Y. apply Forall_forall. intros x Hx. apply in_map_iff in Hx. destruct Hx as (d & <- & Hd). apply (gt_fft_len n ft GT).
      destruct Hf as (_ & H & _). unfold all_length in H. rewrite Forall_forall in H. apply H, Hd. }
    destruct (linear_part_length t _ Y k1 LY AY N1) as [A1 L1]. destruct (linear_stage _ _ _ _ _ _ LY AY A1 L1 I2) as [LS2 AS2].
    assert (LS2' : length s2 = length es) by congruence.
    destruct (linear_part_length t _ s2 k2 LS2' AS2 N2) as [A2 L2]. destruct (linear_stage _ _ _ _ _ _ LY AY A2 ltac:(congruence) I3) as [LS3 AS3].
    assert (LS3' : length s3 = length es) by congruence.
    destruct (linear_part_length t _ s3 k3 LS3' AS3 N3) as [A3 L3]. destruct (linear_stage _ _ _ _ _ _ LY AY A3 ltac:(congruence) I4) as [LS4 AS4].
    assert (LS4' : length s4 = length es) by congruence.
    assert (HF : forall i q, nth_error es i = Some q -> exists d d', nth_error (e_fields e) i = Some d /\ nth_error (e_fields e') i = Some d' /\ length d' = n
      /\ forall k, k < n -> nth k (fft ft d') C0 = Cdiv (nth k (fft ft d) C0) (Csub C1 (Cmul (RtoC dt) (symbol L lib (tfreq ft k) q)))).
    { intros i q Hq. assert (Hi : i < length es) by (apply nth_error_Some; congruence).
      destruct (nth_error (e_fields e) i) as [d|] eqn:Ed; [|apply nth_error_None in Ed; lia].
      assert (Ey : nth_error Y i = Some (fft ft d)) by (unfold Y; rewrite nth_error_map, Ed; reflexivity).
      assert (Ly := all_length_nth n Y i _ AY Ey). destruct (linear_denum e i q t Hq) as (a & Ea & La & HA). rewrite <- Ly in Ea at 1.
      assert (H := Hfin i _ a _ _ _ _ Ey Ea (linear_part t _ Y k1 LY AY N1 i Hi) (linear_part t _ s2 k2 LS2' AS2 N2 i Hi)
        (linear_part t _ s3 k3 LS3' AS3 N3 i Hi) (linear_part t _ s4 k4 LS4' AS4 N4 i Hi)). cbn [apply_filter] in H.
      match type of H with _ = Some (to_real ft ?x) => assert (Lx : length x = n) by (rewrite map_length, seq_length; reflexivity) end.
      exists d. eexists. split; [reflexivity|]. split; [exact H|]. split; [unfold to_real; rewrite div_real_length; apply (gt_ifft_len n ft GT); exact Lx|].
      intros k Hk. rewrite real_mode by exact Lx. rewrite nth_map_seq by exact Hk. rewrite (HA k Hk), !nth_repeat. unfold combine4.
      apply (f_equal (fun z => Cdiv z _)). ring. }
    exists e'. split; [exact Es|]. split.
    - split; [rewrite Lf; apply Hf|]. split.
      + apply (all_nth (e_fields e') (length es)); [congruence|].
        intros i Hi. destruct (nth_error es i) as [q|] eqn:Eq; [|apply nth_error_None in Eq; lia].
        destruct (HF i q Eq) as (d & d' & _ & Hd' & Ld' & _). exists d'. split; assumption.
      + rewrite Ld. apply Hf.
    - intros i q k Hq Hk. destruct (HF i q Hq) as (d & d' & Hd & Hd' & _ & HK). rewrite (mode_nth e i d k Hd), (mode_nth e' i d' k Hd'). exact (HK k Hk).
  Qed.
End Linear.
