From Verif Require Import ListAux FileModel ParseProofs OperatorProofs DerivedProofs TextProofs EquationProofs EquationProofs2 EquationProofs3 EquationProofs4 EquationProofs5 EquationProofs6 EquationProofs7 EquationProofs8.
From Verif Require Import RegistryProofs RegistryProofs2 RegistryProofs3 StepProofs SplitSpec SimProofs SimProofs2 SimProofs3 SimProofs4 SimProofs5 SplitProofs2 SplitProofs3.
From Coq Require Import Lia Permutation.
Open Scope nat_scope.

Lemma sum_signed_ext f g l : (forall p, In p l -> f (fst p) = g (fst p)) -> sum_signed f l = sum_signed g l.
Proof. intros H. unfold sum_signed. f_equal. apply map_ext_in. intros p Hp. rewrite (H p Hp). reflexivity. Qed.

Section Declared.
  Variables (L : lang) (cs : list call) (es : list eqtext) (m : mstate).
  Hypothesis HDc : declared L cs es.
  Hypothesis Em : run_calls new_mstate (cs ++ [CInit]) = Ok m.
  Variables (n : nat) (ft : transform) (lib : library).
  Hypothesis GL : good_library L n lib.
  Let HL := dc_lang _ _ _ HDc.
  Let p := simulation n ft lib m.

  Lemma state_inv : minv L (ms_names m).
  Proof. apply (declared_state L cs es m HDc Em). Qed.

  Lemma field_index name : In name (l_fields L) -> exists i, nth_error (l_fields L) i = Some name /\ last_index (l_fields L) name = Some i.
  Proof. intros H. destruct (last_index_in _ _ H) as (i & Hi). exists i. split; [exact (last_index_some _ _ _ Hi)|exact Hi]. Qed.
  Lemma index_unique i j name : nth_error (l_fields L) i = Some name -> nth_error (l_fields L) j = Some name -> i = j.
  Proof.
    intros Hi Hj. apply (proj1 (NoDup_nth_error (l_fields L)) (fields_nodup L HL)); [apply nth_error_Some; congruence|congruence].
  Qed.

  Lemma brick_field E k i name : nth_error (l_fields L) i = Some name -> brick_at lib (ms_names m) E k name = nth k (nth i (e_fields E) []) C0.
  Proof.
    intros Hi. unfold brick_at. assert (Hin := nth_error_In _ _ Hi).
    rewrite last_index_none by (intros H; exact (declared_fresh L cs es m HDc Em name H Hin)).
    rewrite (mi_fields L _ state_inv). destruct (field_index name Hin) as (j & Hj & Hl). rewrite Hl, (index_unique j i name Hj Hi). reflexivity.
  Qed.
  Lemma brick_derived E E' k name : e_derived E = e_derived E' -> In name (pm_derived (ms_names m)) ->
    brick_at lib (ms_names m) E k name = brick_at lib (ms_names m) E' k name.
  Proof. intros He Hin. unfold brick_at. destruct (last_index_in _ _ Hin) as (i & ->). rewrite He. reflexivity. Qed.

  (** The brick of a product of an equation: the field itself, or the derived
      field calculated from the values at the last synchronisation. *)
  Lemma brick_shown E e k val lone t before fs after : fits L n m e -> e_derived E = e_derived (spectrum p ft e) ->
    good_product L t before fs after -> In (dnm fs) (all_field_names (ms_names m)) -> values L lib (e_fields e) val ->
    (forall j name d, nth_error (l_fields L) j = Some name -> nth_error (e_fields E) j = Some d -> lone name = nth k d C0) ->
    length (e_fields E) = length (l_fields L) ->
    (forall name, In name (l_functions L) -> lone name = amplitude_at n ft k (val name)) ->
    brick_at lib (ms_names m) E k (derived_name L t) = shown_amplitude L (lb_pow lib) val (amplitude_at n ft k) lone t.
  Proof.
    intros Hf He GP Hin HV Hl HlenE Hfun. assert (HM := state_inv).
    assert (GB := declared_bricks L HL m HM (declared_fresh L cs es m HDc Em) n lib GL ft e Hf k val HV). fold p in GB.
    assert (HB := brick_dnm L HL (ms_names m) HM t before fs after GP _ _ _ _ _ GB (gp_field _ _ _ _ _ GP) Hin).
    rewrite (derived_name_dnm L HL t before fs after GP).
    assert (HP := field_factors_perm L HL t before fs after GP).
    rewrite <- (amplitude_perm _ _ _ _ _ HP) in HB.
    assert (Hcase : (exists f, field_factors L t = [f] /\ fa_exp f = None) \/
       (shown_amplitude L (lb_pow lib) val (amplitude_at n ft k) lone t = amplitude (lb_pow lib) val (amplitude_at n ft k) (field_factors L t)
        /\ forall f, field_factors L t = [f] -> fa_exp f <> None)).
    { unfold shown_amplitude. destruct (field_factors L t) as [|f [|g r]]; [right; split; [reflexivity|discriminate]| |right; split; [reflexivity|discriminate]].
      destruct (fa_exp f) eqn:Ef; [right; split; [reflexivity|intros g Hg; injection Hg as <-; congruence]|left; exists f; auto]. }
    assert (Hdn : ~ In (dnm fs) (l_fields L) -> brick_at lib (ms_names m) E k (dnm fs) = brick_at lib (ms_names m) (spectrum p ft e) k (dnm fs)).
    { intros Hn. apply brick_derived; [exact He|]. unfold all_field_names in Hin. apply in_app_or in Hin. destruct Hin as [Hin|Hin]; [|exact Hin].
      rewrite (mi_fields L _ HM) in Hin. contradiction. }
    destruct Hcase as [(f & Ef & Hx)|[Hsh Hno]].
    - rewrite Ef in HP. apply Permutation_length_1_inv in HP.
      assert (Ed : dnm fs = fa_name f).
      { unfold dnm, dname, product_of. rewrite HP. cbn [map join_char]. unfold factor_text. rewrite Hx, app_nil_r. reflexivity. }
      unfold shown_amplitude. rewrite Ef, Hx. rewrite Ed in *.
      assert (Ha : In (fa_name f) (atoms L)).
      { destruct fs as [|w r]; [discriminate HP|]. cbn [map] in HP. injection HP as <- _. apply (fs_atoms L t before _ after GP w). left. reflexivity. }
      unfold atoms in Ha. apply in_app_or in Ha. destruct Ha as [Ha|Ha].
      + destruct (field_index _ Ha) as (i & Hi & _). rewrite (brick_field E k i _ Hi).
        assert (Hlt : i < length (e_fields E)) by (rewrite HlenE; apply nth_error_Some; congruence).
        destruct (nth_error (e_fields E) i) as [d|] eqn:Ei; [|apply nth_error_None in Ei; lia].
        rewrite (Hl i _ d Hi Ei), (nth_error_nth _ _ _ Ei). reflexivity.
      + rewrite Hdn by apply (function_not_field L HL _ Ha). rewrite HB. unfold amplitude. rewrite Ef, Hx. symmetry. apply Hfun, Ha.
    - rewrite Hsh, <- HB. destruct (in_dec (list_eq_dec ascii_dec) (dnm fs) (l_fields L)) as [Hi|Hn]; [|apply Hdn, Hn].
      (* a field alone: excluded unless the product is that field *)
      exfalso.
      assert (Hid : ident (dnm fs)) by (apply (gl_ident L HL), in_or_app; left; unfold atoms; apply in_or_app; left; exact Hi).
      assert (Hne : map wf_fac fs <> []) by (assert (X := gp_field _ _ _ _ _ GP); destruct fs; [congruence|discriminate]).
      destruct (product_is_ident (map wf_fac fs) Hne Hid) as (f & Ef & Efn). rewrite Ef in HP.
      apply Permutation_sym, Permutation_length_1_inv in HP. apply (Hno f HP).
      destruct (fa_exp f) as [ex|] eqn:Ex; [|reflexivity]. exfalso. unfold dnm, dname in Hid. rewrite Ef in Hid. unfold product_of in Hid. cbn [map join_char] in Hid.
      destruct (ident_no_op _ Hid) as [_ Hh]. apply Hh. unfold factor_text. rewrite Ex. apply in_or_app. right. left. reflexivity.
  Qed.

  (** The two parts of a right-hand side in a state where the derived fields are
      those of the last synchronisation. *)
  Lemma split_state E e t i q : fits L n m e -> e_derived E = e_derived (spectrum p ft e) -> length (e_fields E) = length (l_fields L) ->
    nth_error es i = Some q ->
    exists r a, get_rhs p E i t n = Some r /\ get_denum p E i t n = Some a /\ length r = n /\ length a = n
    /\ forall k X A, k < n -> split_written L cs n ft lib (e_fields e) (e_fields E) E t q k X A ->
       nth k r C0 = Cadd X (source_sum cs lib t i k) /\ nth k a C0 = A.
  Proof.
    intros Hf He HlE Hq. destruct (split_any L cs es m HDc Em n ft lib GL E t i q Hq) as (r & a & Er & Ea & Lr & La & HV).
    destruct (declared_parts L cs es m HDc Em i q Hq) as (Hcov & _).
    exists r, a. split; [exact Er|]. split; [exact Ea|]. split; [exact Lr|]. split; [exact La|].
    intros k X A Hk (val & lone & im & ex & li & nl & HVal & Hlone & Hfun & R1 & R2 & R3 & -> & ->).
    destruct (HV k Hk im ex li nl (Build_named _ _ _ _ _ _ _ _ _ R1 R2 R3)) as [V1 V2]. rewrite V1, V2. split; [|reflexivity]. f_equal.
    apply sum_signed_ext. intros [it d] Hin. cbn [fst]. destruct it as [w|os name]; [|reflexivity]. cbn [explicit_item].
    destruct (linear_in L (q_field q) w); [reflexivity|]. f_equal.
    assert (Hgq : good_equation L q) by (assert (Hg := dc_good _ _ _ HDc); rewrite Forall_forall in Hg; apply Hg; eapply nth_error_In, Hq).
    assert (Hgi : good_item L (IProduct w)).
    { destruct Hgq as (_ & _ & G1 & G2). unfold signed_items in Hin. destruct Hin as [Hin|Hin]; [injection Hin as <- _; exact G1|].
      apply in_map_iff in Hin. destruct Hin as ([s it] & Hs & Hin). cbn [fst snd] in Hs. injection Hs as -> _.
      rewrite Forall_forall in G2. apply (G2 _ Hin). }
    destruct Hgi as [(before & fs & after & GP) _].
    unfold all_cov in Hcov. rewrite Forall_forall in Hcov. specialize (Hcov _ Hin). cbn [fst cov] in Hcov.
    destruct (Hcov before fs after GP) as [Hnil|Hcn]; [exfalso; exact (gp_field _ _ _ _ _ GP Hnil)|].
    exact (brick_shown E e k val lone w before fs after Hf He GP Hcn HVal Hlone HlE Hfun).
  Qed.

  Lemma split_exists E t q k fields seen : exists X A, split_written L cs n ft lib fields seen E t q k X A.
  Proof.
    destruct (written_exists L cs es m HDc Em n ft lib E t q k fields) as (M & val & im & ex & li & nl & HVal & R1 & R2 & R3 & _).
    set (lone := fun name => match last_index (l_fields L) name with Some i => nth k (nth i seen []) C0 | None => amplitude_at n ft k (val name) end).
    eexists. eexists. exists val, lone, im, ex, li, nl. split; [exact HVal|]. split; [|split; [|split; [exact R1|split; [exact R2|split; [exact R3|split; reflexivity]]]]].
    - intros j name d Hj Hd. unfold lone. destruct (field_index name (nth_error_In _ _ Hj)) as (i & Hi & ->).
      rewrite (index_unique i j name Hi Hj), (nth_error_nth _ _ _ Hd). reflexivity.
    - intros name Hn. unfold lone. rewrite last_index_none by apply (function_not_field L HL name Hn). reflexivity.
  Qed.

  Hypothesis GT : good_transform n ft.
  Hypothesis Horder : map q_field es = l_fields L.

  Lemma split_sum e t i q k X A M : fits L n m e -> nth_error es i = Some q -> k < n ->
    split_written L cs n ft lib (e_fields e) (map (fft ft) (e_fields e)) (spectrum p ft e) t q k X A ->
    written L cs n ft lib (e_fields e) (spectrum p ft e) t q k M ->
    Cadd X (Cmul A (nth k (nth i (map (fft ft) (e_fields e)) []) C0)) = M.
  Proof.
    intros Hf Hq Hk HS HW. destruct (declared_rhs L cs es HDc) as (m' & Em' & _ & HR). rewrite Em in Em'. injection Em' as <-.
    assert (Hqf : nth_error (l_fields L) i = Some (q_field q)) by (rewrite <- Horder, nth_error_map, Hq; reflexivity).
    destruct (HR n ft lib e t i q GL Hf Hq Hqf) as (r & a & y & Er & Ea & Ey & _ & _ & HV). fold p in Er, Ea, Ey, HV.
    assert (Hle : length (e_fields (spectrum p ft e)) = length (l_fields L)) by (unfold spectrum; cbn [e_fields]; rewrite map_length; apply Hf).
    destruct (split_state (spectrum p ft e) e t i q Hf eq_refl Hle Hq) as (r' & a' & Er' & Ea' & _ & _ & HV').
    rewrite Er in Er'. injection Er' as <-. rewrite Ea in Ea'. injection Ea' as <-.
    destruct (HV' k X A Hk HS) as [E1 E2]. specialize (HV k Hk M HW). rewrite E1, E2 in HV.
    unfold spectrum in Ey. cbn [e_fields] in Ey. rewrite (nth_error_nth _ _ _ Ey).
    transitivity (Csub (Cadd (Cadd X (source_sum cs lib t i k)) (Cmul A (nth k y C0))) (source_sum cs lib t i k)); [ring|]. rewrite HV. ring.
  Qed.

  Lemma split_euler dt t e : fits L n m e ->
    exists e', euler_step p ft None dt t e = Some e' /\ length (e_fields e') = length (e_fields e) /\ all_length n (e_fields e')
    /\ forall i q, nth_error es i = Some q ->
       let seen := firstn i (map (fft ft) (e_fields e')) ++ skipn i (map (fft ft) (e_fields e)) in
       forall k X A, k < n ->
       split_written L cs n ft lib (e_fields e) seen {| e_fields := seen; e_derived := e_derived (spectrum p ft e) |} t q k X A ->
       nth k (fft ft (nth i (e_fields e') [])) C0
       = Cdiv (Cadd (nth k (fft ft (nth i (e_fields e) [])) C0) (Cmul (RtoC dt) (Cadd X (source_sum cs lib t i k)))) (Csub C1 (Cmul (RtoC dt) A)).
  Proof.
    intros Hf. assert (Henough := sim_enough L cs es m HDc Em n ft lib Horder e Hf).
    destruct (euler_step_sequential p ft None dt t e Henough) as (e' & Y' & Es & Ef & LY & HY).
    assert (HK := sim_keeps_length L m n ft lib GL). fold p in HK.
    assert (AY : all_length n Y').
    { unfold all_length. rewrite Forall_forall. intros d Hd. apply In_nth_error in Hd. destruct Hd as (i & Hi).
      assert (Hlt : i < length (e_fields (spectrum p ft e))).
      { unfold spectrum. cbn [e_fields]. rewrite map_length, <- LY. apply nth_error_Some. congruence. }
      destruct (nth_error (e_fields (spectrum p ft e)) i) as [y|] eqn:Ey; [|apply nth_error_None in Ey; lia].
      assert (Ly : length y = n) by (apply (spectrum_length n p ft GT e (proj1 (proj2 Hf)) i y Ey)).
      destruct (HY i y Ey) as (r & a & Er & Ea & Hi'). rewrite Hi in Hi'. injection Hi' as ->. cbn [apply_filter]. rewrite Ly in *.
      apply map3_length; [exact Ly|exact (get_rhs_length n p _ _ _ _ HK Er)|exact (get_denum_length n p _ _ _ _ HK Ea)]. }
    unfold all_length in AY. rewrite Forall_forall in AY.
    assert (EF : map (fft ft) (e_fields e') = Y').
    { rewrite Ef, map_map. rewrite <- (map_id Y') at 2. apply map_ext_in. intros d Hd. apply (gt_inverse n ft GT), AY, Hd. }
    exists e'. split; [exact Es|]. split; [rewrite Ef, map_length; exact LY|]. split.
    { rewrite Ef. unfold all_length. rewrite Forall_forall. intros d Hd. apply in_map_iff in Hd. destruct Hd as (y & <- & Hy). unfold to_real. rewrite div_real_length. apply (gt_ifft_len n ft GT), AY, Hy. }
    intros i q Hq seen k X A Hk HS. unfold seen in HS. rewrite EF in HS.
    assert (Hlt : i < length (e_fields e)).
    { destruct Hf as (-> & _). rewrite <- Horder, map_length. apply nth_error_Some. congruence. }
    destruct (nth_error (e_fields e) i) as [d|] eqn:Ed; [|apply nth_error_None in Ed; lia].
    assert (Ey : nth_error (e_fields (spectrum p ft e)) i = Some (fft ft d)) by (unfold spectrum; cbn [e_fields]; rewrite nth_error_map, Ed; reflexivity).
    assert (Ly : length (fft ft d) = n) by (apply (spectrum_length n p ft GT e (proj1 (proj2 Hf)) i _ Ey)).
    destruct (HY i _ Ey) as (r & a & Er & Ea & HYi). rewrite Ly in Er, Ea. cbn [apply_filter] in HYi.
    change (e_fields (spectrum p ft e)) with (map (fft ft) (e_fields e)) in Er, Ea.
    match type of Er with get_rhs _ ?M _ _ _ = _ => set (E := M) in * end.
    assert (HlE : length (e_fields E) = length (l_fields L)).
    { unfold E. cbn [e_fields]. rewrite app_length, firstn_length, skipn_length, map_length. destruct Hf as (<- & _). lia. }
    destruct (split_state E e t i q Hf eq_refl HlE Hq) as (r' & a' & Er' & Ea' & Lr & La & HV).
    rewrite Er in Er'. injection Er' as <-. rewrite Ea in Ea'. injection Ea' as <-.
    destruct (HV k X A Hk HS) as [V1 V2].
    rewrite (nth_error_nth _ _ _ Ed). assert (Hfi : nth_error (map (fft ft) (e_fields e')) i = Some (map3 (semi_implicit dt) (fft ft d) r a)) by (rewrite EF; exact HYi).
    rewrite nth_error_map in Hfi. destruct (nth_error (e_fields e') i) as [d'|] eqn:Ed'; [|discriminate]. cbn [option_map] in Hfi. injection Hfi as Hfi.
    rewrite (nth_error_nth _ _ _ Ed'), Hfi, (nth_map3 (semi_implicit dt) _ _ _ k n) by assumption. unfold semi_implicit. rewrite V1, V2. reflexivity.
  Qed.
End Declared.
