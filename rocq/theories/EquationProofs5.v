From Verif Require Import ListAux ParseProofs OperatorProofs EquationModel EquationSpec DerivedProofs TextProofs EquationProofs EquationProofs2 EquationProofs3 EquationProofs4.
From Coq Require Import Lra Qreals FunctionalExtensionality.
Open Scope nat_scope.

Lemma is_scalar_iff L n : is_scalar_name L n = true <-> In n (l_scalars L).
Proof. apply mem_str_In. Qed.
Lemma is_scalar_false L n : is_scalar_name L n = false <-> ~ In n (l_scalars L).
Proof. apply mem_str_notIn. Qed.

Lemma product_value_perm cpow val l l' : Permutation l l' -> product_value cpow val l = product_value cpow val l'.
Proof.
  induction 1 as [|x l l' _ IH|x y l|l1 l2 l3 _ IH1 _ IH2]; cbn [product_value]; [reflexivity| | |congruence].
  - rewrite IH. reflexivity.
  - ring.
Qed.

Lemma amplitude_perm cpow val ft l l' : Permutation l l' -> amplitude cpow val ft l = amplitude cpow val ft l'.
Proof.
  intros H. destruct l as [|x [|y l]].
  - apply Permutation_nil in H. subst. reflexivity.
  - apply Permutation_length_1_inv in H. subst. reflexivity.
  - assert (Hl := Permutation_length H). destruct l' as [|x' [|y' l']]; try discriminate.
    unfold amplitude. f_equal. apply functional_extensionality. intros j. apply product_value_perm, H.
Qed.

Lemma total_power_perm l l' : Permutation l l' -> total_power l = total_power l'.
Proof. induction 1; cbn [total_power]; lia. Qed.
Lemma total_power_app l l' : total_power (l ++ l') = total_power l + total_power l'.
Proof. induction l as [|w l IH]; cbn [total_power app]; lia. Qed.
Lemma total_power_none l : (forall w, In w l -> wf_op w = NoOp) -> total_power l = 0.
Proof.
  induction l as [|w l IH]; intros H; [reflexivity|]. cbn [total_power]. rewrite (H w (or_introl eq_refl)).
  cbn [oper_power]. apply IH. intros; apply H; right; assumption.
Qed.

Lemma eval_bricks_consts cpow brick scal fs : Forall (fun f => good_factor f /\ brick (fa_name f) = scal (fa_name f)) fs ->
  forall acc, eval_bricks cpow brick (map const_brick fs) acc = Cmul acc (product_value cpow scal fs).
Proof.
  induction 1 as [|f fs [Hf Hb] _ IH]; intros acc; cbn [map const_brick eval_bricks product_value]; [ring|].
  rewrite IH, factor_get_power by exact Hf. rewrite Hb. ring.
Qed.

Lemma noLA_factor L f : good_lang L -> good_factor f -> known L (fa_name f) -> ~ occurs ("LA"%string : str) (factor_text f).
Proof.
  intros HL Hf Hk (x & y & E). rewrite factor_text_eq in E. unfold exp_text in E. destruct Hf as [Hi He].
  destruct (fa_exp f) as [e|].
  - symmetry in E.
    destruct (occ_split hat_c x ("LA"%string : str) y (fa_name f) (expo_text e) ltac:(cbn; intuition discriminate) E)
      as [(y' & E1 & _)|(x' & _ & E1)].
    + apply (gl_noLA L HL (fa_name f) Hk). exists x, y'. exact E1.
    + apply (letter_not_expo "L"%char e); [reflexivity|exact He|]. rewrite E1. apply in_or_app. right. left. reflexivity.
  - rewrite app_nil_r in E. apply (gl_noLA L HL (fa_name f) Hk). exists x, y. exact E.
Qed.

Section Product.
  Variable L : lang.
  Hypothesis HL : good_lang L.
  Variable m : pmodel.
  Hypothesis HM : minv L m.
  Variables t before fs after : list wfactor.
  Hypothesis GP : good_product L t before fs after.

  Lemma Hok w : In w t -> okw L w.
  Proof. exact (t_ok L t before fs after GP w). Qed.

  Lemma scalar_in_t w : In w t -> is_scalar_name L (wf_name w) = true -> wf_op w = NoOp.
  Proof.
    intros Hw Hs. apply is_scalar_iff in Hs. destruct (parts L t before fs after GP w Hw) as [H|H].
    - exfalso. exact (fs_not_scalar L HL t before fs after GP w H Hs).
    - apply (gp_scalars _ _ _ _ _ GP w H).
  Qed.

  Lemma field_in_t w : In w t -> is_scalar_name L (wf_name w) = false -> In w fs.
  Proof. intros Hw Hs. apply is_scalar_false in Hs. exact (not_scalar_in_fs L t before fs after GP w Hw Hs). Qed.

  Lemma noLA_text w : In w t -> wf_op w = NoOp -> ~ occurs ("LA"%string : str) (wf_text w).
  Proof.
    intros Hw Ho. unfold wf_text. rewrite Ho. cbn [oper_text app]. destruct (Hok w Hw) as (Hf & _ & Hk & _).
    apply noLA_factor with (L := L); assumption.
  Qed.

  Definition elem_of (w : wfactor) : factor + str :=
    if is_scalar_name L (wf_name w) then inl (wf_fac w) else inr (wf_text w).

  Lemma elem_of_text w : In w t -> elem_text (elem_of w) = wf_text w.
  Proof.
    intros Hw. unfold elem_of. destruct (is_scalar_name L (wf_name w)) eqn:E; [|reflexivity].
    cbn [elem_text]. unfold wf_text. rewrite (scalar_in_t w Hw E). reflexivity.
  Qed.

  Lemma elem_of_good w : In w t -> good_elem L m (elem_of w).
  Proof.
    intros Hw. unfold elem_of. destruct (is_scalar_name L (wf_name w)) eqn:E; cbn [good_elem].
    - split; [apply (Hok w Hw)|apply is_scalar_iff, E].
    - apply (field_silent L HL m HM); [apply Hok, Hw|]. apply (fs_atoms L t before fs after GP), field_in_t; assumption.
  Qed.

  Lemma consts_of l : consts (map elem_of l) = scalar_factors L l.
  Proof.
    unfold scalar_factors. induction l as [|w l IH]; [reflexivity|]. cbn [map filter]. unfold elem_of at 1.
    destruct (is_scalar_name L (wf_name w)); cbn [consts map]; rewrite IH; reflexivity.
  Qed.

  Lemma scalar_factors_good cpow val ft scal brick : good_bricks L m cpow val ft scal brick ->
    Forall (fun f => good_factor f /\ brick (fa_name f) = scal (fa_name f)) (scalar_factors L t).
  Proof.
    intros (H1 & _). apply Forall_forall. intros f Hin. unfold scalar_factors in Hin. apply in_map_iff in Hin.
    destruct Hin as (w & <- & Hw). apply filter_In in Hw. destruct Hw as [Hw Hs]. split; [apply (Hok w Hw)|].
    apply H1, is_scalar_iff, Hs.
  Qed.

  Lemma factors_texts l : l <> [] -> Forall (fun s => ~ In star_c s) l -> factors (join_char star_c l) = l.
  Proof. intros H1 H2. unfold factors. apply split_join; assumption. Qed.

  Lemma no_op_no_lap l : l <> [] -> (forall s, In s l -> ~ occurs ("LA"%string : str) s) -> contains (join_char star_c l) lap_s = false.
  Proof.
    intros Hne H. apply contains_false. intros (x & y & E).
    assert (Ho : occurs ("LA"%string : str) (join_char star_c l)) by (exists x, ("P"%char :: y); exact E).
    apply occurs_join in Ho; [|exact Hne|discriminate|cbn; intuition discriminate].
    destruct Ho as (s & Hs & Ho). exact (H s Hs Ho).
  Qed.

  Lemma lap_contains l1 o rest : o <> NoOp -> contains (lead_text l1 ++ oper_text o ++ rest) lap_s = true.
  Proof.
    intros Ho. apply contains_true. destruct o as [| |ds]; [congruence| |]; cbn [oper_text].
    - exists (lead_text l1), rest. reflexivity.
    - exists (lead_text l1), (hat_c :: map digit_text ds ++ rest). reflexivity.
  Qed.

  Lemma filter_fs : Permutation (filter (fun w => negb (is_scalar_name L (wf_name w))) t) fs.
  Proof.
    eapply Permutation_trans; [apply perm_filter, (gp_perm _ _ _ _ _ GP)|]. rewrite !filter_app.
    assert (Hz : forall l, incl l (before ++ after) -> filter (fun w => negb (is_scalar_name L (wf_name w))) l = []).
    { induction l as [|w l IH]; intros Hi; [reflexivity|]. cbn [filter].
      assert (E : is_scalar_name L (wf_name w) = true) by (apply is_scalar_iff, (gp_scalars _ _ _ _ _ GP), Hi; left; reflexivity).
      rewrite E. cbn [negb]. apply IH. intros z Hz. apply Hi. right. exact Hz. }
    rewrite (Hz before) by apply incl_appl, incl_refl. rewrite (Hz after) by apply incl_appr, incl_refl.
    cbn [app]. rewrite app_nil_r. rewrite filter_all; [apply Permutation_refl|].
    apply forallb_forall. intros w Hw. apply negb_true_iff, is_scalar_false, (fs_not_scalar L HL t before fs after GP w Hw).
  Qed.

  Lemma field_factors_perm : Permutation (field_factors L t) (map wf_fac fs).
  Proof. apply Permutation_map, filter_fs. Qed.

  Lemma total_power_t : total_power t = oper_power (op0 fs).
  Proof.
    rewrite (total_power_perm _ _ (gp_perm _ _ _ _ _ GP)). rewrite !total_power_app.
    rewrite (total_power_none before) by (intros w Hw; apply (gp_scalars _ _ _ _ _ GP); apply in_or_app; left; exact Hw).
    rewrite (total_power_none after) by (intros w Hw; apply (gp_scalars _ _ _ _ _ GP); apply in_or_app; right; exact Hw).
    unfold op0. assert (H := fs_tl L t before fs after GP). destruct fs as [|w r]; [reflexivity|]. cbn [tl total_power] in *.
    rewrite (total_power_none r H). lia.
  Qed.

  (** The operators of the other factors. *)
  Lemma others_no_op w w1 w2 : t = w1 ++ w :: w2 -> hd_error fs = Some w -> wf_op w <> NoOp ->
    forall v, In v (w1 ++ w2) -> wf_op v = NoOp.
  Proof.
    intros Et Hh Hop v Hv. assert (Hvt : In v t) by (rewrite Et; rewrite in_app_iff in *; cbn; tauto).
    destruct (is_scalar_name L (wf_name v)) eqn:E; [apply scalar_in_t; assumption|].
    assert (Hvf := field_in_t v Hvt E). assert (Htl := fs_tl L t before fs after GP).
    assert (Hp := filter_fs).
    assert (Hnd : NoDup fs) by (apply NoDup_map_inv with (f := wf_name); apply (gp_distinct _ _ _ _ _ GP)).
    destruct fs as [|w0 r]; [discriminate|]. injection Hh as ->. destruct Hvf as [<-|Hvf]; [|apply Htl; exact Hvf].
    exfalso. (* w would occur twice *)
    assert (Hnd' : NoDup (filter (fun u => negb (is_scalar_name L (wf_name u))) t)) by (eapply Permutation_NoDup; [apply Permutation_sym, Hp|exact Hnd]).
    rewrite Et, filter_app in Hnd'. cbn [filter] in Hnd'. rewrite E in Hnd'. cbn [negb] in Hnd'.
    apply NoDup_remove_2 in Hnd'. apply Hnd'. rewrite <- filter_app. apply filter_In. rewrite E. auto.
  Qed.

  Lemma word_start l rest : (exists w, In w t /\ l = wf_text w /\ wf_op w = NoOp) -> exists c r, l ++ rest = c :: r /\ letter_c c = true.
  Proof.
    intros (w & Hw & -> & Ho). unfold wf_text. rewrite Ho. cbn [oper_text app]. rewrite factor_text_eq.
    destruct (Hok w Hw) as ((Hi & _) & _). destruct (fa_name (wf_fac w)) as [|c n]; [destruct Hi|].
    destruct Hi as [Hc _]. exists c, ((n ++ exp_text (wf_fac w)) ++ rest). split; [reflexivity|exact Hc].
  Qed.

  Definition sign_of (d : option ascii) : bool := match d with Some c => Ascii.eqb c minus_c | None => false end.
  Lemma sign_of_value d : (if sign_of d then -1 else 1)%R = sign_value d.
  Proof. destruct d as [c|]; reflexivity. Qed.

  Lemma lap_explicit : (if contains (product_text t) lap_s
      then Some (Z.to_nat (int_of_Q (get_power (lap_text (product_text t))))) else None)
    = match op0 fs with NoOp => None | o => Some (oper_power o) end.
  Proof.
    destruct (match op0 fs with NoOp => true | _ => false end) eqn:Eop.
    - assert (Eo : op0 fs = NoOp) by (destruct (op0 fs); congruence). rewrite Eo.
      assert (Hall : forall w, In w t -> wf_op w = NoOp).
      { intros w Hw. destruct (is_scalar_name L (wf_name w)) eqn:E; [apply scalar_in_t; assumption|].
        assert (Hvf := field_in_t w Hw E). assert (Htl := fs_tl L t before fs after GP).
        unfold op0 in Eo. destruct fs as [|w0 r]; [destruct Hvf|]. destruct Hvf as [<-|Hvf]; [exact Eo|apply Htl, Hvf]. }
      unfold product_text. rewrite no_op_no_lap; [reflexivity| |].
      + apply map_nonempty, (gp_nonempty _ _ _ _ _ GP).
      + intros s Hs. apply in_map_iff in Hs. destruct Hs as (w & <- & Hw). apply noLA_text; [exact Hw|apply Hall, Hw].
    - assert (Hne : op0 fs <> NoOp) by (intros E; rewrite E in Eop; discriminate).
      assert (Hh : exists w, hd_error fs = Some w /\ op0 fs = wf_op w).
      { unfold op0 in *. destruct fs as [|w r]; [congruence|]. exists w. auto. }
      destruct Hh as (w & Hh & Eo). rewrite Eo in *.
      assert (Hw : In w fs) by (destruct fs; [discriminate|injection Hh as ->; left; reflexivity]).
      assert (Hwt : In w t).
      { apply (in_parts L t before fs after GP). apply in_or_app. right. apply in_or_app. left. exact Hw. }
      destruct (in_split _ _ Hwt) as (w1 & w2 & Et).
      assert (Hno := others_no_op w w1 w2 Et Hh Hne).
      assert (ET : product_text t = lead_text (texts w1) ++ oper_text (wf_op w) ++ (wf_name w ++ exp_text (wf_fac w) ++ tail_text (texts w2))).
      { rewrite Et. apply text_mid. }
      rewrite ET. rewrite lap_contains by exact Hne. rewrite lap_power_spec; [destruct (wf_op w); [congruence|reflexivity|reflexivity]|exact Hne| | |].
      + apply (Hok w Hwt).
      + right. left. destruct (atom_first L HL (wf_name w) (fs_atoms L t before fs after GP w Hw)) as (c & a' & -> & Hc & Hopl).
        eexists c, _. split; [reflexivity|]. split; [exact Hc|]. intros ->. apply Hopl. right. right. reflexivity.
      + intros s Hs. apply in_map_iff in Hs. destruct Hs as (v & <- & Hv). apply noLA_text.
        * rewrite Et. apply in_or_app. left. exact Hv.
        * apply Hno. apply in_or_app. left. exact Hv.
  Qed.

  Lemma brick_dnm cpow val ft scal brick : good_bricks L m cpow val ft scal brick -> fs <> [] ->
    In (dnm fs) (all_field_names m) -> brick (dnm fs) = amplitude cpow val ft (map wf_fac fs).
  Proof.
    intros (_ & H2 & H3) Hne Hin. unfold dnm, dname in *.
    assert (Hsingle : forall f, product_of [f] = factor_text f) by reflexivity.
    assert (Hatom : forall w, fs = [w] -> fa_exp (wf_fac w) = None ->
       brick (product_of (map wf_fac fs)) = amplitude cpow val ft (map wf_fac fs)).
    { intros w E He. assert (Ha := fs_atoms L t before fs after GP w). rewrite E in *. cbn [map]. rewrite Hsingle, factor_text_eq.
      unfold exp_text. rewrite He, app_nil_r. unfold amplitude. rewrite He. apply H2. apply Ha. left. reflexivity. }
    destruct (gp_atoms _ _ _ _ _ GP) as [Hall|(w & E & Hfun & He)].
    2:{ apply (Hatom w E He). }
    assert (Hg : Forall (fun f => good_factor f /\ In (fa_name f) (l_fields L)) (map wf_fac fs)).
    { apply Forall_forall. intros f Hf. apply in_map_iff in Hf. destruct Hf as (w & <- & Hw). split; [|apply (Hall w Hw)].
      assert (H := fs_ok L t before fs after GP). rewrite Forall_forall in H. apply (H w Hw). }
    assert (Hcase : (exists w, fs = [w] /\ fa_exp (wf_fac w) = None) \/ ~ In (product_of (map wf_fac fs)) (l_fields L)).
    { destruct fs as [|w [|w' r]] eqn:Efs; [congruence| |].
      - destruct (fa_exp (wf_fac w)) as [e|] eqn:Ee; [right|left; exists w; auto].
        intros Hf. cbn [map] in Hf. rewrite Hsingle, factor_text_eq in Hf. unfold exp_text in Hf. rewrite Ee in Hf.
        apply (known_no_hat L HL _ (atom_known L _ ltac:(apply in_or_app; left; exact Hf))). apply in_or_app. right. left. reflexivity.
      - right. intros Hf. apply (known_no_star L HL _ (atom_known L _ ltac:(apply in_or_app; left; exact Hf))).
        unfold product_of. cbn [map]. rewrite join_cons. apply in_or_app. right. cbn [tail_text flat_map]. left. reflexivity. }
    destruct Hcase as [(w & E & He)|Hnf]; [apply (Hatom w E He)|].
    unfold all_field_names in Hin. rewrite (mi_fields L m HM) in Hin. apply in_app_or in Hin. destruct Hin as [Hin|Hin]; [contradiction|].
    rewrite H3; [|destruct fs; [congruence|discriminate]|exact Hg|exact Hin].
    destruct fs as [|w [|w' r]]; [congruence| |reflexivity]. cbn [map amplitude].
    destruct (fa_exp (wf_fac w)) eqn:Ee; [reflexivity|]. exfalso. apply Hnf. cbn [map]. rewrite Hsingle, factor_text_eq.
    unfold exp_text. rewrite Ee, app_nil_r. apply Hall. left. reflexivity.
  Qed.

  Lemma no_names_nil f : fs = [] -> In f (all_field_names m) -> ~ occurs f (sort_factors (product_text t)).
  Proof.
    intros Hnil Hf (x & y & E). assert (Hnl := names_like L m HM). rewrite Forall_forall in Hnl. specialize (Hnl f Hf).
    destruct (name_like_ends L f Hnl) as (a & r & _ & _ & _ & Ha & -> & _).
    rewrite (sort_product L t before fs after GP) in E. rewrite Hnil in E. cbn [app] in E.
    assert (Hoc : occurs a (product_text (before ++ after))) by (exists x, (r ++ y); rewrite E, <- !app_assoc; reflexivity).
    assert (Hp : Permutation t (before ++ after)) by (assert (H := gp_perm _ _ _ _ _ GP); rewrite Hnil in H; exact H).
    unfold product_text in Hoc. apply occurs_join in Hoc.
    - destruct Hoc as (s & Hs & Hoc). apply in_map_iff in Hs. destruct Hs as (w & <- & Hw).
      revert Hoc. apply (scalar_no_atom L HL); [|apply (gp_scalars _ _ _ _ _ GP w Hw)|exact Ha].
      apply Hok. eapply Permutation_in; [apply Permutation_sym, Hp|exact Hw].
    - apply map_nonempty. intros Ez. rewrite Ez in Hp. apply Permutation_sym, Permutation_nil in Hp. exact (gp_nonempty _ _ _ _ _ GP Hp).
    - apply (atom_nonempty L HL), Ha.
    - apply (known_no_star L HL), atom_known, Ha.
  Qed.

  Lemma concrete_explicit d : (fs = [] \/ In (dnm fs) (all_field_names m)) ->
    exists p, concrete_term m (product_text t, d) = Ok p /\
      forall cpow val ft scal brick freq, good_bricks L m cpow val ft scal brick ->
        eval_pterm cpow brick freq p = Cmul (RtoC (sign_value d)) (product_meaning L cpow val ft scal freq t).
  Proof.
    intros Hcov. unfold concrete_term.
    assert (Ef : factors (product_text t) = map elem_text (map elem_of t)).
    { unfold product_text. rewrite factors_texts.
      - rewrite map_map. apply map_ext_in. intros w Hw. symmetry. apply elem_of_text, Hw.
      - apply map_nonempty, (gp_nonempty _ _ _ _ _ GP).
      - apply (texts_no_star L), (t_all L t before fs after GP). }
    rewrite Ef, (brick_loop_spec L HL m HM).
    2:{ apply Forall_forall. intros e He. apply in_map_iff in He. destruct He as (w & <- & Hw). apply elem_of_good, Hw. }
    cbn [app bind]. rewrite consts_of. eexists. split; [reflexivity|].
    intros cpow val ft scal brick freq GB. unfold eval_pterm. cbn [pt_neg pt_bricks pt_field pt_lap].
    rewrite lap_explicit. rewrite (eval_bricks_consts cpow brick scal) by (eapply scalar_factors_good; exact GB).
    change (match d with Some c => Ascii.eqb c minus_c | None => false end) with (sign_of d). rewrite sign_of_value.
    assert (Efield : match get_field_name (sort_factors (product_text t)) (all_field_names m) with
       | [] => Cmul (RtoC (sign_value d)) (product_value cpow scal (scalar_factors L t))
       | _ => Cmul (Cmul (RtoC (sign_value d)) (product_value cpow scal (scalar_factors L t)))
                   (brick (get_field_name (sort_factors (product_text t)) (all_field_names m))) end
       = Cmul (Cmul (RtoC (sign_value d)) (product_value cpow scal (scalar_factors L t))) (amplitude cpow val ft (field_factors L t))).
    { rewrite (amplitude_perm _ _ _ _ _ field_factors_perm).
      assert (Hc : fs = [] \/ fs <> []) by (destruct fs; [left; reflexivity|right; discriminate]).
      destruct Hc as [Hnil|Hne].
      - exfalso. exact (gp_field _ _ _ _ _ GP Hnil).
      - destruct Hcov as [Hnil|Hin]; [contradiction|].
        assert (Hnl := names_like L m HM).
        rewrite (field_name_product L HL t before fs after GP) by assumption.
        rewrite (brick_dnm cpow val ft scal brick GB Hne Hin).
        assert (Hd : dnm fs <> []) by (rewrite Forall_forall in Hnl; apply (name_like_nonempty L HL), Hnl, Hin).
        destruct (dnm fs); [congruence|reflexivity]. }
    rewrite Efield. unfold product_meaning. rewrite total_power_t.
    destruct (op0 fs) as [| |ds]; [cbn [oper_power pow]; change (RtoC 1) with C1; ring| |]; rewrite lap_eval_symbol; ring.
  Qed.
End Product.
