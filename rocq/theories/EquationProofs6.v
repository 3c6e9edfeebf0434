From Verif Require Import ListAux ParseProofs OperatorProofs EquationModel EquationSpec DerivedProofs TextProofs EquationProofs EquationProofs2 EquationProofs3 EquationProofs4 EquationProofs5.
From Coq Require Import Lra Qreals FunctionalExtensionality.
Open Scope nat_scope.

Lemma consts_app a b : consts (a ++ b) = consts a ++ consts b.
Proof. induction a as [|[f|s] a IH]; cbn [app consts]; rewrite ?IH; reflexivity. Qed.

Section Bilinear.
  Variable L : lang.
  Hypothesis HL : good_lang L.
  Variable m : pmodel.
  Hypothesis HM : minv L m.
  Variables t before fs after : list wfactor.
  Hypothesis GP : good_product L t before fs after.
  Variable field : str.
  Hypothesis Hfield : In field (l_fields L).
  Variables (w1 w2 : list wfactor) (w : wfactor).
  Hypothesis Et : t = w1 ++ w :: w2.
  Hypothesis Efs : fs = [w].
  Hypothesis En : wf_name w = field.
  Hypothesis Ee : fa_exp (wf_fac w) = None.

  Lemma fat : In field (atoms L).
  Proof. apply in_or_app. left. exact Hfield. Qed.
  Lemma w_in : In w t.
  Proof. rewrite Et. apply in_mid. Qed.
  Lemma okt v : In v t -> okw L v.
  Proof. exact (t_ok L t before fs after GP v). Qed.

  Lemma side_in v : In v (w1 ++ w2) -> In v t.
  Proof. intros Hv. rewrite Et. rewrite in_app_iff in *. cbn. tauto. Qed.

  Lemma w_not_scalar : is_scalar_name L (wf_name w) = false.
  Proof. apply is_scalar_false. rewrite En. apply (gl_scalar L HL), fat. Qed.

  Lemma side_scalar v : In v (w1 ++ w2) -> is_scalar_name L (wf_name v) = true.
  Proof.
    intros Hv. destruct (is_scalar_name L (wf_name v)) eqn:E; [reflexivity|]. exfalso.
    assert (Hvf := field_in_t L t before fs after GP v (side_in v Hv) E). rewrite Efs in Hvf. destruct Hvf as [<-|[]].
    assert (Hnd : NoDup (filter (fun u => negb (is_scalar_name L (wf_name u))) t)).
    { eapply Permutation_NoDup; [apply Permutation_sym, (filter_fs L HL t before fs after GP)|]. rewrite Efs. repeat constructor. intros []. }
    rewrite Et, filter_app in Hnd. cbn [filter] in Hnd. rewrite E in Hnd. cbn [negb] in Hnd.
    apply NoDup_remove_2 in Hnd. apply Hnd. rewrite <- filter_app. apply filter_In. rewrite E. auto.
  Qed.

  Lemma side_no_op v : In v (w1 ++ w2) -> wf_op v = NoOp.
  Proof. intros Hv. apply (scalar_in_t L HL t before fs after GP); [apply side_in, Hv|apply side_scalar, Hv]. Qed.

  Let o := wf_op w.
  Let rest := tail_text (texts w2).
  Definition short_texts : list str := texts w1 ++ oper_text (wf_op w) :: texts w2.

  Lemma text_eq : product_text t = (lead_text (texts w1) ++ oper_text (wf_op w)) ++ field ++ tail_text (texts w2).
  Proof. rewrite Et, text_mid, En. unfold exp_text. rewrite Ee. rewrite <- app_assoc. reflexivity. Qed.

  Lemma only_place (x y : str) : product_text t = x ++ field ++ y -> length x = length (lead_text (texts w1) ++ oper_text (wf_op w)).
  Proof.
    intros E. destruct (product_occ L HL t field x y (t_all L t before fs after GP) (gp_nonempty _ _ _ _ _ GP) fat E)
      as (v1 & v & v2 & Ev & Env & Ex & _).
    destruct (unique_position L HL t before fs after GP field w1 w w2 v1 v v2 fat Et En Ev Env) as [-> ->]. rewrite Ex. reflexivity.
  Qed.

  Lemma short_text : delete_all (product_text t) field = join_char star_c short_texts.
  Proof.
    unfold short_texts. rewrite join_mid, app_assoc. rewrite text_eq. apply delete_once.
    - apply (atom_nonempty L HL), fat.
    - intros x y E. rewrite <- text_eq in E. rewrite (only_place x y E). lia.
    - intros (x & y & E).
      assert (E' : product_text t = ((lead_text (texts w1) ++ oper_text (wf_op w)) ++ field ++ x) ++ field ++ y).
      { rewrite text_eq, E, <- !app_assoc. reflexivity. }
      apply only_place in E'. assert (Hn := atom_nonempty L HL field fat). rewrite !app_length in E'.
      destruct field; [congruence|]. cbn [length] in E'. lia.
  Qed.

  Lemma short_nonempty : short_texts <> [].
  Proof. unfold short_texts. destruct (texts w1); discriminate. Qed.

  Lemma short_in s : In s short_texts -> s = oper_text (wf_op w) \/ exists v, In v (w1 ++ w2) /\ s = wf_text v.
  Proof.
    unfold short_texts, texts. intros H. apply in_app_or in H. destruct H as [H|[<-|H]]; [right|left; reflexivity|right].
    - apply in_map_iff in H. destruct H as (v & <- & Hv). exists v. split; [apply in_or_app; left; exact Hv|reflexivity].
    - apply in_map_iff in H. destruct H as (v & <- & Hv). exists v. split; [apply in_or_app; right; exact Hv|reflexivity].
  Qed.

  Lemma w_oper : good_oper (wf_op w).
  Proof. apply (okt w w_in). Qed.

  Lemma short_no_star : Forall (fun s => ~ In star_c s) short_texts.
  Proof.
    apply Forall_forall. intros s Hs. destruct (short_in s Hs) as [-> |(v & Hv & ->)]; [apply star_not_oper, w_oper|].
    assert (H := texts_no_star L t (t_all L t before fs after GP)). rewrite Forall_forall in H. apply H. apply in_map, side_in, Hv.
  Qed.

  Lemma short_no_atom a : In a (atoms L) -> ~ occurs a (join_char star_c (sort_str short_texts)).
  Proof.
    intros Ha Ho. apply occurs_join in Ho.
    - destruct Ho as (s & Hs & Ho). apply (Permutation_in _ (sort_perm short_texts)) in Hs.
      destruct (short_in s Hs) as [-> |(v & Hv & ->)].
      + exact (atom_not_in_oper L HL a _ Ha w_oper Ho).
      + revert Ho. apply (scalar_no_atom L HL); [apply okt, side_in, Hv|apply is_scalar_iff, side_scalar, Hv|exact Ha].
    - intros E. assert (Hp := sort_perm short_texts). rewrite E in Hp. apply Permutation_nil in Hp. exact (short_nonempty Hp).
    - apply (atom_nonempty L HL), Ha.
    - apply (known_no_star L HL), atom_known, Ha.
  Qed.

  Lemma short_field : get_field_name (sort_factors (join_char star_c short_texts)) (all_field_names m) = [].
  Proof.
    apply field_name_none. intros f Hf (x & y & E). assert (Hnl := names_like L m HM). rewrite Forall_forall in Hnl.
    destruct (name_like_ends L f (Hnl f Hf)) as (a & r & _ & _ & _ & Ha & -> & _).
    unfold sort_factors in E. rewrite split_join in E by (exact short_nonempty || exact short_no_star).
    apply (short_no_atom a Ha). exists x, (r ++ y). rewrite E, <- app_assoc. reflexivity.
  Qed.

  Definition short_elems : list (factor + str) := map (elem_of L) w1 ++ inr (oper_text (wf_op w)) :: map (elem_of L) w2.

  Lemma short_elems_text : map elem_text short_elems = short_texts.
  Proof.
    unfold short_elems, short_texts, texts. rewrite map_app. cbn [map elem_text]. rewrite !map_map. f_equal; [|f_equal].
    - apply map_ext_in. intros v Hv. apply (elem_of_text L HL t before fs after GP). apply side_in, in_or_app. left. exact Hv.
    - apply map_ext_in. intros v Hv. apply (elem_of_text L HL t before fs after GP). apply side_in, in_or_app. right. exact Hv.
  Qed.

  Lemma short_elems_good : Forall (good_elem L m) short_elems.
  Proof.
    unfold short_elems. apply Forall_app. split; [|constructor].
    - apply Forall_forall. intros e He. apply in_map_iff in He. destruct He as (v & <- & Hv).
      apply (elem_of_good L HL m HM t before fs after GP). apply side_in, in_or_app. left. exact Hv.
    - apply (oper_silent L HL m HM), w_oper.
    - apply Forall_forall. intros e He. apply in_map_iff in He. destruct He as (v & <- & Hv).
      apply (elem_of_good L HL m HM t before fs after GP). apply side_in, in_or_app. right. exact Hv.
  Qed.

  Lemma short_consts : consts short_elems = scalar_factors L t.
  Proof.
    unfold short_elems. rewrite consts_app. cbn [consts]. rewrite !consts_of.
    unfold scalar_factors. rewrite Et, filter_app. cbn [filter]. rewrite w_not_scalar, map_app. reflexivity.
  Qed.

  Lemma short_lap : (if contains (join_char star_c short_texts) lap_s
      then Some (Z.to_nat (int_of_Q (get_power (lap_text (join_char star_c short_texts))))) else None)
    = match wf_op w with NoOp => None | op => Some (oper_power op) end.
  Proof.
    destruct (match wf_op w with NoOp => true | _ => false end) eqn:Eo.
    - assert (E : wf_op w = NoOp) by (destruct (wf_op w); congruence).
      rewrite no_op_no_lap; [rewrite E; reflexivity|exact short_nonempty|].
      intros s Hs. destruct (short_in s Hs) as [-> |(v & Hv & ->)].
      + rewrite E. intros (x & y & Ex). destruct x; discriminate.
      + apply (noLA_text L HL t before fs after GP); [apply side_in, Hv|apply side_no_op, Hv].
    - assert (Hne : wf_op w <> NoOp) by (intros E; rewrite E in Eo; discriminate).
      unfold short_texts. rewrite join_mid. rewrite lap_contains by exact Hne.
      rewrite lap_power_spec; [destruct (wf_op w); [congruence|reflexivity|reflexivity]|exact Hne|exact w_oper| |].
      + assert (Hc : w2 = [] \/ exists v r, w2 = v :: r) by (clear; destruct w2 as [|v r]; eauto).
        destruct Hc as [-> |(v & r & Ew2)]; [left; reflexivity|]. right. right.
        assert (Hv : In v (w1 ++ w2)) by (rewrite Ew2; apply in_mid).
        assert (Hvt := side_in v Hv). assert (Hvo := side_no_op v Hv).
        destruct (word_start L t before fs after GP (wf_text v) (tail_text (texts r))) as (c & r' & Ec & Hc); [exists v; auto|].
        exists c, r'. split; [|exact Hc]. rewrite Ew2. unfold texts in *. cbn [map tail_text flat_map app].
        change (flat_map (fun s : list ascii => star_c :: s) (map wf_text r)) with (tail_text (map wf_text r)). rewrite Ec. reflexivity.
      + intros s Hs. apply in_map_iff in Hs. destruct Hs as (v & <- & Hv).
        assert (Hv' : In v (w1 ++ w2)) by (apply in_or_app; left; exact Hv).
        apply (noLA_text L HL t before fs after GP); [apply side_in, Hv'|apply side_no_op, Hv'].
  Qed.

  Lemma concrete_bilinear d :
    exists p, concrete_term m (delete_all (product_text t) field, d) = Ok p /\
      forall cpow val ft scal brick freq, good_bricks L m cpow val ft scal brick ->
        Cmul (eval_pterm cpow brick freq p) (brick field)
        = Cmul (RtoC (sign_value d)) (product_meaning L cpow val ft scal freq t).
  Proof.
    rewrite short_text. unfold concrete_term.
    rewrite factors_texts by (exact short_nonempty || exact short_no_star).
    assert (Eb : brick_loop m short_texts [] = Ok (map const_brick (scalar_factors L t))).
    { rewrite <- short_elems_text. rewrite (brick_loop_spec L HL m HM) by exact short_elems_good. rewrite short_consts. reflexivity. }
    rewrite Eb. cbn [bind]. eexists. split; [reflexivity|].
    intros cpow val ft scal brick freq GB. unfold eval_pterm. cbn [pt_neg pt_bricks pt_field pt_lap].
    rewrite short_field, short_lap.
    rewrite (eval_bricks_consts cpow brick scal) by (eapply (scalar_factors_good L m t before fs after GP); exact GB).
    change (match d with Some c => Ascii.eqb c minus_c | None => false end) with (sign_of d). rewrite sign_of_value.
    unfold product_meaning. rewrite (total_power_t L t before fs after GP).
    rewrite (amplitude_perm _ _ _ _ _ (field_factors_perm L HL t before fs after GP)).
    rewrite Efs. cbn [op0 map amplitude]. rewrite Ee. change (fa_name (wf_fac w)) with (wf_name w). rewrite En.
    destruct GB as (_ & H2 & _). rewrite (H2 field fat).
    destruct (wf_op w); [cbn [oper_power pow]; change (RtoC 1) with C1; ring| |]; rewrite lap_eval_symbol; ring.
  Qed.
End Bilinear.
