From Verif Require Import ListAux ParseProofs OperatorProofs EquationModel EquationSpec DerivedProofs TextProofs EquationProofs EquationProofs2.
From Coq Require Import Lra Qreals.
Open Scope nat_scope.

Lemma removelast_lead : forall l, l <> [] -> removelast (lead_text l) = join_char star_c l.
Proof.
  intros l H. destruct (exists_last H) as (l' & s & ->). rewrite join_mid. rewrite lead_text_app.
  cbn [lead_text flat_map tail_text]. rewrite !app_nil_r. rewrite app_assoc. apply removelast_last.
Qed.

Lemma sort_of_sorted facs gs : facs <> [] -> Forall good_factor facs -> Permutation facs gs ->
  alphabetical (map factor_text gs) -> sort_factors (product_of facs) = product_of gs.
Proof.
  intros Hne Hg Hp Hs. unfold sort_factors, product_of. rewrite split_join.
  - f_equal. apply sorted_unique; [apply sort_sorted|apply alphabetical_sorted, Hs|].
    eapply Permutation_trans; [apply sort_perm|]. apply Permutation_map, Hp.
  - destruct facs; [congruence|discriminate].
  - apply Forall_forall. intros s Hin. apply in_map_iff in Hin. destruct Hin as (f & <- & Hf).
    rewrite Forall_forall in Hg. apply factor_text_no_star, Hg, Hf.
Qed.

Lemma nodup_fields L : good_lang L -> NoDup (l_fields L) /\ forall n, In n (l_fields L) -> ~ In n (l_functions L).
Proof.
  intros HL. assert (H := gl_nodup L HL). unfold atoms in H. revert H. generalize (l_fields L).
  induction l as [|x l IH]; intros H; [split; [constructor|intros n []]|].
  cbn [app] in H. inversion H as [|? ? Hni Hnd]; subst. destruct (IH Hnd) as [H1 H2].
  split; [constructor; [intros Hin; apply Hni, in_or_app; left; exact Hin|exact H1]|].
  intros n [<-|Hn]; [intros Hin; apply Hni, in_or_app; right; exact Hin|apply H2, Hn].
Qed.

Section Product.
  Variable L : lang.
  Hypothesis HL : good_lang L.
  Variables t before fs after : list wfactor.
  Hypothesis GP : good_product L t before fs after.
  Variable field : str.
  Hypothesis Hfield : In field (l_fields L).

  Let bil := is_bilinear (product_text t) field (l_fields L).

  Lemma bil_names : bil = true -> forall n, In n (map wf_name fs) -> n = field.
  Proof.
    intros Hb n Hn. destruct (bilinear_shape L HL t before fs after GP field (l_fields L) Hfield (incl_refl _) Hb)
      as (w1 & w & w2 & _ & Efs & En & _).
    rewrite Efs in Hn. destruct Hn as [<-|[]]. exact En.
  Qed.

  Definition facs_of : list factor :=
    flat_map (fun n => match fac_of fs n with Some f => [f] | None => [] end) (l_fields L).

  Lemma get_nonlinear_bilinear : bil = true -> get_nonlinear (product_text t) field (l_fields L) = [].
  Proof.
    intros Hb. unfold get_nonlinear.
    rewrite (nonlinear_loop_spec L HL t before fs after GP field (l_fields L) Hfield bil_names) by apply incl_refl.
    cbn [app].
    assert (E : flat_map (fun n => if str_eqb n field && is_bilinear (product_text t) field (l_fields L) then []
       else match fac_of fs n with Some f => [f] | None => [] end) (l_fields L) = []).
    { generalize (l_fields L) at 2. induction l as [|n l IH]; [reflexivity|]. cbn [flat_map]. rewrite IH, app_nil_r.
      fold bil. rewrite Hb, andb_true_r. destruct (str_eqb n field) eqn:En; [reflexivity|].
      unfold fac_of. destruct (find (fun w => str_eqb (wf_name w) n) fs) as [w|] eqn:Ew; [|reflexivity].
      exfalso. apply find_some in Ew. destruct Ew as [Hw Ew]. apply str_eqb_eq in Ew.
      assert (H := bil_names Hb (wf_name w) (in_map wf_name _ _ Hw)). rewrite <- Ew, H, str_eqb_refl in En. discriminate. }
    rewrite E. reflexivity.
  Qed.

  Lemma get_nonlinear_other : bil = false ->
    get_nonlinear (product_text t) field (l_fields L) = match facs_of with [] => [] | _ => product_of facs_of end.
  Proof.
    intros Hb. unfold get_nonlinear.
    rewrite (nonlinear_loop_spec L HL t before fs after GP field (l_fields L) Hfield bil_names) by apply incl_refl.
    cbn [app].
    assert (E : flat_map (fun n => if str_eqb n field && is_bilinear (product_text t) field (l_fields L) then []
       else match fac_of fs n with Some f => [f] | None => [] end) (l_fields L) = facs_of).
    { unfold facs_of. generalize (l_fields L) at 2 3. induction l as [|n l IH]; [reflexivity|]. cbn [flat_map]. rewrite IH.
      fold bil. rewrite Hb, andb_false_r. reflexivity. }
    rewrite E. destruct facs_of as [|f l] eqn:Ef; [reflexivity|].
    rewrite removelast_lead by discriminate.
    assert (Hlen : 1 < length (lead_text (map factor_text (f :: l)))).
    { cbn [map lead_text flat_map]. rewrite !app_length. cbn [length].
      assert (Hin : In f facs_of) by (rewrite Ef; left; reflexivity).
      unfold facs_of in Hin. apply in_flat_map in Hin. destruct Hin as (n & Hn & Hin).
      unfold fac_of in Hin. destruct (find (fun w => str_eqb (wf_name w) n) fs) as [w|] eqn:Ew; [|destruct Hin].
      destruct Hin as [<-|[]]. apply find_some in Ew. destruct Ew as [_ Ew]. apply str_eqb_eq in Ew.
      rewrite factor_text_eq, app_length. change (fa_name (wf_fac w)) with (wf_name w). rewrite Ew.
      destruct (gl_long L HL n) as [H3 _]; [apply in_or_app; left; exact Hn|]. lia. }
    apply Nat.ltb_lt in Hlen. rewrite Hlen. reflexivity.
  Qed.

  Lemma find_name w : In w fs -> find (fun v => str_eqb (wf_name v) (wf_name w)) fs = Some w.
  Proof.
    assert (Hnd := gp_distinct _ _ _ _ _ GP). clear - Hnd. induction fs as [|v r IH]; intros Hw; [destruct Hw|].
    cbn [map] in Hnd. inversion Hnd as [|? ? Hni Hnd']; subst. cbn [find].
    destruct (str_eqb (wf_name v) (wf_name w)) eqn:E.
    - destruct Hw as [->|Hw]; [reflexivity|]. exfalso. apply Hni. apply str_eqb_eq in E. rewrite E. apply in_map, Hw.
    - destruct Hw as [->|Hw]; [rewrite str_eqb_refl in E; discriminate|]. apply IH; assumption.
  Qed.

  Lemma facs_of_perm : (forall w, In w fs -> In (wf_name w) (l_fields L)) -> Permutation facs_of (map wf_fac fs).
  Proof.
    intros Hall.
    assert (E : facs_of = map wf_fac (flat_map (fun n => match find (fun w => str_eqb (wf_name w) n) fs with Some w => [w] | None => [] end) (l_fields L))).
    { unfold facs_of, fac_of. generalize (l_fields L). induction l as [|n l IH]; [reflexivity|]. cbn [flat_map].
      rewrite map_app, <- IH. f_equal. destruct (find _ fs); reflexivity. }
    rewrite E. apply Permutation_map. apply NoDup_Permutation.
    - assert (Hnd := proj1 (nodup_fields L HL)). revert Hnd. clear -HL. generalize (l_fields L). induction l as [|n l IH]; intros Hnd; [constructor|].
      inversion Hnd as [|? ? Hni Hnd']; subst. cbn [flat_map].
      destruct (find (fun w => str_eqb (wf_name w) n) fs) as [w|] eqn:Ew; [|apply IH, Hnd'].
      cbn [app]. constructor; [|apply IH, Hnd'].
      intros Hin. apply in_flat_map in Hin. destruct Hin as (n' & Hn' & Hin).
      destruct (find (fun w => str_eqb (wf_name w) n') fs) as [w'|] eqn:Ew'; [|destruct Hin].
      destruct Hin as [->|[]]. apply find_some in Ew. apply find_some in Ew'.
      destruct Ew as [_ Ew]. destruct Ew' as [_ Ew']. apply str_eqb_eq in Ew. apply str_eqb_eq in Ew'. apply Hni. congruence.
    - assert (Hnd := gp_distinct _ _ _ _ _ GP). apply NoDup_map_inv in Hnd. exact Hnd.
    - intros w. rewrite in_flat_map. split.
      + intros (n & Hn & Hin). destruct (find (fun w => str_eqb (wf_name w) n) fs) as [w'|] eqn:Ew; [|destruct Hin].
        destruct Hin as [<-|[]]. apply find_some in Ew. apply Ew.
      + intros Hw. exists (wf_name w). split; [apply Hall, Hw|]. rewrite find_name by exact Hw. left. reflexivity.
  Qed.

  (** What UpdateDerivedFields finds in the term. *)
  Lemma new_field_spec :
    let new := sort_factors (get_nonlinear (product_text t) field (l_fields L)) in
    (new = [] /\ (fs = [] \/ In (dnm fs) (atoms L)))
    \/ (new = dnm fs /\ fs <> [] /\ Forall (fun g => good_factor g /\ In (fa_name g) (l_fields L)) (map wf_fac fs)).
  Proof.
    cbv zeta. destruct bil eqn:Hb.
    - left. rewrite (get_nonlinear_bilinear Hb). split; [reflexivity|]. right.
      destruct (bilinear_shape L HL t before fs after GP field (l_fields L) Hfield (incl_refl _) Hb)
        as (w1 & w & w2 & _ & Efs & En & Ee).
      unfold dnm, dname. rewrite Efs. cbn. unfold factor_text. rewrite Ee, app_nil_r.
      change (fa_name (wf_fac w)) with (wf_name w). rewrite En. apply in_or_app. left. exact Hfield.
    - rewrite (get_nonlinear_other Hb). destruct (gp_atoms _ _ _ _ _ GP) as [Hall|(w & Efs & Hfun & Hexp)].
      + assert (Hp := facs_of_perm (fun w Hw => proj1 (Hall w Hw))).
        destruct facs_of as [|f l] eqn:Ef.
        * left. split; [reflexivity|]. left. apply Permutation_nil in Hp. destruct fs; [reflexivity|discriminate].
        * right. rewrite <- Ef in *.
          assert (Hg : Forall (fun g => good_factor g /\ In (fa_name g) (l_fields L)) (map wf_fac fs)).
          { apply Forall_forall. intros g Hin. apply in_map_iff in Hin. destruct Hin as (w & <- & Hw). split.
            - assert (H := fs_ok L t before fs after GP). rewrite Forall_forall in H. apply (H w Hw).
            - apply (Hall w Hw). }
          split; [|split; [|exact Hg]].
          -- apply sort_of_sorted; [rewrite Ef; discriminate| |exact Hp|rewrite map_map; exact (gp_sorted_fields _ _ _ _ _ GP)].
             apply Forall_forall. intros g Hin. rewrite Forall_forall in Hg. apply Hg. apply (Permutation_in g Hp), Hin.
          -- intros E. rewrite E in Hp. apply Permutation_sym, Permutation_nil in Hp. rewrite Ef in Hp. discriminate.
      + left. assert (Ef : facs_of = []).
        { unfold facs_of. assert (Hno : forall n, In n (l_fields L) -> fac_of fs n = None).
          { intros n Hn. unfold fac_of. destruct (find (fun v => str_eqb (wf_name v) n) fs) as [v|] eqn:Ev; [|reflexivity].
            apply find_some in Ev. destruct Ev as [Hv Ev]. apply str_eqb_eq in Ev. rewrite Efs in Hv. destruct Hv as [<-|[]].
            exfalso. apply (proj2 (nodup_fields L HL) n Hn). rewrite <- Ev. exact Hfun. }
          revert Hno. generalize (l_fields L). induction l as [|n l IH]; intros Hno; [reflexivity|]. cbn [flat_map].
          rewrite (Hno n (or_introl eq_refl)). cbn [app]. apply IH. intros n' Hn'. apply Hno. right. exact Hn'. }
        rewrite Ef. split; [reflexivity|]. right. unfold dnm, dname. rewrite Efs. cbn. unfold factor_text. rewrite Hexp, app_nil_r.
        apply in_or_app. right. exact Hfun.
  Qed.
End Product.
