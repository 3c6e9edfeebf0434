From Verif Require Import ListAux FileModel ParseProofs OperatorProofs DerivedProofs EquationProofs EquationProofs2 EquationProofs3 EquationProofs4 EquationProofs5 EquationProofs6 EquationProofs7 EquationProofs8.
From Verif Require Import RegistryProofs RegistryProofs2 RegistryProofs3 StepProofs SimSpec SimProofs SimProofs2 SimProofs3.
From Coq Require Import Lia Permutation.
Open Scope nat_scope.

(** ** The implicit part of an equation holds no field *)
Definition constant_entry (L : lang) (b : built) : Prop :=
  match b with
  | BTerm t => pt_field t = [] /\ Forall (fun nq => In (fst nq) (l_scalars L)) (pt_bricks t)
  | BImplicit n _ => In n (l_implicit L)
  | BLinear n _ => In n (l_mixed L)
  | _ => False
  end.

Section Denum.
  Variable L : lang.
  Hypothesis HL : good_lang L.

  Lemma scalar_factors_in t f : In f (scalar_factors L t) -> In (fa_name f) (l_scalars L).
  Proof.
    unfold scalar_factors. intros H. apply in_map_iff in H. destruct H as (v & <- & Hv). apply filter_In in Hv. destruct Hv as [_ Hv].
    apply mem_str_In in Hv. exact Hv.
  Qed.

  Lemma bilinear_constant m t before fs after field w1 w w2 d p : minv L m -> good_product L t before fs after -> In field (l_fields L) ->
    t = w1 ++ w :: w2 -> fs = [w] -> wf_name w = field -> fa_exp (wf_fac w) = None ->
    concrete_term m (delete_all (product_text t) field, d) = Ok p -> constant_entry L (BTerm p).
  Proof.
    intros HM GP Hf Et Efs En Ee. rewrite (short_text L HL t before fs after GP field Hf w1 w2 w Et En Ee). unfold concrete_term.
    rewrite factors_texts by first [exact (short_nonempty w1 w2 w)|exact (short_no_star L t before fs after GP w1 w2 w Et)].
    assert (Eb : brick_loop m (short_texts w1 w2 w) [] = Ok (map const_brick (scalar_factors L t))).
    { rewrite <- (short_elems_text L HL t before fs after GP w1 w2 w Et). rewrite (brick_loop_spec L HL m HM) by
        exact (short_elems_good L HL m HM t before fs after GP w1 w2 w Et).
      rewrite (short_consts L HL t field Hf w1 w2 w Et En). reflexivity. }
    rewrite Eb. cbn [bind]. intros H. injection H as <-. cbn [constant_entry pt_field pt_bricks]. split.
    - exact (short_field L HL m HM t before fs after GP w1 w2 w Et Efs).
    - apply Forall_forall. intros x Hx. apply in_map_iff in Hx. destruct Hx as (f & <- & Hfac). cbn [const_brick fst].
      exact (scalar_factors_in t f Hfac).
  Qed.

  Lemma build_loop_denum m field : minv L m -> In field (l_fields L) ->
    forall items acc r, Forall (good_item L) (map fst items) -> build_loop m field (map piece_of items) acc = Ok r ->
      Forall (constant_entry L) (snd acc) -> Forall (constant_entry L) (snd r).
  Proof.
    intros HM Hfield. induction items as [|[it d] items IH]; intros acc r Hg E Ha.
    { cbn [map build_loop] in E. injection E as <-. exact Ha. }
    cbn [map fst] in Hg. inversion Hg as [|? ? Hit Hits]; subst. cbn [map piece_of build_loop fst snd] in E. destruct acc as [terms denum].
    cbn [snd] in Ha.
    destruct it as [t|os name]; cbn [item_text good_item] in *.
    - destruct Hit as [(before & fs & after & GP) Hnu].
      assert (Hn1 : mem_str (remove_known_prefixes (product_text t)) (pm_implicit m) = false).
      { apply mem_str_notIn. rewrite (mi_implicit L m HM). intros H. apply Hnu. unfold user_terms. rewrite !in_app_iff. auto. }
      assert (Hn2 : mem_str (remove_known_prefixes (product_text t)) (pm_explicit m) = false).
      { apply mem_str_notIn. rewrite (mi_explicit L m HM). intros H. apply Hnu. unfold user_terms. rewrite !in_app_iff. auto. }
      assert (Hn3 : mem_str (remove_known_prefixes (product_text t)) (pm_mixed m) = false).
      { apply mem_str_notIn. rewrite (mi_mixed L m HM). intros H. apply Hnu. unfold user_terms. rewrite !in_app_iff. auto. }
      rewrite Hn1, Hn2, Hn3 in E. destruct (is_bilinear (product_text t) field (all_field_names m)) eqn:Eb.
      + assert (Hincl : incl (l_fields L) (all_field_names m)).
        { unfold all_field_names. rewrite (mi_fields L m HM). apply incl_appl, incl_refl. }
        destruct (bilinear_shape L HL t before fs after GP field _ Hfield Hincl Eb) as (w1 & w & w2 & Et & Efs & En & Ee).
        destruct (concrete_term m (delete_all (product_text t) field, d)) as [p| |] eqn:Ep; try discriminate. cbn [bind] in E.
        apply (IH _ _ Hits E). cbn [snd]. apply Forall_app. split; [exact Ha|]. constructor; [|constructor].
        exact (bilinear_constant m t before fs after field w1 w w2 d p HM GP Hfield Et Efs En Ee Ep).
      + destruct (concrete_term m (piece_of (IProduct t, d))) as [p| |] eqn:Ep; try discriminate. cbn [bind] in E.
        apply (IH _ _ Hits E). exact Ha.
    - destruct Hit as [Hn Ho]. destruct (user_spelled os Ho) as [Hs _]. destruct (gl_user L HL name Hn) as (Hb & _).
      destruct (operators_recovered os (map op_str os) name Hs Hb) as [_ Er]. rewrite Er in E.
      rewrite (mem_str_same _ _ _ (mi_implicit L m HM)), (mem_str_same _ _ _ (mi_explicit L m HM)), (mem_str_same _ _ _ (mi_mixed L m HM)) in E.
      destruct (mem_str name (l_implicit L)) eqn:E1.
      { apply (IH _ _ Hits E). cbn [snd]. apply Forall_app. split; [exact Ha|]. constructor; [|constructor]. cbn [constant_entry]. apply mem_str_In, E1. }
      destruct (mem_str name (l_explicit L)) eqn:E2.
      { apply (IH _ _ Hits E). exact Ha. }
      assert (E3 : mem_str name (l_mixed L) = true).
      { apply mem_str_In. apply mem_str_notIn in E1, E2. unfold user_terms in Hn. rewrite !in_app_iff in Hn. tauto. }
      rewrite E3 in E. apply (IH _ _ Hits E). cbn [snd]. apply Forall_app. split; [exact Ha|]. constructor; [|constructor]. cbn [constant_entry]. apply mem_str_In, E3.
  Qed.

  Lemma build_denum m e terms denum : minv L m -> good_equation L e -> build m (eq_text e) = Ok (terms, denum) -> Forall (constant_entry L) denum.
  Proof.
    intros HM HE E. destruct (e_split L HL e HE) as (items & Es & Hp). destruct (items_good L e HE items Hp) as [Hg _].
    unfold build in E. rewrite (e_sides L HL e HE) in E. cbn [bind fst snd] in E. rewrite e_leibniz in E. cbn [bind] in E. rewrite Es in E. cbn [bind] in E.
    exact (build_loop_denum m (q_field e) HM (e_field L e HE) items ([], []) (terms, denum) Hg E (Forall_nil _)).
  Qed.
End Denum.
