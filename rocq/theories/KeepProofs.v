From Verif Require Import ListAux FileModel ParseProofs OperatorProofs DerivedProofs TextProofs EquationProofs EquationProofs2 EquationProofs3 EquationProofs4 EquationProofs5 EquationProofs6 EquationProofs7 EquationProofs8.
From Verif Require Import RegistryProofs RegistryProofs2 RegistryProofs3 StepProofs SplitSpec SimProofs SimProofs2 SimProofs3 SimProofs4 SimProofs5 SplitProofs2 SplitProofs3.
From Verif Require Import KeepSpec.
From Coq Require Import Lia Permutation.
Open Scope nat_scope.

(** ** Where the names of derived fields come from *)
Lemma derived_loop_origin terms field m n : In n (pm_derived (EquationModel.derived_loop m field terms)) ->
  In n (pm_derived m) \/ exists t, In t terms /\ n = sort_factors (get_nonlinear t field (pm_fields m)) /\ n <> [].
Proof.
  revert m. induction terms as [|t terms IH]; intros m H; cbn [EquationModel.derived_loop] in H; [left; exact H|].
  match type of H with context [EquationModel.derived_loop ?x field terms] => set (m1 := x) in H end.
  assert (H1 : pm_fields m1 = pm_fields m /\ (In n (pm_derived m1) -> In n (pm_derived m) \/ (n = sort_factors (get_nonlinear t field (pm_fields m)) /\ n <> []))).
  { unfold m1. destruct (is_user_term m t); [auto|].
    destruct (sort_factors _) as [|c0 w] eqn:Es; [auto|]. destruct (is_fname m (c0 :: w)) eqn:Ef; [auto|].
    cbn [pm_fields pm_derived]. split; [reflexivity|]. intros Hin. apply in_app_or in Hin. destruct Hin as [Hin|[<-|[]]]; [left; exact Hin|].
    right. split; [reflexivity|discriminate]. }
  destruct H1 as [H1 H2]. destruct (IH m1 H) as [H3|(t' & H3 & H4 & H5)].
  - destruct (H2 H3) as [H4|[H4 H5]]; [left; exact H4|right; exists t; split; [left; reflexivity|split; assumption]].
  - right. exists t'. rewrite H1 in H4. split; [right; exact H3|split; assumption].
Qed.

Section Declared.
  Variables (L : lang) (cs : list call) (es : list eqtext).
  Hypothesis HDc : declared L cs es.
  Let HL := dc_lang _ _ _ HDc.
  Let HDecl := dc_names _ _ _ HDc.

  Lemma text_of s : In s (equations_of cs) -> exists q, In q es /\ strip_spaces s = eq_text q /\ good_equation L q.
  Proof.
    assert (H2 := dc_texts _ _ _ HDc). assert (Hg := dc_good _ _ _ HDc). revert Hg. clear - H2. induction H2 as [|s0 e ss es Hs0 _ IH]; intros Hg Hs; [destruct Hs|].
    inversion Hg as [|? ? G1 G2]; subst. destruct Hs as [<-|Hs]; [exists e; split; [left; reflexivity|split; assumption]|].
    destruct (IH G2 Hs) as (q & Hq & H). exists q. split; [right; exact Hq|exact H].
  Qed.

  Definition spelled (n : str) : Prop := exists q t s fs, In q es /\ In (IProduct t, s) (signed_items q)
    /\ Permutation (field_factors L t) fs /\ fs <> [] /\ Forall (fun g => good_factor g /\ In (fa_name g) (l_fields L)) fs /\ n = product_of fs.

  Lemma derived_origin a b m n : cs = a ++ b -> run_calls new_mstate a = Ok m -> In n (pm_derived (ms_names m)) -> In n (l_functions L) \/ spelled n.
  Proof.
    revert b m. induction a as [|c a IH] using rev_ind; intros b m E Hr Hn.
    { cbn [run_calls] in Hr. injection Hr as <-. destruct Hn. }
    apply run_calls_snoc in Hr. destruct Hr as (m1 & E1 & E2). rewrite <- app_assoc in E. cbn [app] in E.
    assert (T := tracked_run _ _ E1). assert (Hcin : In c cs) by (rewrite E; apply in_or_app; right; left; reflexivity).
    assert (Hfun : forall x, In x (match c with CFunction n => [n] | CTerm _ _ _ ds => ds | _ => [] end) -> In x (l_functions L)).
    { intros x Hx. apply HDecl. unfold functions_of. apply in_flat_map. exists c. split; assumption. }
    specialize (IH (c :: b) m1 E E1).
    destruct c as [x|x|x|k x t ds|text|eq s|]; cbn [run_call] in E2.
    - unfold call_field, checked in E2. destruct (name_ok x); [|discriminate]. injection E2 as <-. apply IH, Hn.
    - unfold call_scalar, checked in E2. destruct (name_ok x); [|discriminate]. injection E2 as <-. apply IH, Hn.
    - unfold call_function, checked in E2. destruct (name_ok x); [|discriminate]. cbn [bind] in E2.
      destruct (pm_fields (ms_names m1)); [discriminate|]. injection E2 as <-. cbn [with_names ms_names add_derived pm_derived] in Hn.
      apply in_app_or in Hn. destruct Hn as [Hn|Hn]; [apply IH, Hn|left; apply Hfun, Hn].
    - unfold call_term, checked in E2. destruct (name_ok x); [|discriminate]. cbn [bind] in E2. injection E2 as <-. cbn [with_names ms_names] in Hn.
      destruct (register_names_spec ds (ms_names (RegistryModel.add_term k x t m1))) as (_ & _ & _ & _ & _ & _ & _ & A8).
      destruct (A8 n Hn) as [H|H]; [apply IH, H|left; apply Hfun, H].
    - destruct (fields_done L cs HDecl (dc_first _ _ _ HDc) a (CEquation text) b E I) as [HF _].
      assert (Ht : In text (equations_of cs)).
      { unfold equations_of. apply in_flat_map. exists (CEquation text). split; [exact Hcin|left; reflexivity]. }
      destruct (text_of text Ht) as (q & Hq & Eq & Hgq).
      unfold call_equation in E2. destruct (add_equation (ms_names m1) text) as [p| |] eqn:Ea; try discriminate. cbn [bind] in E2.
      injection E2 as <-. cbn [ms_names] in Hn. unfold add_equation, update_derived_fields in Ea. rewrite Eq in Ea.
      destruct (e_split L HL q Hgq) as (items & Es & Hp). destruct (items_good L q Hgq items Hp) as [Hg _].
      assert (Hsd := e_sides L HL q Hgq). unfold sides in Hsd.
      destruct (split_char "=" (eq_text q)) as [|l [|r [|]]]; try discriminate. injection Hsd as -> ->.
      rewrite Es in Ea. cbn [bind] in Ea. rewrite e_leibniz in Ea. cbn [bind] in Ea. injection Ea as <-. rewrite map_map in Hn.
      destruct (derived_loop_origin _ _ _ _ Hn) as [H|(t & Ht' & Hnew & Hne)]; [apply IH, H|].
      rewrite (tk_fields _ _ T), HF in Hnew.
      apply in_map_iff in Ht'. destruct Ht' as (x & Hx & Hin). unfold piece_of in Hx. cbn [fst] in Hx.
      assert (Hgi : good_item L (fst x)) by (rewrite Forall_forall in Hg; apply Hg, in_map, Hin).
      apply (Permutation_in _ Hp) in Hin. destruct x as [it s]. cbn [fst] in *. subst t. destruct it as [t|os name]; cbn [good_item item_text] in *.
      + destruct Hgi as [(before & fs & after & GP) _].
        assert (Hns := new_field_spec L HL t before fs after GP (q_field q) (e_field L q Hgq)). cbv zeta in Hns. rewrite <- Hnew in Hns.
        destruct Hns as [[H _]|(H1 & H2 & H3)]; [contradiction|]. right. exists q, t, s, (map wf_fac fs). split; [exact Hq|]. split; [exact Hin|].
        split; [exact (field_factors_perm L HL t before fs after GP)|]. split; [destruct fs; [contradiction|discriminate]|]. split; [exact H3|exact H1].
      + exfalso. apply Hne. rewrite Hnew. unfold get_nonlinear. rewrite nonlinear_none; [reflexivity|]. intros y Hy. apply (user_no_field L HL); [apply Hgi|apply Hgi|exact Hy].
    - unfold call_source in E2. destruct (eq <? 0)%Z; [discriminate|]. destruct (append_at _ _ _); [|discriminate]. injection E2 as <-. apply IH, Hn.
    - unfold call_init in E2. destruct (build_all m1 _); try discriminate. cbn [bind] in E2. injection E2 as <-. apply IH, Hn.
  Qed.

  Variable m : mstate.
  Hypothesis Em : run_calls new_mstate (cs ++ [CInit]) = Ok m.
  Lemma final_origin n : In n (pm_derived (ms_names m)) -> In n (l_functions L) \/ spelled n.
  Proof.
    intros Hx. assert (Em' := Em). apply run_calls_snoc in Em'. destruct Em' as (m1 & Em1 & Einit). cbn [run_call] in Einit.
    unfold call_init in Einit. destruct (build_all m1 (ms_equations m1)) as [rhs| |] eqn:Eb; try discriminate. cbn [bind] in Einit.
    assert (Hnames : ms_names m = ms_names m1) by (injection Einit as <-; reflexivity). rewrite Hnames in Hx.
    exact (derived_origin cs [] m1 n (eq_sym (app_nil_r cs)) Em1 Hx).
  Qed.
End Declared.
