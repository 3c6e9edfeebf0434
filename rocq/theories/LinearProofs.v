From Verif Require Import ListAux FileModel ParseProofs OperatorProofs DerivedProofs TextProofs EquationProofs EquationProofs2 EquationProofs3 EquationProofs4 EquationProofs5 EquationProofs6 EquationProofs7 EquationProofs8.
From Verif Require Import RegistryProofs RegistryProofs2 RegistryProofs3 StepProofs LinearSpec SimProofs SimProofs2 SimProofs4 SimProofs5.
From Coq Require Import Lia Permutation.
Open Scope nat_scope.

(** ** Products that are linear in the field of the equation *)
Section Product.
  Variable L : lang.
  Hypothesis HL : good_lang L.
  Variables t before fs after : list wfactor.
  Hypothesis GP : good_product L t before fs after.
  Variable field : str.
  Hypothesis Hfield : In field (l_fields L).
  Hypothesis Hlin : field_factors L t = [{| fa_name := field; fa_exp := None |}].

  Lemma linear_fs : exists w, fs = [w] /\ wf_name w = field /\ fa_exp (wf_fac w) = None.
  Proof.
    assert (HP := field_factors_perm L HL t before fs after GP). rewrite Hlin in HP.
    apply Permutation_length_1_inv in HP. destruct fs as [|w [|v r]]; try discriminate HP.
    cbn [map] in HP. injection HP as Ew. exists w. split; [reflexivity|]. unfold wf_name. rewrite Ew. split; reflexivity.
  Qed.

  Lemma linear_bilinear names : incl names (atoms L) -> is_bilinear (product_text t) field names = true.
  Proof.
    intros Hincl. destruct linear_fs as (w & Efs & En & Ee).
    assert (Hat : In field (atoms L)) by (apply in_or_app; left; exact Hfield).
    assert (Hwt : In w t) by (apply (in_parts L t before fs after GP); rewrite Efs, !in_app_iff; cbn [In]; tauto).
    apply in_split in Hwt. destruct Hwt as (w1 & w2 & Et).
    assert (Hok := t_all L t before fs after GP). assert (Hne := gp_nonempty _ _ _ _ _ GP).
    assert (Huniq : forall x y, product_text t = x ++ field ++ y ->
              x = lead_text (texts w1) ++ oper_text (wf_op w) /\ y = exp_text (wf_fac w) ++ tail_text (texts w2)).
    { intros x y E. destruct (product_occ L HL t field x y Hok Hne Hat E) as (v1 & v & v2 & Ev & Env & -> & ->).
      destruct (unique_position L HL t before fs after GP field w1 w w2 v1 v v2 Hat Et En Ev Env) as [-> ->].
      rewrite Et in Ev. apply app_inv_head in Ev. injection Ev as ->. split; reflexivity. }
    assert (Etx : product_text t = (lead_text (texts w1) ++ oper_text (wf_op w)) ++ field ++ (exp_text (wf_fac w) ++ tail_text (texts w2))).
    { rewrite Et, text_mid, En, <- !app_assoc. reflexivity. }
    assert (Hcount : count_lit (product_text t) field = 1).
    { unfold count_lit. assert (Hlen : length (product_text t) <> 0).
      { destruct (gl_long L HL field Hat) as [Hl _]. rewrite Etx, !app_length. lia. }
      destruct (length (product_text t)) as [|len]; [congruence|]. cbn [count_fuel].
      assert (Ha : after_lit (product_text t) field = Some (exp_text (wf_fac w) ++ tail_text (texts w2))).
      { rewrite Etx at 1. apply after_lit_first. intros x' y' E. rewrite <- Etx in E. destruct (Huniq x' y' E) as [-> _]. lia. }
      rewrite Ha, after_lit_none; [reflexivity|]. intros (x & y & E).
      assert (E2 : product_text t = ((lead_text (texts w1) ++ oper_text (wf_op w)) ++ field ++ x) ++ field ++ y).
      { rewrite Etx, E, <- !app_assoc. reflexivity. }
      destruct (Huniq _ _ E2) as [E3 _]. apply (f_equal (@length ascii)) in E3. rewrite !app_length in E3.
      destruct (gl_long L HL field Hat) as [Hl _]. lia. }
    unfold is_bilinear. rewrite Hcount. cbn [Nat.eqb].
    assert (Hex : existsb (fun f => negb (str_eqb f field) && re_hit f (product_text t)) names = false).
    { apply not_true_is_false. intros H. apply existsb_exists in H. destruct H as (f & Hf & H). apply andb_true_iff in H. destruct H as [H1 H2].
      apply negb_true_iff in H1. assert (Hfa := Hincl f Hf). rewrite re_hit_ident in H2 by (apply (gl_ident L HL), in_or_app; left; exact Hfa).
      apply contains_true in H2. destruct H2 as (x & y & E). destruct (product_occ L HL t f x y Hok Hne Hfa E) as (v1 & v & v2 & Ev & Env & _).
      assert (Hv : In v fs).
      { apply (not_scalar_in_fs L t before fs after GP); [rewrite Ev; apply in_mid|]. rewrite Env. apply (gl_scalar L HL _ Hfa). }
      rewrite Efs in Hv. destruct Hv as [<-|[]]. rewrite <- Env, En, str_eqb_refl in H1. discriminate. }
    rewrite Hex. rewrite (only_field_with_powers L HL t before fs after GP w1 w w2 field Et En Hfield Efs).
    unfold factor_text. rewrite Ee, app_nil_r. fold (wf_name w). rewrite En.
    assert (Hh : ~ In hat_c field) by exact (proj2 (ident_no_op field (gl_ident L HL field (in_or_app _ _ _ (or_introl Hat))))).
    assert (Hno : forallb (fun c => negb (Ascii.eqb c hat_c)) field = true).
    { apply forallb_forall. intros c Hc. apply negb_true_iff. destruct (Ascii.eqb_spec c hat_c) as [->|]; [contradiction|reflexivity]. }
    assert (Hfp := find_power_skip field [] Hno). rewrite app_nil_r in Hfp. rewrite Hfp. reflexivity.
  Qed.
End Product.

(** ** The equations need no derived fields and have no explicit terms *)
Section Model.
  Variables (L : lang) (cs : list call) (es : list eqtext).
  Hypothesis LM : linear_model L cs es.
  Let HDc := lm_declared _ _ _ LM.
  Let HL := dc_lang _ _ _ HDc.

  Lemma item_bilinear field it names : In field (l_fields L) -> good_item L it -> linear_item L field it -> incl names (atoms L) ->
    is_bilinear (item_text it) field names = true.
  Proof.
    intros Hf Hg (t & -> & Ht) Hi. cbn [good_item] in Hg. destruct Hg as [(before & fs & after & GP) _]. cbn [item_text].
    exact (linear_bilinear L HL t before fs after GP field Hf Ht names Hi).
  Qed.

  Lemma derived_loop_linear field : In field (l_fields L) -> forall items m, pm_fields m = l_fields L ->
    Forall (good_item L) items -> Forall (linear_item L field) items -> EquationModel.derived_loop m field (map item_text items) = m.
  Proof.
    intros Hf. induction items as [|it items IH]; intros m Hm Hg Hl; [reflexivity|].
    inversion Hg as [|? ? G1 G2]; subst. inversion Hl as [|? ? L1 L2]; subst. cbn [map EquationModel.derived_loop].
    assert (Hnew : get_nonlinear (item_text it) field (l_fields L) = []).
    { assert (B := item_bilinear field it (l_fields L) Hf G1 L1 (incl_appl _ (incl_refl _))). destruct L1 as (t & -> & Ht). cbn [item_text good_item] in *.
      destruct G1 as [(before & fs & after & GP) _]. exact (get_nonlinear_bilinear L HL t before fs after GP field Hf B). }
    rewrite Hm, Hnew. destruct (is_user_term m (item_text it)); apply IH; assumption.
  Qed.

  Lemma text_equation s : In s (equations_of cs) -> exists q, In q es /\ strip_spaces s = eq_text q /\ good_equation L q /\ linear_equation L q.
  Proof.
    intros Hs. assert (H2 := dc_texts _ _ _ HDc). assert (Hg := dc_good _ _ _ HDc). assert (Hl := lm_linear _ _ _ LM).
    revert Hs Hg Hl. clear - H2. induction H2 as [|s0 e ss es Hs0 _ IH]; intros Hs Hg Hl; [destruct Hs|].
    inversion Hg as [|? ? G1 G2]; subst. inversion Hl as [|? ? K1 K2]; subst. destruct Hs as [<-|Hs].
    - exists e. split; [left; reflexivity|]. repeat split; try assumption; apply G1.
    - destruct (IH Hs G2 K2) as (q & Hq & R). exists q. split; [right; exact Hq|exact R].
  Qed.

  Lemma items_linear q items : linear_equation L q -> Permutation items (signed_items q) -> Forall (linear_item L (q_field q)) (map fst items).
  Proof.
    intros Hl Hp. apply Forall_forall. intros it Hit. apply in_map_iff in Hit. destruct Hit as (x & <- & Hx).
    unfold linear_equation in Hl. rewrite Forall_forall in Hl. apply Hl. exact (Permutation_in _ Hp Hx).
  Qed.

  Lemma plain_in c : In c cs -> plain_call c.
  Proof. intros H. assert (P := lm_plain _ _ _ LM). rewrite Forall_forall in P. exact (P c H). Qed.

  Lemma linear_derived a b m n : cs = a ++ b -> run_calls new_mstate a = Ok m -> In n (pm_derived (ms_names m)) -> In n (l_functions L).
  Proof.
    revert b m. induction a as [|c a IH] using rev_ind; intros b m E Hr Hn.
    { cbn [run_calls] in Hr. injection Hr as <-. destruct Hn. }
    apply run_calls_snoc in Hr. destruct Hr as (m1 & E1 & E2). rewrite <- app_assoc in E. cbn [app] in E.
    assert (T := tracked_run _ _ E1). assert (Hcin : In c cs) by (rewrite E; apply in_or_app; right; left; reflexivity).
    assert (Hpl := plain_in c Hcin). specialize (IH (c :: b) m1 E E1).
    destruct c as [x|x|x|k x t ds|text|eq s|]; cbn [run_call plain_call] in *; try contradiction.
    - unfold call_field, checked in E2. destruct (name_ok x); [|discriminate]. injection E2 as <-. apply IH, Hn.
    - unfold call_scalar, checked in E2. destruct (name_ok x); [|discriminate]. injection E2 as <-. apply IH, Hn.
    - unfold call_function, checked in E2. destruct (name_ok x); [|discriminate]. cbn [bind] in E2.
      destruct (pm_fields (ms_names m1)); [discriminate|]. injection E2 as <-. cbn [with_names ms_names add_derived pm_derived] in Hn.
      apply in_app_or in Hn. destruct Hn as [Hn|[<-|[]]]; [apply IH, Hn|]. apply (dc_names _ _ _ HDc). unfold functions_of. apply in_flat_map.
      exists (CFunction x). split; [exact Hcin|left; reflexivity].
    - destruct (text_equation text) as (q & _ & Eq & Hg & Hl).
      { unfold equations_of. apply in_flat_map. exists (CEquation text). split; [exact Hcin|left; reflexivity]. }
      unfold call_equation, add_equation in E2. rewrite Eq in E2. unfold update_derived_fields in E2.
      destruct (e_split L HL q Hg) as (items & Es & Hp). destruct (items_good L q Hg items Hp) as [Hgi _].
      assert (Hs := e_sides L HL q Hg). unfold sides in Hs.
      destruct (split_char "=" (eq_text q)) as [|l [|r [|]]]; try discriminate. injection Hs as -> ->.
      rewrite Es in E2. cbn [bind] in E2. rewrite e_leibniz in E2. cbn [bind] in E2.
      assert (Em : map fst (map piece_of items) = map item_text (map fst items)) by (rewrite !map_map; reflexivity).
      rewrite Em in E2. rewrite derived_loop_linear in E2.
      + injection E2 as <-. apply IH. exact Hn.
      + exact (e_field L q Hg).
      + rewrite (tk_fields _ _ T). exact (proj1 (fields_done L cs (dc_names _ _ _ HDc) (dc_first _ _ _ HDc) a (CEquation text) b E I)).
      + exact Hgi.
      + exact (items_linear q items Hl Hp).
    - unfold call_init in E2. destruct (build_all m1 _); try discriminate. cbn [bind] in E2. injection E2 as <-. apply IH, Hn.
  Qed.

  Lemma build_loop_linear m field : minv L m -> In field (l_fields L) -> incl (all_field_names m) (atoms L) ->
    forall items acc r, Forall (good_item L) (map fst items) -> Forall (linear_item L field) (map fst items) ->
      build_loop m field (map piece_of items) acc = Ok r -> fst r = fst acc.
  Proof.
    intros HM Hfield Hincl. induction items as [|[it d] items IH]; intros acc r Hg Hl E.
    { cbn [map build_loop] in E. injection E as <-. reflexivity. }
    cbn [map fst] in Hg, Hl. inversion Hg as [|? ? Hit Hits]; subst. inversion Hl as [|? ? Hli Hlis]; subst.
    cbn [map piece_of build_loop fst snd] in E. destruct acc as [terms denum].
    assert (B := item_bilinear field it _ Hfield Hit Hli Hincl). destruct Hli as (t & -> & Ht). cbn [item_text good_item] in *.
    destruct Hit as [_ Hnu].
    assert (Hn1 : mem_str (remove_known_prefixes (product_text t)) (pm_implicit m) = false).
    { apply mem_str_notIn. rewrite (mi_implicit L m HM). intros H. apply Hnu. unfold user_terms. rewrite !in_app_iff. auto. }
    assert (Hn2 : mem_str (remove_known_prefixes (product_text t)) (pm_explicit m) = false).
    { apply mem_str_notIn. rewrite (mi_explicit L m HM). intros H. apply Hnu. unfold user_terms. rewrite !in_app_iff. auto. }
    assert (Hn3 : mem_str (remove_known_prefixes (product_text t)) (pm_mixed m) = false).
    { apply mem_str_notIn. rewrite (mi_mixed L m HM). intros H. apply Hnu. unfold user_terms. rewrite !in_app_iff. auto. }
    rewrite Hn1, Hn2, Hn3, B in E. destruct (concrete_term m (delete_all (product_text t) field, d)) as [p| |] eqn:Ep; try discriminate. cbn [bind] in E.
    rewrite (IH _ _ Hits Hlis E). reflexivity.
  Qed.

  Lemma build_linear m q terms denum : minv L m -> incl (all_field_names m) (atoms L) -> good_equation L q -> linear_equation L q ->
    build m (eq_text q) = Ok (terms, denum) -> terms = [].
  Proof.
    intros HM Hi HE Hl E. destruct (e_split L HL q HE) as (items & Es & Hp). destruct (items_good L q HE items Hp) as [Hg _].
    unfold build in E. rewrite (e_sides L HL q HE) in E. cbn [bind fst snd] in E. rewrite e_leibniz in E. cbn [bind] in E. rewrite Es in E. cbn [bind] in E.
    exact (build_loop_linear m (q_field q) HM (e_field L q HE) Hi items ([], []) (terms, denum) Hg (items_linear q items Hl Hp) E).
  Qed.

  Lemma no_sources i : sources_of i cs = [].
  Proof.
    unfold sources_of. assert (P := lm_plain _ _ _ LM). revert P. generalize cs. induction 1 as [|c l Hc _ IH]; [reflexivity|].
    cbn [flat_map]. rewrite IH. destruct c; try reflexivity. destruct Hc.
  Qed.

  Lemma linear_independent lib : field_independent cs lib.
  Proof.
    split; intros name s E E' t (a & b & ds & Ec & _); exfalso; [apply (plain_in (CTerm KImplicit name s ds))|apply (plain_in (CTerm KMixed name s ds))]; rewrite Ec; apply in_or_app; right; left; reflexivity.
  Qed.

  Variable m : mstate.
  Hypothesis Em : run_calls new_mstate (cs ++ [CInit]) = Ok m.

  Lemma no_explicit i tt dd : nth_error (ms_rhs m) i = Some (tt, dd) -> tt = [] /\ nth_error (ms_sources m) i = Some [].
  Proof.
    intros Hi. destruct (declared_state L cs es m HDc Em) as (HM & Hls & Hlr & _).
    assert (Em' := Em). apply run_calls_snoc in Em'. destruct Em' as (m1 & Em1 & Einit). cbn [run_call] in Einit. assert (T := tracked_run _ _ Em1).
    unfold call_init in Einit. destruct (build_all m1 (ms_equations m1)) as [rhs| |] eqn:Eb; try discriminate. cbn [bind] in Einit.
    assert (Hnames : ms_names m = ms_names m1) by (injection Einit as <-; reflexivity).
    assert (Hsrc : ms_sources m = ms_sources m1) by (injection Einit as <-; reflexivity).
    assert (Hrhs : ms_rhs m = rhs) by (injection Einit as <-; reflexivity).
    split.
    - rewrite Hrhs in Hi. destruct (build_all_nth _ _ _ _ _ _ Eb Hi) as (s & bt & bd & Hq & Eq & -> & ->).
      rewrite (tk_equations _ _ T), nth_error_map in Hq. destruct (nth_error (equations_of cs) i) as [s0|] eqn:Es; [|discriminate]. injection Hq as <-.
      destruct (text_equation s0 (nth_error_In _ _ Es)) as (q & _ & Ee & Hg & Hl). rewrite Ee in Eq. rewrite Hnames in HM.
      rewrite (build_linear (ms_names m1) q bt bd HM); [reflexivity| |exact Hg|exact Hl|exact Eq].
      unfold all_field_names. intros x Hx. apply in_app_or in Hx. unfold atoms. apply in_or_app. destruct Hx as [Hx|Hx].
      + left. rewrite <- (mi_fields L _ HM). exact Hx.
      + right. exact (linear_derived cs [] m1 x (eq_sym (app_nil_r cs)) Em1 Hx).
    - destruct (nth_error (ms_sources m) i) as [l|] eqn:El.
      + rewrite Hsrc in El. rewrite (tk_sources _ _ T i l El), no_sources. reflexivity.
      + apply nth_error_None in El. assert (i < length (ms_rhs m)) by (apply nth_error_Some; congruence). lia.
  Qed.
End Model.
