From Verif Require Import ListAux FileModel ParseProofs OperatorProofs DerivedProofs TextProofs EquationProofs EquationProofs2 EquationProofs3 EquationProofs4 EquationProofs5 EquationProofs6 EquationProofs7 EquationProofs8.
From Verif Require Import LinearSpec LinearProofs SplitSpec SplitProofs.
From Coq Require Import Lia Permutation.
Open Scope nat_scope.

(** The name under which the fields of a product are looked up. *)
Definition derived_name (L : lang) (t : list wfactor) : str := join_char star_c (sort_str (map factor_text (field_factors L t))).

Lemma linear_in_spec L field t : linear_in L field t = true <-> field_factors L t = [{| fa_name := field; fa_exp := None |}].
Proof.
  unfold linear_in. destruct (field_factors L t) as [|[nm [e|]] [|g r]]; cbn [fa_exp fa_name]; split; intros H; try discriminate.
  - apply str_eqb_eq in H. subst. reflexivity.
  - injection H as ->. apply str_eqb_refl.
Qed.

Section Lang.
  Variable L : lang.
  Hypothesis HL : good_lang L.

  Lemma derived_name_dnm t before fs after : good_product L t before fs after -> derived_name L t = dnm fs.
  Proof.
    intros GP. unfold derived_name, dnm, dname, product_of. f_equal.
    assert (HP := Permutation_map factor_text (field_factors_perm L HL t before fs after GP)).
    apply sorted_unique.
    - apply sort_sorted.
    - apply alphabetical_sorted. rewrite map_map. exact (gp_sorted_fields _ _ _ _ _ GP).
    - eapply Permutation_trans; [apply sort_perm|exact HP].
  Qed.

  Lemma scalar_factors_bricks t before fs after scal (brick : str -> C) : good_product L t before fs after ->
    (forall s, In s (l_scalars L) -> brick s = scal s) ->
    Forall (fun f => good_factor f /\ brick (fa_name f) = scal (fa_name f)) (scalar_factors L t).
  Proof.
    intros GP H1. apply Forall_forall. intros f Hin. unfold scalar_factors in Hin. apply in_map_iff in Hin.
    destruct Hin as (w & <- & Hw). apply filter_In in Hw. destruct Hw as [Hw Hs].
    split; [apply (t_ok L t before fs after GP w Hw)|]. apply H1, is_scalar_iff, Hs.
  Qed.

  Section Product.
    Variable m : pmodel.
    Hypothesis HM : minv L m.
    Variables t before fs after : list wfactor.
    Hypothesis GP : good_product L t before fs after.

    Lemma raw_explicit d : In (dnm fs) (all_field_names m) ->
      exists p, concrete_term m (product_text t, d) = Ok p /\
        forall cpow scal brick freq, (forall s, In s (l_scalars L) -> brick s = scal s) ->
          eval_pterm cpow brick freq p = Cmul (RtoC (sign_value d)) (Cmul (coefficient L cpow scal freq t) (brick (derived_name L t))).
    Proof.
      intros Hin. unfold concrete_term.
      assert (Ef : factors (product_text t) = map elem_text (map (elem_of L) t)).
      { unfold product_text. rewrite factors_texts.
        - rewrite map_map. apply map_ext_in. intros w Hw. symmetry. apply (elem_of_text L HL t before fs after GP), Hw.
        - apply map_nonempty, (gp_nonempty _ _ _ _ _ GP).
        - apply (texts_no_star L), (t_all L t before fs after GP). }
      rewrite Ef, (brick_loop_spec L HL m HM).
      2:{ apply Forall_forall. intros e He. apply in_map_iff in He. destruct He as (w & <- & Hw). apply (elem_of_good L HL m HM t before fs after GP), Hw. }
      cbn [app bind]. rewrite consts_of. eexists. split; [reflexivity|].
      intros cpow scal brick freq GB. unfold eval_pterm. cbn [pt_neg pt_bricks pt_field pt_lap].
      rewrite (lap_explicit L HL t before fs after GP). rewrite (eval_bricks_consts cpow brick scal) by (eapply scalar_factors_bricks; [exact GP|exact GB]).
      change (match d with Some c => Ascii.eqb c minus_c | None => false end) with (sign_of d). rewrite sign_of_value.
      assert (Hnl := names_like L m HM). assert (Hne := gp_field _ _ _ _ _ GP).
      rewrite (field_name_product L HL t before fs after GP) by assumption. rewrite (derived_name_dnm t before fs after GP).
      assert (Hd : dnm fs <> []) by (rewrite Forall_forall in Hnl; apply (name_like_nonempty L HL), Hnl, Hin).
      unfold coefficient. rewrite (total_power_t L t before fs after GP).
      destruct (dnm fs) as [|c0 r0] eqn:Ed; [congruence|]. rewrite <- Ed.
      destruct (op0 fs) as [| |ds]; [cbn [oper_power pow]; change (RtoC 1) with C1; ring| |]; rewrite lap_eval_symbol; ring.
    Qed.

    Variable field : str.
    Hypothesis Hfield : In field (l_fields L).

    Lemma raw_bilinear d w1 w2 w : t = w1 ++ w :: w2 -> fs = [w] -> wf_name w = field -> fa_exp (wf_fac w) = None ->
      exists p, concrete_term m (delete_all (product_text t) field, d) = Ok p /\
        forall cpow scal brick freq, (forall s, In s (l_scalars L) -> brick s = scal s) ->
          eval_pterm cpow brick freq p = Cmul (RtoC (sign_value d)) (coefficient L cpow scal freq t).
    Proof.
      intros Et Efs En Ee.
      rewrite (short_text L HL t before fs after GP field Hfield w1 w2 w Et En Ee). unfold concrete_term.
      rewrite factors_texts by (exact (short_nonempty w1 w2 w) || exact (short_no_star L t before fs after GP w1 w2 w Et)).
      assert (Eb : brick_loop m (short_texts w1 w2 w) [] = Ok (map const_brick (scalar_factors L t))).
      { rewrite <- (short_elems_text L HL t before fs after GP w1 w2 w Et).
        rewrite (brick_loop_spec L HL m HM) by exact (short_elems_good L HL m HM t before fs after GP w1 w2 w Et).
        rewrite (short_consts L HL t field Hfield w1 w2 w Et En). reflexivity. }
      rewrite Eb. cbn [bind]. eexists. split; [reflexivity|].
      intros cpow scal brick freq GB. unfold eval_pterm. cbn [pt_neg pt_bricks pt_field pt_lap].
      rewrite (short_field L HL m HM t before fs after GP w1 w2 w Et Efs).
      rewrite (short_lap L HL t before fs after GP w1 w2 w Et Efs).
      rewrite (eval_bricks_consts cpow brick scal) by (eapply scalar_factors_bricks; [exact GP|exact GB]).
      change (match d with Some c => Ascii.eqb c minus_c | None => false end) with (sign_of d). rewrite sign_of_value.
      unfold coefficient. rewrite (total_power_t L t before fs after GP). rewrite Efs. cbn [op0].
      destruct (wf_op w); [cbn [oper_power pow]; change (RtoC 1) with C1; ring| |]; rewrite lap_eval_symbol; ring.
    Qed.
  End Product.

  (** ** Building an equation *)
  Definition parts_ok (m : pmodel) (field : str) (items : list (item * option ascii)) (acc r : list built * list built) : Prop :=
    forall cpow scal brick implicit explicit linear nonlinear freq,
      (forall s, In s (l_scalars L) -> brick s = scal s) ->
      let ev := eval_built cpow brick implicit explicit linear nonlinear freq in
      Csum (map ev (fst r)) = Cadd (Csum (map ev (fst acc)))
        (sum_signed (explicit_item L cpow scal explicit nonlinear freq (fun t => brick (derived_name L t)) field) items)
      /\ Csum (map ev (snd r)) = Cadd (Csum (map ev (snd acc)))
        (sum_signed (implicit_item L cpow scal implicit linear freq field) items).

  Lemma build_loop_parts m field : minv L m -> In field (l_fields L) ->
    forall items acc, Forall (good_item L) (map fst items) ->
      Forall (fun p => snd p = None \/ snd p = Some plus_c \/ snd p = Some minus_c) items ->
      Forall (fun p => cov L m (fst p)) items ->
      exists r, build_loop m field (map piece_of items) acc = Ok r /\ parts_ok m field items acc r.
  Proof.
    intros HM Hfield. induction items as [|[it d] items IH]; intros acc Hg Hd Hc.
    { exists acc. split; [reflexivity|]. intros until 1. unfold sum_signed. cbn [map Csum]. split; ring. }
    cbn [map fst] in Hg. inversion Hg as [|? ? Hit Hits]; subst. inversion Hd as [|? ? Hd1 Hds]; subst. inversion Hc as [|? ? Hc1 Hcs]; subst.
    cbn [fst snd] in *. cbn [map piece_of build_loop fst snd]. destruct acc as [terms denum].
    assert (Happ : forall tt dd, (forall cpow scal brick implicit explicit linear nonlinear freq,
        (forall s, In s (l_scalars L) -> brick s = scal s) ->
        let ev := eval_built cpow brick implicit explicit linear nonlinear freq in
        Csum (map ev tt) = Cmul (RtoC (sign_value d)) (explicit_item L cpow scal explicit nonlinear freq (fun t => brick (derived_name L t)) field it)
        /\ Csum (map ev dd) = Cmul (RtoC (sign_value d)) (implicit_item L cpow scal implicit linear freq field it)) ->
      exists r, build_loop m field (map piece_of items) (terms ++ tt, denum ++ dd) = Ok r /\ parts_ok m field ((it, d) :: items) (terms, denum) r).
    { intros tt dd Hv. destruct (IH (terms ++ tt, denum ++ dd) Hits Hds Hcs) as (r & E & Hr). exists r. split; [exact E|].
      intros cpow scal brick implicit explicit linear nonlinear freq GB ev.
      specialize (Hr cpow scal brick implicit explicit linear nonlinear freq GB). cbv zeta in Hr.
      specialize (Hv cpow scal brick implicit explicit linear nonlinear freq GB). cbv zeta in Hv. fold ev in Hr, Hv.
      destruct Hr as [Hr1 Hr2]. destruct Hv as [Hv1 Hv2].
      rewrite Hr1, Hr2. cbn [fst snd]. unfold sum_signed. cbn [map Csum fst snd]. rewrite <- Hv1, <- Hv2, !map_app, !Csum_app. split; ring. }
    destruct it as [t|os name]; cbn [item_text good_item] in *.
    - destruct Hit as [(before & fs & after & GP) Hnu].
      assert (Hn1 : mem_str (remove_known_prefixes (product_text t)) (pm_implicit m) = false).
      { apply mem_str_notIn. rewrite (mi_implicit L m HM). intros H. apply Hnu. unfold user_terms. rewrite !in_app_iff. auto. }
      assert (Hn2 : mem_str (remove_known_prefixes (product_text t)) (pm_explicit m) = false).
      { apply mem_str_notIn. rewrite (mi_explicit L m HM). intros H. apply Hnu. unfold user_terms. rewrite !in_app_iff. auto. }
      assert (Hn3 : mem_str (remove_known_prefixes (product_text t)) (pm_mixed m) = false).
      { apply mem_str_notIn. rewrite (mi_mixed L m HM). intros H. apply Hnu. unfold user_terms. rewrite !in_app_iff. auto. }
      rewrite Hn1, Hn2, Hn3. destruct (is_bilinear (product_text t) field (all_field_names m)) eqn:Eb.
      + assert (Hincl : incl (l_fields L) (all_field_names m)).
        { unfold all_field_names. rewrite (mi_fields L m HM). apply incl_appl, incl_refl. }
        destruct (bilinear_shape L HL t before fs after GP field _ Hfield Hincl Eb) as (w1 & w & w2 & Et & Efs & En & Ee).
        assert (Hlin : linear_in L field t = true).
        { apply linear_in_spec. assert (HP := field_factors_perm L HL t before fs after GP). rewrite Efs in HP. cbn [map] in HP.
          apply Permutation_sym, Permutation_length_1_inv in HP. rewrite HP. unfold wf_name in En. destruct (wf_fac w) as [nm ex]. cbn [fa_name fa_exp] in *. subst. reflexivity. }
        destruct (raw_bilinear m HM t before fs after GP field Hfield d w1 w2 w Et Efs En Ee) as (p & Ep & Hp).
        rewrite Ep. cbn [bind]. destruct (Happ [] [BTerm p]) as (r & E & Hr).
        * intros cpow scal brick implicit explicit linear nonlinear freq GB. cbv zeta. cbn [map Csum eval_built explicit_item implicit_item].
          rewrite Hlin, (Hp cpow scal brick freq GB). split; ring.
        * rewrite app_nil_r in E. exists r. split; assumption.
      + assert (Hlin : linear_in L field t = false).
        { apply not_true_is_false. intros H. apply linear_in_spec in H.
          rewrite (linear_bilinear_all L HL t before fs after GP field Hfield H _ (names_like L m HM)) in Eb. discriminate. }
        destruct (Hc1 before fs after GP) as [Hnil|Hin]; [exfalso; exact (gp_field _ _ _ _ _ GP Hnil)|].
        destruct (raw_explicit m HM t before fs after GP d Hin) as (p & Ep & Hp).
        change (piece_of (IProduct t, d)) with (product_text t, d). rewrite Ep. cbn [bind]. destruct (Happ [BTerm p] []) as (r & E & Hr).
        * intros cpow scal brick implicit explicit linear nonlinear freq GB. cbv zeta. cbn [map Csum eval_built explicit_item implicit_item].
          rewrite Hlin, (Hp cpow scal brick freq GB). split; ring.
        * rewrite app_nil_r in E. exists r. split; assumption.
    - destruct Hit as [Hn Ho]. destruct (user_spelled os Ho) as [Hs _]. destruct (gl_user L HL name Hn) as (Hb & _).
      destruct (operators_recovered os (map op_str os) name Hs Hb) as [_ Er]. rewrite Er.
      rewrite (mem_str_same _ _ _ (mi_implicit L m HM)), (mem_str_same _ _ _ (mi_explicit L m HM)), (mem_str_same _ _ _ (mi_mixed L m HM)).
      destruct (mem_str name (l_implicit L)) eqn:E1.
      { destruct (Happ [] [BImplicit name (concat (map op_str os) ++ name, d)]) as (r & E & Hr).
        - intros cpow scal brick implicit explicit linear nonlinear freq GB. cbv zeta. cbn [map Csum eval_built explicit_item implicit_item].
          rewrite (user_value L HL) by assumption. rewrite E1. split; ring.
        - rewrite app_nil_r in E. exists r. split; assumption. }
      destruct (mem_str name (l_explicit L)) eqn:E2.
      { destruct (Happ [BExplicit name (concat (map op_str os) ++ name, d)] []) as (r & E & Hr).
        - intros cpow scal brick implicit explicit linear nonlinear freq GB. cbv zeta. cbn [map Csum eval_built explicit_item implicit_item].
          rewrite (user_value L HL) by assumption. rewrite E1, E2. split; ring.
        - rewrite app_nil_r in E. exists r. split; assumption. }
      assert (E3 : mem_str name (l_mixed L) = true).
      { apply mem_str_In. apply mem_str_notIn in E1, E2. unfold user_terms in Hn. rewrite !in_app_iff in Hn. tauto. }
      rewrite E3.
      apply (Happ [BNonLinear name (concat (map op_str os) ++ name, d)] [BLinear name (concat (map op_str os) ++ name, d)]).
      intros cpow scal brick implicit explicit linear nonlinear freq GB. cbv zeta. cbn [map Csum eval_built explicit_item implicit_item].
      rewrite !(user_value L HL) by assumption. rewrite E1, E2. split; ring.
  Qed.

  Lemma sum_signed_perm f l l' : Permutation l l' -> sum_signed f l = sum_signed f l'.
  Proof. intros H. unfold sum_signed. apply Csum_perm, Permutation_map, H. Qed.

  Lemma build_parts m e terms denum : minv L m -> good_equation L e -> all_cov L m e -> build m (eq_text e) = Ok (terms, denum) ->
    forall cpow scal brick implicit explicit linear nonlinear freq,
      (forall s, In s (l_scalars L) -> brick s = scal s) ->
      let ev := eval_built cpow brick implicit explicit linear nonlinear freq in
      Csum (map ev terms) = sum_signed (explicit_item L cpow scal explicit nonlinear freq (fun t => brick (derived_name L t)) (q_field e)) (signed_items e)
      /\ Csum (map ev denum) = sum_signed (implicit_item L cpow scal implicit linear freq (q_field e)) (signed_items e).
  Proof.
    intros HM HE Hc EB. destruct (e_split L HL e HE) as (items & Es & Hp). destruct (items_good L e HE items Hp) as [Hg Hd].
    assert (Hc' : Forall (fun p => cov L m (fst p)) items).
    { apply Forall_forall. intros p Hin. unfold all_cov in Hc. rewrite Forall_forall in Hc. apply Hc, (Permutation_in _ Hp), Hin. }
    destruct (build_loop_parts m (q_field e) HM (e_field L e HE) items ([], []) Hg Hd Hc') as (r & E & Hv).
    assert (E2 : r = (terms, denum)).
    { unfold build in EB. rewrite (e_sides L HL e HE) in EB. cbn [bind fst snd] in EB. rewrite (e_leibniz e) in EB. cbn [bind] in EB. rewrite Es in EB. cbn [bind] in EB. congruence. }
    subst r. intros cpow scal brick implicit explicit linear nonlinear freq GB ev.
    specialize (Hv cpow scal brick implicit explicit linear nonlinear freq GB). cbv zeta in Hv. fold ev in Hv. cbn [fst snd map Csum] in Hv.
    destruct Hv as [H1 H2]. rewrite H1, H2, !(sum_signed_perm _ _ _ Hp). split; ring.
  Qed.
End Lang.
