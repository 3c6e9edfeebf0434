From Verif Require Import ListAux ParseProofs OperatorProofs EquationModel EquationSpec DerivedProofs TextProofs EquationProofs.
From Coq Require Import Lra Qreals.
Open Scope nat_scope.

Lemma field_name_none term names : (forall f, In f names -> ~ occurs f term) -> get_field_name term names = [].
Proof.
  intros H. unfold get_field_name.
  assert (G : forall todo, incl todo names -> field_name_loop term names todo [] = []).
  { induction todo as [|f todo IH]; intros Hi; [reflexivity|]. cbn [field_name_loop].
    assert (E : contains term f = false) by (apply contains_false, H, Hi; left; reflexivity).
    rewrite E. cbn [andb]. apply IH. intros z Hz. apply Hi. right. exact Hz. }
  apply G, incl_refl.
Qed.

Lemma Q2R_abs q : Q2R (Qabs.Qabs q) = Rabs (Q2R q).
Proof.
  destruct q as [n d]. unfold Q2R, Qabs.Qabs. cbn [Qnum Qden]. rewrite Rabs_mult, abs_IZR. f_equal.
  symmetry. apply Rabs_right. apply Rle_ge. left. apply Rinv_0_lt_compat. apply IZR_lt. reflexivity.
Qed.

Lemma near_one_false q : (1 / 10000000000 <= Rabs (Q2R q - 1))%R -> near_one q = false.
Proof.
  intros H. unfold near_one. apply negb_false_iff. apply Qle_bool_iff. apply Rle_Qle.
  rewrite Q2R_abs. unfold Qminus. rewrite Q2R_plus, Q2R_opp. unfold Q2R at 1 3. cbn [Qnum Qden].
  replace (1 * / 1)%R with 1%R by field. unfold Rdiv in H. exact H.
Qed.

Lemma in_mid {A} (l1 : list A) x l2 : In x (l1 ++ x :: l2).
Proof. apply in_or_app. right. left. reflexivity. Qed.

Lemma perm_filter {A} (p : A -> bool) l l' : Permutation l l' -> Permutation (filter p l) (filter p l').
Proof.
  induction 1 as [|u l l' _ IH|u v l|l1 l2 l3 _ IH1 _ IH2]; cbn [filter]; [constructor| | |eapply Permutation_trans; eauto].
  - destruct (p u); [constructor|]; exact IH.
  - destruct (p u), (p v); first [apply perm_swap|apply Permutation_refl].
Qed.

Lemma filter_all {A} (p : A -> bool) l : forallb p l = true -> filter p l = l.
Proof.
  induction l as [|x l IH]; intros H; [reflexivity|]. cbn in *. apply andb_true_iff in H. destruct H as [-> H].
  f_equal. apply IH, H.
Qed.

Section Product.
  Variable L : lang.
  Hypothesis HL : good_lang L.
  Variables t before fs after : list wfactor.
  Hypothesis GP : good_product L t before fs after.

  Lemma fs_atoms w : In w fs -> In (wf_name w) (atoms L).
  Proof.
    intros Hw. unfold atoms. apply in_or_app. destruct (gp_atoms _ _ _ _ _ GP) as [H|(w' & E & H & _)].
    - left. apply H, Hw.
    - right. rewrite E in Hw. destruct Hw as [<-|[]]. exact H.
  Qed.

  Lemma in_parts w : In w t <-> In w (before ++ fs ++ after).
  Proof. split; apply Permutation_in; [|apply Permutation_sym]; apply (gp_perm _ _ _ _ _ GP). Qed.

  Lemma parts w : In w t -> In w fs \/ In w (before ++ after).
  Proof. rewrite in_parts, !in_app_iff. tauto. Qed.

  Lemma fs_op w : In w fs -> good_oper (wf_op w).
  Proof.
    intros Hw. assert (Ho := gp_op _ _ _ _ _ GP). destruct fs as [|w0 r]; [destruct Hw|].
    destruct (Ho w0 r eq_refl) as [H1 H2]. destruct Hw as [<-|Hw]; [exact H1|]. rewrite (H2 w Hw). exact I.
  Qed.

  Lemma fs_tl w : In w (tl fs) -> wf_op w = NoOp.
  Proof.
    assert (Ho := gp_op _ _ _ _ _ GP). destruct fs as [|w0 r]; [intros []|]. cbn [tl].
    destruct (Ho w0 r eq_refl) as [_ H2]. apply H2.
  Qed.

  Lemma t_ok w : In w t -> okw L w.
  Proof.
    intros Hw. split; [exact (gp_factors _ _ _ _ _ GP w Hw)|].
    destruct (parts w Hw) as [H|H].
    - split; [exact (fs_op w H)|]. split; [apply atom_known, fs_atoms, H|intros _; apply fs_atoms, H].
    - destruct (gp_scalars _ _ _ _ _ GP w H) as [Hs Ho]. rewrite Ho. split; [exact I|].
      split; [apply in_or_app; right; exact Hs|congruence].
  Qed.

  Lemma t_all : Forall (okw L) t.
  Proof. apply Forall_forall. exact t_ok. Qed.
  Lemma before_ok : Forall (okw L) before.
  Proof. apply Forall_forall. intros w Hw. apply t_ok, in_parts, in_or_app. left. exact Hw. Qed.
  Lemma fs_ok : Forall (okw L) fs.
  Proof. apply Forall_forall. intros w Hw. apply t_ok, in_parts, in_or_app. right. apply in_or_app. left. exact Hw. Qed.
  Lemma after_ok : Forall (okw L) after.
  Proof. apply Forall_forall. intros w Hw. apply t_ok, in_parts, in_or_app. right. apply in_or_app. right. exact Hw. Qed.

  Lemma sc w : In w (before ++ after) -> In (wf_name w) (l_scalars L).
  Proof. intros H. apply (gp_scalars _ _ _ _ _ GP w H). Qed.

  Lemma not_scalar_in_fs w : In w t -> ~ In (wf_name w) (l_scalars L) -> In w fs.
  Proof. intros Hw Hn. destruct (parts w Hw) as [H|H]; [exact H|]. exfalso. apply Hn, sc, H. Qed.

  Lemma fs_not_scalar w : In w fs -> ~ In (wf_name w) (l_scalars L).
  Proof. intros Hw. apply (gl_scalar L HL), fs_atoms, Hw. Qed.

  (** Sorting the factors of the text. *)
  Lemma alphabetical_sorted l : alphabetical l -> sorted_s l.
  Proof.
    induction l as [|x l IH]; intros H; [exact I|]. destruct H as [H1 H2]. split; [|apply IH, H2].
    apply Forall_forall. exact H1.
  Qed.

  Lemma texts_no_star l : Forall (okw L) l -> Forall (fun s => ~ In star_c s) (map wf_text l).
  Proof.
    intros H. apply Forall_forall. intros s Hs. apply in_map_iff in Hs. destruct Hs as (w & <- & Hw).
    rewrite Forall_forall in H. destruct (H w Hw) as (Hf & Ho & _). unfold wf_text. intros Hin.
    apply in_app_or in Hin. destruct Hin as [Hin|Hin]; [exact (star_not_oper _ Ho Hin)|exact (factor_text_no_star _ Hf Hin)].
  Qed.

  Lemma map_nonempty {A B} (f : A -> B) l : l <> [] -> map f l <> [].
  Proof. destruct l; [congruence|discriminate]. Qed.

  Lemma sort_product : sort_factors (product_text t) = product_text (before ++ fs ++ after).
  Proof.
    unfold sort_factors, product_text. rewrite split_join.
    - f_equal. apply sorted_unique; [apply sort_sorted|apply alphabetical_sorted, (gp_sorted _ _ _ _ _ GP)|].
      eapply Permutation_trans; [apply sort_perm|]. apply Permutation_map, (gp_perm _ _ _ _ _ GP).
    - apply map_nonempty, (gp_nonempty _ _ _ _ _ GP).
    - apply texts_no_star, t_all.
  Qed.

  Definition dnm : str := dname fs.

  Lemma field_name_product names : fs <> [] -> Forall (name_like L) names -> In dnm names ->
    get_field_name (sort_factors (product_text t)) names = dnm.
  Proof.
    intros Hne Hn Hin. rewrite sort_product.
    rewrite (sorted_text before fs after Hne fs_tl).
    exact (get_field_name_spec L HL before fs after before_ok fs_ok after_ok sc Hne fs_atoms fs_tl names Hn Hin).
  Qed.

  Lemma no_atom_scalars a : In a (atoms L) -> fs = [] -> ~ occurs a (product_text t).
  Proof.
    intros Ha Hfs (x & y & E).
    destruct (product_occ L HL t a x y t_all (gp_nonempty _ _ _ _ _ GP) Ha E) as (w1 & w & w2 & Et & En & _).
    assert (Hw : In w fs).
    { apply not_scalar_in_fs; [rewrite Et; apply in_mid|]. rewrite En. apply (gl_scalar L HL a Ha). }
    rewrite Hfs in Hw. destruct Hw.
  Qed.

  (** ** Bilinear terms *)

  (** A text without '*' and '^' that starts with a letter and does not occur
      in a name does not occur in its factor. *)
  Lemma plain_factor_free w (c : ascii) (s : str) : In w (before ++ after) -> letter_c c = true ->
    ~ In hat_c (c :: s) -> ~ occurs (c :: s) (wf_name w) -> ~ occurs (c :: s) (wf_text w).
  Proof.
    intros Hw Hc Hh Hn (x & y & E). destruct (gp_scalars _ _ _ _ _ GP w Hw) as [_ Ho].
    assert (Hf : good_factor (wf_fac w)).
    { apply (gp_factors _ _ _ _ _ GP). apply in_parts. rewrite !in_app_iff in *. tauto. }
    unfold wf_text in E. rewrite Ho in E. cbn [oper_text app] in E. rewrite factor_text_eq in E. unfold exp_text in E.
    destruct (fa_exp (wf_fac w)) as [e|] eqn:Ee.
    - symmetry in E. destruct (occ_split hat_c x (c :: s) y _ _ Hh E) as [(y' & E2 & E3)|(x' & E2 & E3)].
      + apply Hn. exists x, y'. exact E2.
      + destruct Hf as [_ Hfe]. rewrite Ee in Hfe. rewrite <- (app_nil_r (expo_text e)) in E3.
        destruct (occ_skip _ _ _ _ _ _ (letter_not_expo c e Hc Hfe) E3) as (z & _ & E5). destruct z; discriminate.
    - rewrite app_nil_r in E. apply Hn. exists x, y. exact E.
  Qed.

  Lemma only_field_with_powers w1 w w2 field : t = w1 ++ w :: w2 -> wf_name w = field -> In field (l_fields L) ->
    fs = [w] -> with_powers field (product_text t) = factor_text (wf_fac w).
  Proof.
    intros Et En Hf Efs.
    assert (Hat : In field (atoms L)) by (apply in_or_app; left; exact Hf).
    destruct (gl_long L HL field Hat) as [Hlen _].
    destruct (atom_first L HL field Hat) as (c & a' & Ea & Hl & Hnop).
    assert (Hwok : okw L w) by (apply t_ok; rewrite Et; apply in_mid).
    destruct (exists_last (l := field) ltac:(rewrite Ea; discriminate)) as (s & z & Es).
    assert (Hrl : removelast field = s) by (rewrite Es; apply removelast_last).
    assert (Hcs : exists s', s = c :: s').
    { destruct s as [|c' s']; [rewrite Es in Hlen; cbn in Hlen; lia|]. rewrite Es in Ea. cbn in Ea. injection Ea as <- _. eauto. }
    destruct Hcs as (s' & Ecs).
    assert (Hchars : forall ch, In ch field -> name_char ch = true).
    { assert (H := ident_chars field (gl_ident L HL field (atom_known L field Hat))). rewrite forallb_forall in H. exact H. }
    assert (Hsub : forall ch, In ch s -> In ch field) by (intros ch H; rewrite Es; apply in_or_app; left; exact H).
    assert (Hstar : ~ In star_c s) by (intros H; apply Hsub, Hchars in H; vm_compute in H; discriminate).
    assert (Hhat : ~ In hat_c s) by (intros H; apply Hsub, Hchars in H; vm_compute in H; discriminate).
    assert (Hlead : forall u, In u (texts w1) -> ~ occurs s u).
    { intros u Hu. unfold texts in Hu. apply in_map_iff in Hu. destruct Hu as (v & <- & Hv).
      assert (Hvt : In v t) by (rewrite Et; apply in_or_app; left; exact Hv).
      assert (Hvs : In v (before ++ after)).
      { destruct (parts v Hvt) as [H|H]; [|exact H]. exfalso. rewrite Efs in H. destruct H as [<-|[]].
        assert (Hnd := gp_perm _ _ _ _ _ GP).
        assert (Hcount : In w (before ++ after)).
        { rewrite Et, Efs in Hnd. apply Permutation_sym in Hnd. cbn [app] in Hnd.
          apply Permutation_sym in Hnd.
          assert (Hp : Permutation (w1 ++ w2) (before ++ after)).
          { apply Permutation_app_inv with (a := w). exact Hnd. }
          apply (Permutation_in w Hp). apply in_or_app. left. exact Hv. }
        apply (gl_scalar L HL field Hat). rewrite <- En. apply sc, Hcount. }
      rewrite Ecs. apply plain_factor_free; [exact Hvs|exact Hl|rewrite <- Ecs; exact Hhat|].
      rewrite <- Ecs, <- Hrl. apply (gl_short L HL); [exact Hf|]. apply sc, Hvs. }
    unfold with_powers. rewrite Hrl.
    assert (Etxt : product_text t = (lead_text (texts w1) ++ oper_text (wf_op w)) ++ s ++ (z :: exp_text (wf_fac w) ++ tail_text (texts w2))).
    { rewrite Et, text_mid, En, Es. rewrite <- !app_assoc. reflexivity. }
    rewrite Etxt. rewrite after_lit_first.
    - rewrite factor_text_eq. change (fa_name (wf_fac w)) with (wf_name w). rewrite En, Es, <- app_assoc. f_equal.
      cbn [app].
      assert (Hz : name_char z = true) by (apply Hchars; rewrite Es; apply in_or_app; right; left; reflexivity).
      assert (Hp : forallb (fun ch => not_star ch && negb (Ascii.eqb ch slash_c)) (z :: exp_text (wf_fac w)) = true).
      { apply forallb_forall. intros ch [<-|Hin].
        - unfold not_star. apply andb_true_iff. split; apply negb_true_iff; apply not_true_is_false; intros E;
            apply Ascii.eqb_eq in E; subst; vm_compute in Hz; discriminate.
        - destruct Hwok as (Hgf & _). unfold not_star. apply andb_true_iff. split; apply negb_true_iff; apply not_true_is_false; intros E;
            apply Ascii.eqb_eq in E; subst ch.
          + exact (star_not_exp _ Hgf Hin).
          + unfold exp_text in Hin. destruct Hgf as [_ He]. destruct (fa_exp (wf_fac w)) as [e|]; [|destruct Hin].
            destruct Hin as [E|Hin]; [discriminate|]. destruct (expo_chars e _ He Hin) as [H|H]; [vm_compute in H|]; discriminate. }
      change (z :: exp_text (wf_fac w) ++ tail_text (texts w2)) with ((z :: exp_text (wf_fac w)) ++ tail_text (texts w2)).
      apply take_while_app; [exact Hp|]. destruct (texts w2); [exact I|reflexivity].
    - intros x' y' E. rewrite <- app_assoc in E.
      destruct (occ_lead _ _ x' s y' ltac:(rewrite Ecs; discriminate) Hstar Hlead E) as (x2 & -> & E2).
      rewrite Ecs in E2.
      destruct (occ_skip _ _ _ _ _ _ (first_not_oper L HL field (wf_op w) Hat (proj1 (proj2 Hwok)) c a' Ea) E2) as (x3 & -> & _).
      rewrite !app_length. lia.
  Qed.

  Lemma bilinear_shape field names : In field (l_fields L) -> incl (l_fields L) names ->
    is_bilinear (product_text t) field names = true ->
    exists w1 w w2, t = w1 ++ w :: w2 /\ fs = [w] /\ wf_name w = field /\ fa_exp (wf_fac w) = None.
  Proof.
    intros Hf Hincl H. unfold is_bilinear in H.
    destruct (Nat.eqb_spec (count_lit (product_text t) field) 1) as [Hc|Hc]; [|discriminate].
    apply count_one_occurs in Hc. destruct Hc as (x & y & E).
    assert (Hat : In field (atoms L)) by (apply in_or_app; left; exact Hf).
    destruct (product_occ L HL t field x y t_all (gp_nonempty _ _ _ _ _ GP) Hat E) as (w1 & w & w2 & Et & En & _).
    assert (Hwf : In w fs).
    { apply not_scalar_in_fs; [rewrite Et; apply in_mid|]. rewrite En. apply (gl_scalar L HL _ Hat). }
    destruct (existsb _ names) eqn:Eex; [discriminate|].
    assert (Hfields : forall v, In v fs -> In (wf_name v) (l_fields L)).
    { destruct (gp_atoms _ _ _ _ _ GP) as [Ha|(v & Ev & Hv & _)]; [intros v Hv; apply Ha, Hv|].
      intros v' Hv'. rewrite Ev in Hv', Hwf. destruct Hv' as [<-|[]]. destruct Hwf as [<-|[]]. rewrite En. exact Hf. }
    assert (Honly : forall v, In v fs -> wf_name v = field).
    { intros v Hv. destruct (list_eq_dec ascii_dec (wf_name v) field) as [Eq|Ne]; [exact Eq|]. exfalso.
      assert (Ht : existsb (fun f => negb (str_eqb f field) && re_hit f (product_text t)) names = true).
      { apply existsb_exists. exists (wf_name v). split; [apply Hincl, Hfields, Hv|].
        apply andb_true_iff. split; [apply negb_true_iff, str_eqb_neq, Ne|].
        rewrite re_hit_ident by (apply (gl_ident L HL), atom_known, fs_atoms, Hv).
        apply contains_true. assert (Hvt : In v t) by (apply in_parts; rewrite !in_app_iff; tauto).
        apply in_split in Hvt. destruct Hvt as (v1 & v2 & Ev). rewrite Ev, text_mid.
        exists (lead_text (texts v1) ++ oper_text (wf_op v)), (exp_text (wf_fac v) ++ tail_text (texts v2)).
        rewrite <- !app_assoc. reflexivity. }
      congruence. }
    assert (Efs : fs = [w]).
    { assert (Hnd := gp_distinct _ _ _ _ _ GP). clear -Hwf Honly Hnd. destruct fs as [|a [|b r]].
      - destruct Hwf.
      - destruct Hwf as [->|[]]. reflexivity.
      - exfalso. cbn [map] in Hnd. inversion Hnd as [|? ? Hni _]; subst. apply Hni. left.
        rewrite (Honly a), (Honly b); [reflexivity| |]; cbn; auto. }
    exists w1, w, w2. split; [exact Et|]. split; [exact Efs|]. split; [exact En|].
    rewrite (only_field_with_powers w1 w w2 field Et En Hf Efs) in H.
    destruct (fa_exp (wf_fac w)) as [e|] eqn:Ee; [|reflexivity]. exfalso.
    assert (Hgf : good_factor (wf_fac w)) by (apply (gp_factors _ _ _ _ _ GP); rewrite Et; apply in_mid).
    assert (Hp := factor_get_power _ Hgf). unfold get_power in Hp.
    unfold factor_power in Hp. rewrite Ee in Hp.
    assert (Hbig : (1 / 10000000000 <= Rabs (expo_value e - 1))%R).
    { destruct (gp_atoms _ _ _ _ _ GP) as [Ha|(v & Ev & _ & He)].
      - destruct (Ha w Hwf) as [_ Hx]. rewrite Ee in Hx. exact Hx.
      - rewrite Efs in Ev. injection Ev as <-. congruence. }
    destruct (find_power (factor_text (wf_fac w))) as [q|] eqn:Eq.
    - rewrite <- Hp in Hbig. rewrite (near_one_false q Hbig) in H. discriminate.
    - assert (Hone : expo_value e = 1%R) by (rewrite <- Hp; unfold Q2R; cbn; field).
      rewrite Hone in Hbig. replace (1 - 1)%R with 0%R in Hbig by ring. rewrite Rabs_R0 in Hbig. lra.
  Qed.

  (** A field occurs at most once in a product. *)
  Lemma unique_position n w1 w w2 v1 v v2 : In n (atoms L) -> t = w1 ++ w :: w2 -> wf_name w = n ->
    t = v1 ++ v :: v2 -> wf_name v = n -> v1 = w1 /\ v = w.
  Proof.
    intros Hat Et En Ev Env.
    assert (Hvw : v1 = w1).
    { assert (Hnd : NoDup (map wf_name (filter (fun u => negb (is_scalar_name L (wf_name u))) t))).
              { apply Permutation_NoDup with (l := map wf_name (filter (fun u => negb (is_scalar_name L (wf_name u))) (before ++ fs ++ after))).
                - apply Permutation_map, perm_filter, Permutation_sym, (gp_perm _ _ _ _ _ GP).
                - rewrite !filter_app.
                  assert (Hsc : forall l, incl l (before ++ after) -> filter (fun u => negb (is_scalar_name L (wf_name u))) l = []).
                  { induction l as [|u l IHl]; intros Hi; [reflexivity|]. cbn [filter].
                    assert (Hu : is_scalar_name L (wf_name u) = true).
                    { unfold is_scalar_name. apply existsb_exists. exists (wf_name u). split; [apply sc, Hi; left; reflexivity|apply str_eqb_refl]. }
                    rewrite Hu. cbn [negb]. apply IHl. intros z Hz. apply Hi. right. exact Hz. }
                  rewrite (Hsc before) by (intros z Hz; apply in_or_app; left; exact Hz).
                  rewrite (Hsc after) by (intros z Hz; apply in_or_app; right; exact Hz).
                  cbn [app]. rewrite app_nil_r. rewrite filter_all.
                  + exact (gp_distinct _ _ _ _ _ GP).
                  + apply forallb_forall. intros u Hu. apply negb_true_iff. apply not_true_is_false. intros Hs.
                    unfold is_scalar_name in Hs. apply existsb_exists in Hs. destruct Hs as (q & Hq & Eq). apply str_eqb_eq in Eq.
                    apply (fs_not_scalar u Hu). rewrite <- Eq. exact Hq. }
              assert (Hkeep : forall u, wf_name u = n -> negb (is_scalar_name L (wf_name u)) = true).
              { intros u Eu. apply negb_true_iff. apply not_true_is_false. intros Hs. unfold is_scalar_name in Hs.
                apply existsb_exists in Hs. destruct Hs as (q & Hq & Eq). apply str_eqb_eq in Eq. subst q.
                rewrite Eu in Hq. exact (gl_scalar L HL n Hat Hq). }
              assert (Eall : v1 ++ v :: v2 = w1 ++ w :: w2) by congruence.
              assert (Hnw1 : forall u, In u w1 -> wf_name u <> n).
              { intros u Hu Eu. rewrite Et, filter_app in Hnd. cbn [filter] in Hnd. rewrite (Hkeep w En) in Hnd.
                rewrite map_app in Hnd. cbn [map] in Hnd. apply NoDup_remove_2 in Hnd. apply Hnd. apply in_or_app. left.
                rewrite En, <- Eu. apply in_map. apply filter_In. split; [exact Hu|apply Hkeep, Eu]. }
              assert (Hnv1 : forall u, In u v1 -> wf_name u <> n).
              { intros u Hu Eu. rewrite Ev, filter_app in Hnd. cbn [filter] in Hnd. rewrite (Hkeep v Env) in Hnd.
                rewrite map_app in Hnd. cbn [map] in Hnd. apply NoDup_remove_2 in Hnd. apply Hnd. apply in_or_app. left.
                rewrite Env, <- Eu. apply in_map. apply filter_In. split; [exact Hu|apply Hkeep, Eu]. }
              destruct (app_app_cases _ _ _ _ Eall) as [(l & E1 & E2)|(l & E1 & E2)].
              - destruct l as [|u l]; [rewrite app_nil_r in E1; exact E1|]. injection E2 as -> _.
                exfalso. apply (Hnv1 u); [rewrite E1; apply in_mid|exact En].
              - destruct l as [|u l]; [rewrite app_nil_r in E1; congruence|]. injection E2 as -> _.
                exfalso. apply (Hnw1 u); [rewrite E1; apply in_mid|exact Env]. }
    split; [exact Hvw|]. rewrite Ev, Hvw in Et. apply app_inv_head in Et. congruence.
  Qed.

  (** ** The derived field a term needs *)

  Definition fac_of (n : str) : option factor :=
    option_map wf_fac (find (fun w => str_eqb (wf_name w) n) fs).

  Lemma nonlinear_loop_spec field names : In field (l_fields L) ->
    (is_bilinear (product_text t) field names = true -> forall n, In n (map wf_name fs) -> n = field) ->
    forall todo expr, incl todo (l_fields L) ->
    nonlinear_loop (product_text t) field names todo expr =
    expr ++ lead_text (map factor_text (flat_map (fun n =>
       if str_eqb n field && is_bilinear (product_text t) field names then []
       else match fac_of n with Some f => [f] | None => [] end) todo)).
  Proof.
    intros Hf Hbil. induction todo as [|n todo IH]; intros expr Hincl.
    - cbn. rewrite app_nil_r. reflexivity.
    - cbn [nonlinear_loop flat_map].
      assert (Hinc' : incl todo (l_fields L)) by (intros z Hz; apply Hincl; right; exact Hz).
      destruct (str_eqb n field && is_bilinear (product_text t) field names).
      + cbn [app]. apply IH, Hinc'.
      + rewrite IH by exact Hinc'.
        assert (Hn : In n (l_fields L)) by (apply Hincl; left; reflexivity).
        assert (Hat : In n (atoms L)) by (apply in_or_app; left; exact Hn).
        assert (Efo : fac_of n = option_map wf_fac (find (fun w => str_eqb (wf_name w) n) fs)) by reflexivity.
        destruct (find (fun w => str_eqb (wf_name w) n) fs) as [w|] eqn:Ew; cbn [option_map] in Efo; rewrite Efo.
        * apply find_some in Ew. destruct Ew as [Hw En]. apply str_eqb_eq in En.
          assert (Hwt : In w t) by (apply in_parts; rewrite !in_app_iff; tauto).
          apply in_split in Hwt. destruct Hwt as (w1 & w2 & Et).
          assert (Ha : after_lit (product_text t) n = Some (exp_text (wf_fac w) ++ tail_text (texts w2))).
          { assert (Etx : product_text t = (lead_text (texts w1) ++ oper_text (wf_op w)) ++ n ++ (exp_text (wf_fac w) ++ tail_text (texts w2))).
            { rewrite Et, text_mid, En, <- !app_assoc. reflexivity. }
            rewrite Etx. apply after_lit_first. intros x' y' E. rewrite <- Etx in E.
            destruct (product_occ L HL t n x' y' t_all (gp_nonempty _ _ _ _ _ GP) Hat E) as (v1 & v & v2 & Ev & Env & Ex & _).
            (* the factor with this name is unique *)
            assert (Hv : In v fs). { apply not_scalar_in_fs; [rewrite Ev; apply in_mid|]. rewrite Env. apply (gl_scalar L HL _ Hat). }
            destruct (unique_position n w1 w w2 v1 v v2 Hat Et En Ev Env) as [Hvw Hv0].
            rewrite Ex, Hvw, !app_length.
            rewrite Hv0. lia. }
          rewrite Ha.
          assert (Htw : take_while not_star (exp_text (wf_fac w) ++ tail_text (texts w2)) = exp_text (wf_fac w)).
          { apply take_while_app; [|destruct (texts w2); [exact I|reflexivity]].
            apply forallb_forall. intros ch Hch. unfold not_star. apply negb_true_iff. apply not_true_is_false. intros E.
            apply Ascii.eqb_eq in E. subst ch. apply (star_not_exp (wf_fac w)); [|exact Hch].
            apply (gp_factors _ _ _ _ _ GP). rewrite Et. apply in_mid. }
          rewrite Htw. cbn [map lead_text flat_map app].
          destruct (n ++ exp_text (wf_fac w)) as [|c0 r0] eqn:Er.
          { exfalso. apply (atom_nonempty L HL n Hat). destruct n; [reflexivity|discriminate]. }
          change (c0 :: r0 ++ [star_c]) with ((c0 :: r0) ++ [star_c]). rewrite <- Er. rewrite factor_text_eq. change (fa_name (wf_fac w)) with (wf_name w). rewrite En.
          rewrite <- !app_assoc. reflexivity.
        * cbn [app]. rewrite after_lit_none; [reflexivity|].
          intros (x & y & E). destruct (product_occ L HL t n x y t_all (gp_nonempty _ _ _ _ _ GP) Hat E) as (v1 & v & v2 & Ev & Env & _).
          assert (Hv : In v fs). { apply not_scalar_in_fs; [rewrite Ev; apply in_mid|]. rewrite Env. apply (gl_scalar L HL _ Hat). }
          apply (find_none _ _ Ew) in Hv. rewrite Env, str_eqb_refl in Hv. discriminate.
  Qed.
End Product.
