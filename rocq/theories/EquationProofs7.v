From Verif Require Import ListAux ParseProofs OperatorProofs EquationModel EquationSpec DerivedProofs TextProofs EquationProofs EquationProofs2 EquationProofs3 EquationProofs4 EquationProofs5 EquationProofs6.
From Coq Require Import Lra Qreals FunctionalExtensionality.
Open Scope nat_scope.

Definition piece_of (p : item * option ascii) : piece := (item_text (fst p), snd p).

Lemma user_chars os : Forall (fun o => spelling o <> None /\ o <> Neg) os ->
  forall c, In c (concat (map op_str os)) -> op_letter c \/ c = hat_c \/ c = star_c \/ digit_c c = true.
Proof.
  induction 1 as [|o os [Ho Hn] _ IH]; intros c Hc; [destruct Hc|].
  cbn [map concat] in Hc. apply in_app_or in Hc. destruct Hc as [Hc|Hc]; [|apply IH, Hc].
  unfold op_letter. destruct o as [|k|]; [congruence| |cbn in Hc; destruct Hc as [<-|[]]; right; right; left; reflexivity].
  do 5 (destruct k as [|k]; [cbn in Ho, Hc; first [congruence|repeat (destruct Hc as [<-|Hc]; [solve [auto|left; auto|right; right; right; reflexivity]|]); destruct Hc]|]).
  cbn in Ho. congruence.
Qed.

Lemma user_spelled os : Forall (fun o => spelling o <> None /\ o <> Neg) os ->
  spelled os (map op_str os) /\ minus_count os = 0.
Proof.
  induction 1 as [|o os [Ho Hn] _ [IH1 IH2]]; [split; [exact I|reflexivity]|].
  cbn [map spelled minus_count]. split.
  - split; [|exact IH1]. unfold op_str. destruct (spelling o); [reflexivity|congruence].
  - destruct o; [congruence|exact IH2|exact IH2].
Qed.

Section Lang.
  Variable L : lang.
  Hypothesis HL : good_lang L.

  (** ** Characters of the items *)
  Definition clean (s : str) : Prop := ~ In plus_c s /\ ~ In minus_c s /\ ~ In "="%char s.

  Lemma clean_app s s' : clean s -> clean s' -> clean (s ++ s').
  Proof. unfold clean. rewrite !in_app_iff. tauto. Qed.

  Lemma clean_chars s : (forall c, In c s -> name_char c = true \/ c = hat_c \/ c = star_c \/ c = dot_c) -> clean s.
  Proof.
    intros H. repeat split; intros Hin; destruct (H _ Hin) as [E|[E|[E|E]]]; discriminate.
  Qed.

  Lemma digit_name_char c : digit_c c = true -> name_char c = true.
  Proof. intros H. unfold name_char. rewrite H. destruct (letter_c c); reflexivity. Qed.

  Lemma oplet_name_char c : op_letter c -> name_char c = true.
  Proof. intros [->|[->| ->]]; reflexivity. Qed.

  Lemma factor_clean f : good_factor f -> clean (factor_text f).
  Proof.
    intros [Hi He]. rewrite factor_text_eq. apply clean_chars. intros c Hc. apply in_app_or in Hc. destruct Hc as [Hc|Hc].
    - left. assert (Hn := ident_chars _ Hi). rewrite forallb_forall in Hn. apply Hn, Hc.
    - unfold exp_text in Hc. destruct (fa_exp f) as [e|]; [|destruct Hc]. destruct Hc as [<-|Hc]; [auto|].
      destruct (expo_chars e c He Hc) as [H| ->]; [left; apply digit_name_char, H|auto].
  Qed.

  Lemma wf_clean w : okw L w -> clean (wf_text w).
  Proof.
    intros (Hf & Ho & _). apply clean_app; [|apply factor_clean, Hf]. apply clean_chars. intros c Hc.
    destruct (oper_chars _ c Ho Hc) as [H|[H|H]]; [left; apply oplet_name_char, H|auto|left; apply digit_name_char, H].
  Qed.

  Lemma join_clean l : (forall s, In s l -> clean s) -> clean (join_char star_c l).
  Proof.
    induction l as [|s l IH]; intros H; [repeat split; intros []|].
    rewrite join_cons. apply clean_app; [apply H; left; reflexivity|].
    assert (H' : forall s', In s' l -> clean s') by (intros; apply H; right; assumption). clear H IH s.
    induction l as [|s l IH]; [repeat split; intros []|]. cbn [tail_text flat_map].
    apply clean_app; [|apply IH; intros; apply H'; right; assumption].
    apply (clean_app [star_c]); [|apply H'; left; reflexivity].
    repeat split; intros [E|[]]; discriminate.
  Qed.

  Lemma item_plain it : good_item L it -> plain [plus_c; minus_c] (item_text it) /\ ~ In "="%char (item_text it).
  Proof.
    destruct it as [t|os name]; cbn [good_item item_text].
    - intros [(before & fs & after & GP) _].
      assert (Hc : clean (product_text t)).
      { apply join_clean. intros s Hs. apply in_map_iff in Hs. destruct Hs as (w & <- & Hw).
        apply wf_clean, (t_ok L t before fs after GP), Hw. }
      destruct Hc as (H1 & H2 & H3). split; [|exact H3]. split; [|intros c [<-|[<-|[]]]; assumption].
      assert (Hn := gp_nonempty _ _ _ _ _ GP). destruct t as [|w r]; [congruence|].
      unfold product_text. cbn [map]. rewrite join_cons. intros E. apply app_eq_nil in E. destruct E as [E _].
      unfold wf_text in E. apply app_eq_nil in E. destruct E as [_ E].
      assert (Hf := gp_factors _ _ _ _ _ GP w (or_introl eq_refl)). destruct Hf as [Hi _].
      rewrite factor_text_eq in E. apply app_eq_nil in E. destruct E as [E _]. rewrite E in Hi. exact Hi.
    - intros [Hn Ho]. destruct (gl_user L HL name Hn) as (_ & [Hp1 Hp2] & Heq & _).
      assert (Hc : clean (concat (map op_str os))).
      { apply clean_chars. intros c Hc. destruct (user_chars os Ho c Hc) as [H|[H|[H|H]]];
          [left; apply oplet_name_char, H|auto|auto|left; apply digit_name_char, H]. }
      destruct Hc as (H1 & H2 & H3). split.
      + split; [intros E; apply app_eq_nil in E; apply Hp1, E|].
        intros c Hc Hin. apply in_app_or in Hin. destruct Hin as [Hin|Hin]; [|exact (Hp2 c Hc Hin)].
        destruct Hc as [<-|[<-|[]]]; contradiction.
      + intros Hin. apply in_app_or in Hin. destruct Hin; contradiction.
  Qed.

  (** ** Registered terms contain no field *)
  Lemma user_no_field os name a : In name (user_terms L) -> Forall (fun o => spelling o <> None /\ o <> Neg) os ->
    In a (l_fields L) -> ~ occurs a (concat (map op_str os) ++ name).
  Proof.
    intros Hn Ho Ha (x & y & E).
    assert (Hat : In a (atoms L)) by (apply in_or_app; left; exact Ha).
    destruct (atom_first L HL a Hat) as (c & a' & Ea & Hl & Hop). rewrite Ea in E.
    assert (Hc : ~ In c (concat (map op_str os))).
    { intros Hc. destruct (user_chars os Ho c Hc) as [H|[->|[->|H]]]; [exact (Hop H)|discriminate|discriminate|].
      rewrite letter_not_digit in H by exact Hl. discriminate. }
    destruct (occ_skip _ _ _ _ _ _ Hc E) as (x' & _ & E2).
    destruct (gl_user L HL name Hn) as (_ & _ & _ & H). apply (H a Ha). exists x', y. rewrite E2, Ea. reflexivity.
  Qed.

  Lemma nonlinear_none (pattern field : str) names todo : (forall n, In n todo -> ~ occurs n pattern) ->
    forall expr, nonlinear_loop pattern field names todo expr = expr.
  Proof.
    induction todo as [|n todo IH]; intros H expr; [reflexivity|]. cbn [nonlinear_loop].
    assert (H' : forall n, In n todo -> ~ occurs n pattern) by (intros; apply H; right; assumption).
    rewrite after_lit_none by (apply H; left; reflexivity). rewrite !IH by exact H'. destruct (_ && _); reflexivity.
  Qed.

  (** ** Adding equations *)
  Definition cov (m : pmodel) (it : item) : Prop :=
    match it with
    | IProduct t => forall before fs after, good_product L t before fs after ->
                      fs = [] \/ In (dnm fs) (all_field_names m)
    | IUser _ _ => True
    end.

  Lemma cov_mono m m' it : incl (all_field_names m) (all_field_names m') -> cov m it -> cov m' it.
  Proof.
    intros Hi. destruct it as [t|]; [|auto]. intros H before fs after GP. destruct (H before fs after GP); auto.
  Qed.

  Lemma user_term_iff m n : minv L m -> is_user_term m n = true <-> In n (user_terms L).
  Proof.
    intros HM. unfold is_user_term, user_terms. rewrite !orb_true_iff, !mem_str_In, !in_app_iff.
    rewrite (mi_implicit L m HM), (mi_explicit L m HM), (mi_mixed L m HM). tauto.
  Qed.

  Lemma product_not_user t : ~ In (remove_known_prefixes (product_text t)) (user_terms L) -> ~ In (product_text t) (user_terms L).
  Proof.
    intros H Hin. destruct (gl_user L HL _ Hin) as (Hb & _).
    destruct (operators_recovered [] [] (product_text t) I Hb) as [_ E]. cbn [concat app] in E. rewrite E in H. contradiction.
  Qed.

  Definition with_derived (m : pmodel) (new : str) : pmodel :=
    {| pm_fields := pm_fields m; pm_derived := pm_derived m ++ [new];
       pm_scalars := pm_scalars m; pm_implicit := pm_implicit m;
       pm_explicit := pm_explicit m; pm_mixed := pm_mixed m |}.

  Lemma with_derived_inv m new : minv L m -> name_like L new -> minv L (with_derived m new).
  Proof.
    intros [H1 H2 H3 H4 H5 H6 H7] Hn. constructor; cbn [with_derived pm_fields pm_derived pm_scalars pm_implicit pm_explicit pm_mixed]; try assumption.
    - apply incl_appl, H6.
    - apply Forall_app. split; [exact H7|]. constructor; [exact Hn|constructor].
  Qed.

  Lemma with_derived_names m new : incl (all_field_names m) (all_field_names (with_derived m new)) /\ In new (all_field_names (with_derived m new)).
  Proof.
    unfold all_field_names, with_derived. cbn [pm_fields pm_derived]. split.
    - intros n Hn. rewrite !in_app_iff in *. tauto.
    - rewrite !in_app_iff. cbn. tauto.
  Qed.

  Lemma derived_loop_spec field : In field (l_fields L) -> forall items m, minv L m -> Forall (good_item L) items ->
    let m' := derived_loop m field (map item_text items) in
    minv L m' /\ incl (all_field_names m) (all_field_names m') /\ Forall (cov m') items.
  Proof.
    intros Hfield. induction items as [|it items IH]; intros m HM Hg; cbv zeta in *; cbn [map derived_loop].
    { split; [exact HM|]. split; [apply incl_refl|constructor]. }
    inversion Hg as [|? ? Hit Hits]; subst. rewrite (mi_fields L m HM).
    set (new := sort_factors (get_nonlinear (item_text it) field (l_fields L))).
    match goal with |- context [derived_loop ?x field (map item_text items)] => set (m1 := x) end.
    assert (Hm1 : minv L m1 /\ incl (all_field_names m) (all_field_names m1) /\ cov m1 it).
    { destruct it as [t|os name]; cbn [good_item item_text] in *.
      - destruct Hit as [(before & fs & after & GP) Hnu].
        assert (Eu : is_user_term m (product_text t) = false).
        { apply not_true_is_false. rewrite (user_term_iff m _ HM). apply product_not_user, Hnu. }
        unfold m1. rewrite Eu.
        assert (Hnew := new_field_spec L HL t before fs after GP field Hfield). cbv zeta in Hnew. fold new in Hnew.
        assert (Hcovm : forall m', minv L m' -> (new = [] \/ In new (all_field_names m')) -> cov m' (IProduct t)).
        { intros m' HM' Hn b f a GP'.
          assert (Hnew' := new_field_spec L HL t b f a GP' field Hfield). cbv zeta in Hnew'. fold new in Hnew'.
          destruct Hnew' as [[_ [H|H]]|(E & _ & _)].
          - left. exact H.
          - right. unfold all_field_names. rewrite (mi_fields L m' HM'). apply in_app_or in H. apply in_or_app.
            destruct H as [H|H]; [left; exact H|right; apply (mi_functions L m' HM'), H].
          - destruct Hn as [Hn|Hn]; [|right; rewrite <- E; exact Hn]. destruct f as [|w r]; [left; reflexivity|].
            exfalso. rewrite Hn in E. unfold dnm, dname, product_of in E. cbn [map] in E. rewrite join_cons in E.
            symmetry in E. apply app_eq_nil in E. destruct E as [E _]. rewrite factor_text_eq in E. apply app_eq_nil in E. destruct E as [E _].
            assert (Hw := fs_ok L t b (w :: r) a GP'). inversion Hw as [|? ? Hw1 _]; subst. destruct Hw1 as ((Hi & _) & _).
            rewrite E in Hi. exact Hi. }
        destruct new as [|c0 new0] eqn:Enew.
        + split; [exact HM|]. split; [apply incl_refl|]. apply Hcovm; [exact HM|left; reflexivity].
        + rewrite <- Enew in *. destruct (is_fname m new) eqn:Ef.
          * split; [exact HM|]. split; [apply incl_refl|]. apply Hcovm; [exact HM|right; apply mem_str_In, Ef].
          * match goal with |- minv L ?x /\ _ => replace x with (with_derived m new) by (unfold with_derived; rewrite (mi_fields L m HM); reflexivity) end.
            assert (Hl : name_like L new).
            { destruct Hnew as [[E _]|(E & Hne & Hgs)]; [rewrite E in Enew; discriminate|]. right. exists (map wf_fac fs).
              split; [destruct fs; [congruence|discriminate]|]. split; [exact Hgs|exact E]. }
            assert (HM1 := with_derived_inv m new HM Hl). destruct (with_derived_names m new) as [Hi Hin].
            split; [exact HM1|]. split; [exact Hi|]. apply Hcovm; [exact HM1|right; exact Hin].
      - destruct Hit as [Hn Ho].
        assert (Enew : new = []).
        { unfold new, get_nonlinear. rewrite nonlinear_none; [reflexivity|]. intros n Hn'. apply user_no_field; assumption. }
        unfold m1. rewrite Enew. split; [|split; [|exact I]]; destruct (is_user_term m _); first [exact HM|apply incl_refl]. }
    destruct Hm1 as (HM1 & Hi1 & Hc1). destruct (IH m1 HM1 Hits) as (HM2 & Hi2 & Hc2).
    split; [exact HM2|]. split; [eapply incl_tran; eassumption|]. constructor; [|exact Hc2].
    eapply cov_mono; eassumption.
  Qed.
End Lang.
