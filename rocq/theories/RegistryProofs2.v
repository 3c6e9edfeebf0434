From Verif Require Import ListAux ParseProofs OperatorProofs RegistrySpec DerivedProofs TextProofs EquationProofs EquationProofs2 EquationProofs3 EquationProofs4 EquationProofs5 EquationProofs6 EquationProofs7 EquationProofs8 RegistryProofs.
From Coq Require Import Lia FunctionalExtensionality.
Open Scope nat_scope.

(** The registered functions an equation is built from are registered. *)
Definition names_ok (p : pmodel) (b : built) : Prop :=
  match b with
  | BTerm _ => True
  | BImplicit n _ => In n (pm_implicit p)
  | BExplicit n _ => In n (pm_explicit p)
  | BLinear n _ => In n (pm_mixed p)
  | BNonLinear n _ => In n (pm_mixed p)
  end.
Lemma build_loop_names p field ps acc r : build_loop p field ps acc = Ok r ->
  Forall (names_ok p) (fst acc) /\ Forall (names_ok p) (snd acc) -> Forall (names_ok p) (fst r) /\ Forall (names_ok p) (snd r).
Proof.
  revert acc. induction ps as [|q ps IH]; intros [terms denum] H Ha; cbn [build_loop] in H.
  { injection H as <-. exact Ha. }
  cbn [fst snd] in Ha. destruct Ha as [Ht Hd].
  destruct (mem_str _ (pm_implicit p)) eqn:E1.
  { apply (IH _ H). cbn [fst snd]. split; [exact Ht|]. apply Forall_app. split; [exact Hd|]. constructor; [|constructor]. apply mem_str_In, E1. }
  destruct (mem_str _ (pm_explicit p)) eqn:E2.
  { apply (IH _ H). cbn [fst snd]. split; [|exact Hd]. apply Forall_app. split; [exact Ht|]. constructor; [|constructor]. apply mem_str_In, E2. }
  destruct (mem_str _ (pm_mixed p)) eqn:E3.
  { apply (IH _ H). cbn [fst snd]. apply mem_str_In in E3. split; apply Forall_app; (split; [assumption|]); (constructor; [|constructor]); exact E3. }
  destruct (is_bilinear _ _ _).
  - destruct (concrete_term p _) as [t| |]; try discriminate. cbn [bind] in H. apply (IH _ H). cbn [fst snd].
    split; [exact Ht|]. apply Forall_app. split; [exact Hd|]. constructor; [exact I|constructor].
  - destruct (concrete_term p _) as [t| |]; try discriminate. cbn [bind] in H. apply (IH _ H). cbn [fst snd].
    split; [|exact Hd]. apply Forall_app. split; [exact Ht|]. constructor; [exact I|constructor].
Qed.
Lemma build_names p eq terms denum : build p eq = Ok (terms, denum) -> Forall (names_ok p) terms /\ Forall (names_ok p) denum.
Proof.
  unfold build. destruct (sides eq) as [lr| |]; try discriminate. cbn [bind].
  destruct (field_name_from_leibniz _) as [f| |]; try discriminate. cbn [bind].
  destruct (split_on_many _ _) as [ps| |]; try discriminate. cbn [bind]. intros H.
  apply (build_loop_names _ _ _ _ _ H). split; constructor.
Qed.

Lemma terms_of_registered cs k n : In n (terms_of k cs) <-> exists t, registered cs k n t.
Proof.
  induction cs as [|c cs IH] using rev_ind.
  { cbn. split; [intros []|]. intros (t & b & a & ds & E & _). destruct b; discriminate. }
  unfold terms_of at 1. rewrite flat_map_snoc, in_app_iff. fold (terms_of k cs).
  assert (Hn : (forall t' ds', c <> CTerm k n t' ds') -> (In n (terms_of k cs) \/ False) <-> exists t, registered (cs ++ [c]) k n t).
  { intros Hc. rewrite IH. split; [intros [(t & H)|[]]; exists t; apply registered_snoc_other; assumption|].
    intros (t & H). left. exists t. apply registered_snoc_other in H; assumption. }
  destruct c as [x|x|x|k' x t' ds|x|x s|]; try (apply Hn; discriminate).
  destruct (list_eq_dec Ascii.ascii_dec x n) as [->|Hx]; [destruct (kind_dec k k') as [<-|Hk]|].
  - split; [intros _; exists t'; apply registered_snoc_same; reflexivity|]. intros _. right. destruct k; left; reflexivity.
  - rewrite <- Hn by congruence. destruct k, k'; cbn [In]; tauto.
  - rewrite <- Hn by congruence. destruct k, k'; cbn [In]; tauto.
Qed.

Section Values.
  Variable cs : list call.
  Variable m : mstate.
  Hypothesis T : tracked cs m.
  Variable cpow : C -> R -> C.
  Variable brick : str -> C.
  Variable pure lin nonlin : nat -> C.
  Variable freq : list R.
  Variable implicit explicit linear nonlinear : str -> C.
  Hypothesis Hi : forall n t, registered cs KImplicit n t -> implicit n = pure t.
  Hypothesis He : forall n t, registered cs KExplicit n t -> explicit n = pure t.
  Hypothesis Hl : forall n t, registered cs KMixed n t -> linear n = lin t.
  Hypothesis Hn : forall n t, registered cs KMixed n t -> nonlinear n = nonlin t.

  Lemma entry_value b : names_ok (ms_names m) b ->
    eval_entry cpow brick pure lin nonlin freq (resolve m b) = eval_built cpow brick implicit explicit linear nonlinear freq b.
  Proof.
    unfold eval_entry, resolve. cbn [fst snd]. destruct b as [t|n p|n p|n p|n p]; cbn [names_ok eval_built]; intros H; [reflexivity| | | |].
    - rewrite (tk_implicit _ _ T) in H. apply terms_of_registered in H. destruct H as (t & H). rewrite (Hi n t H).
      rewrite (proj2 (tk_table _ _ T KImplicit n t) H). reflexivity.
    - rewrite (tk_explicit _ _ T) in H. apply terms_of_registered in H. destruct H as (t & H). rewrite (He n t H).
      rewrite (proj2 (tk_table _ _ T KExplicit n t) H). reflexivity.
    - rewrite (tk_mixed _ _ T) in H. apply terms_of_registered in H. destruct H as (t & H). rewrite (Hl n t H).
      rewrite (proj2 (tk_table _ _ T KMixed n t) H). reflexivity.
    - rewrite (tk_mixed _ _ T) in H. apply terms_of_registered in H. destruct H as (t & H). rewrite (Hn n t H).
      rewrite (proj2 (tk_table _ _ T KMixed n t) H). reflexivity.
  Qed.

  Lemma entries_value bs : Forall (names_ok (ms_names m)) bs ->
    map (eval_entry cpow brick pure lin nonlin freq) (map (resolve m) bs) = map (eval_built cpow brick implicit explicit linear nonlinear freq) bs.
  Proof. induction 1 as [|b bs Hb _ IH]; [reflexivity|]. cbn [map]. rewrite entry_value, IH by assumption. reflexivity. Qed.
End Values.

Section Lang.
  Variable L : lang.
  Hypothesis HL : good_lang L.

  (** An item is covered in every later model. *)
  Definition later_cov (p : pmodel) (it : item) : Prop :=
    forall q, minv L q -> incl (all_field_names p) (all_field_names q) -> cov L q it.

  Lemma later_mono p p' it : incl (all_field_names p) (all_field_names p') -> later_cov p it -> later_cov p' it.
  Proof. intros Hi H q HM Hq. apply H; [exact HM|]. eapply incl_tran; eassumption. Qed.

  Lemma derived_loop_weak field : In field (l_fields L) -> forall items m, pm_fields m = l_fields L -> Forall (name_like L) (pm_derived m) ->
    (forall n, is_user_term m n = true -> In n (user_terms L)) -> Forall (good_item L) items ->
    let m' := EquationModel.derived_loop m field (map item_text items) in
    Forall (name_like L) (pm_derived m') /\ incl (all_field_names m) (all_field_names m') /\ Forall (later_cov m') items.
  Proof.
    intros Hfield. induction items as [|it items IH]; intros m HF HD HU Hg; cbv zeta in *; cbn [map EquationModel.derived_loop].
    { split; [exact HD|]. split; [apply incl_refl|constructor]. }
    inversion Hg as [|? ? Hit Hits]; subst. rewrite HF.
    set (new := sort_factors (get_nonlinear (item_text it) field (l_fields L))).
    match goal with |- context [EquationModel.derived_loop ?x field (map item_text items)] => set (m1 := x) end.
    assert (Hm1 : pm_fields m1 = l_fields L /\ Forall (name_like L) (pm_derived m1) /\ (forall n, is_user_term m1 n = true -> In n (user_terms L))
      /\ incl (all_field_names m) (all_field_names m1) /\ later_cov m1 it).
    { destruct it as [t|os name]; cbn [good_item item_text] in *.
      - destruct Hit as [(before & fs & after & GP) Hnu].
        assert (Eu : is_user_term m (product_text t) = false).
        { apply not_true_is_false. intros E. apply HU in E. revert E. apply (product_not_user L HL), Hnu. }
        unfold m1. rewrite Eu.
        assert (Hnew := new_field_spec L HL t before fs after GP field Hfield). cbv zeta in Hnew. fold new in Hnew.
        assert (Hcovm : forall p, (new = [] \/ In new (all_field_names p)) -> later_cov p (IProduct t)).
        { intros p Hn q HM' Hpq b f a GP'.
          assert (Hnew' := new_field_spec L HL t b f a GP' field Hfield). cbv zeta in Hnew'. fold new in Hnew'.
          destruct Hnew' as [[_ [H|H]]|(E & _ & _)].
          - left. exact H.
          - right. unfold all_field_names. rewrite (mi_fields L q HM'). apply in_app_or in H. apply in_or_app.
            destruct H as [H|H]; [left; exact H|right; apply (mi_functions L q HM'), H].
          - destruct Hn as [Hn|Hn]; [|right; rewrite <- E; apply Hpq, Hn]. destruct f as [|w r]; [left; reflexivity|].
            exfalso. rewrite Hn in E. unfold dnm, dname, product_of in E. cbn [map] in E. rewrite join_cons in E.
            symmetry in E. apply app_eq_nil in E. destruct E as [E _]. rewrite factor_text_eq in E. apply app_eq_nil in E. destruct E as [E _].
            assert (Hw := fs_ok L t b (w :: r) a GP'). inversion Hw as [|? ? Hw1 _]; subst. destruct Hw1 as ((Hi & _) & _).
            rewrite E in Hi. exact Hi. }
        destruct new as [|c0 new0] eqn:Enew.
        + split; [exact HF|]. split; [exact HD|]. split; [exact HU|]. split; [apply incl_refl|]. apply Hcovm. left. reflexivity.
        + rewrite <- Enew in *. destruct (is_fname m new) eqn:Ef.
          * split; [exact HF|]. split; [exact HD|]. split; [exact HU|]. split; [apply incl_refl|]. apply Hcovm. right. apply mem_str_In, Ef.
          * cbn [pm_fields pm_derived]. split; [reflexivity|].
            assert (Hl : name_like L new).
            { destruct Hnew as [[E _]|(E & Hne & Hgs)]; [rewrite E in Enew; discriminate|]. right. exists (map wf_fac fs).
              split; [destruct fs; [congruence|discriminate]|]. split; [exact Hgs|exact E]. }
            split; [apply Forall_app; split; [exact HD|constructor; [exact Hl|constructor]]|]. split; [exact HU|].
            unfold all_field_names at 1 2. cbn [pm_fields pm_derived]. rewrite HF. split.
            -- intros x Hx. rewrite !in_app_iff in *. tauto.
            -- apply Hcovm. right. unfold all_field_names. cbn [pm_fields pm_derived]. rewrite !in_app_iff. cbn. tauto.
      - destruct Hit as [Hn Ho].
        assert (Enew : new = []).
        { unfold new, get_nonlinear. rewrite nonlinear_none; [reflexivity|]. intros n Hn'. apply (user_no_field L HL); assumption. }
        assert (Em : m1 = m) by (unfold m1; rewrite Enew; destruct (is_user_term m _); reflexivity).
        rewrite Em. split; [exact HF|]. split; [exact HD|]. split; [exact HU|]. split; [apply incl_refl|]. intros q _ _. exact I. }
    destruct Hm1 as (A1 & A2 & A3 & A4 & A5). destruct (IH m1 A1 A2 A3 Hits) as (B1 & B2 & B3).
    split; [exact B1|]. split; [eapply incl_tran; eassumption|]. constructor; [|exact B3].
    eapply later_mono; eassumption.
  Qed.

  Definition later_all (p : pmodel) (e : eqtext) : Prop := Forall (fun i => later_cov p (fst i)) (signed_items e).

  Lemma update_weak e p : good_equation L e -> pm_fields p = l_fields L -> Forall (name_like L) (pm_derived p) ->
    (forall n, is_user_term p n = true -> In n (user_terms L)) ->
    exists p', update_derived_fields p (eq_text e) = Ok p' /\ Forall (name_like L) (pm_derived p')
    /\ incl (all_field_names p) (all_field_names p') /\ later_all p' e.
  Proof.
    intros HE HF HD HU. destruct (e_split L HL e HE) as (items & Es & Hp). destruct (items_good L e HE items Hp) as [Hg _].
    destruct (derived_loop_weak (q_field e) (e_field L e HE) (map fst items) p HF HD HU Hg) as (A & B & D).
    eexists. split; [|split; [exact A|split; [exact B|]]].
    - unfold update_derived_fields. assert (Hs := e_sides L HL e HE). unfold sides in Hs.
      destruct (split_char "=" (eq_text e)) as [|l [|r [|]]]; try discriminate. injection Hs as -> ->.
      rewrite Es. cbn [bind]. rewrite e_leibniz. cbn [bind]. rewrite !map_map. reflexivity.
    - apply Forall_forall. intros i Hin. apply (Permutation_in _ (Permutation_sym Hp)) in Hin.
      rewrite Forall_forall in D. apply D. apply in_map, Hin.
  Qed.

  Lemma known_ok n : In n (atoms L ++ l_scalars L) -> name_ok n = true.
  Proof.
    intros H. apply name_ok_spec. intros o s Hs (r & E).
    assert (Hi := ident_chars n (gl_ident L HL n H)). rewrite forallb_forall in Hi.
    assert (HA := gl_noLA L HL n H).
    assert (Hbad : forall c, In c n -> (c = "-" \/ c = "*")%char -> False).
    { intros c Hc Hb. specialize (Hi c Hc). destruct Hb as [-> | ->]; vm_compute in Hi; discriminate. }
    assert (HLA : forall r', n = ("LA"%string : str) ++ r' -> False) by (intros r' E'; apply HA; exists [], r'; exact E').
    destruct o as [|k|]; cbn [spelling] in Hs.
    - injection Hs as <-. apply (Hbad "-"%char); [rewrite E; left; reflexivity|left; reflexivity].
    - destruct k as [|[|[|[|[|k]]]]]; try discriminate; injection Hs as <-; rewrite E in HLA; eapply HLA; reflexivity.
    - injection Hs as <-. apply (Hbad "*"%char); [rewrite E; left; reflexivity|right; reflexivity].
  Qed.
  Lemma user_ok n : In n (user_terms L) -> name_ok n = true.
  Proof. intros H. destruct (gl_user L HL n H) as ((Hb & _) & _). apply name_ok_spec. exact Hb. Qed.

  Section Calls.
    Variable cs : list call.
    Hypothesis HDecl : declares cs L.
    Hypothesis HFirst : fields_first cs.
    Hypothesis HSrc : sources_in_range cs.
    Hypothesis HInit : ~ In CInit cs.
    Hypothesis HEqs : forall s, In s (equations_of cs) -> exists e, strip_spaces s = eq_text e /\ good_equation L e.

    Lemma prefix_names (f : call -> list str) a b n : cs = a ++ b -> In n (flat_map f a) -> In n (flat_map f cs).
    Proof. intros -> H. rewrite flat_map_app. apply in_or_app. left. exact H. Qed.

    Lemma fields_done a c b : cs = a ++ c :: b -> needs_fields c -> fields_of a = l_fields L /\ l_fields L <> [].
    Proof.
      intros E Hc. destruct HFirst as (x & y & Exy & Hx & Hy & Hne). destruct HDecl as (HF & _). rewrite HF.
      assert (Hno : forall l, (forall z, In z l -> ~ is_field_call z) -> fields_of l = []).
      { clear. induction l as [|z l IH]; intros H; [reflexivity|]. unfold fields_of in *. cbn [flat_map]. rewrite IH by (intros; apply H; right; assumption).
        specialize (H z (or_introl eq_refl)). destruct z; try reflexivity. exfalso. apply H. exact I. }
      assert (Hy' : fields_of y = []) by (apply Hno, Hy).
      assert (Hin : exists y1, y = y1 ++ c :: b /\ a = x ++ y1).
      { rewrite Exy in E. clear - E Hx Hc. revert a E. induction x as [|z x IH]; intros a E; [exists a; split; [exact E|reflexivity]|].
        destruct a as [|z' a]; cbn [app] in E; injection E as -> E.
        - exfalso. apply (Hx c); [left; reflexivity|exact Hc].
        - destruct (IH (fun w H => Hx w (or_intror H)) a E) as (y1 & -> & ->). exists y1. split; reflexivity. }
      destruct Hin as (y1 & Ey & Ea).
      assert (H1 : fields_of y1 = []).
      { rewrite Ey in Hy'. unfold fields_of in Hy'. rewrite flat_map_app in Hy'. apply app_eq_nil in Hy'. apply Hy'. }
      assert (Hcs : fields_of cs = fields_of x) by (rewrite Exy; unfold fields_of in *; rewrite flat_map_app, Hy', app_nil_r; reflexivity).
      split; [|rewrite Hcs; exact Hne]. rewrite Hcs, Ea. unfold fields_of in *. rewrite flat_map_app, H1, app_nil_r. reflexivity.
    Qed.

    Lemma user_declared a b m : cs = a ++ b -> tracked a m -> forall n, is_user_term (ms_names m) n = true -> In n (user_terms L).
    Proof.
      intros E T n H. destruct HDecl as (_ & HDn). destruct (HDn n) as (_ & _ & H1 & H2 & H3). unfold is_user_term in H. rewrite !orb_true_iff, !mem_str_In in H.
      rewrite (tk_implicit _ _ T), (tk_explicit _ _ T), (tk_mixed _ _ T) in H. unfold user_terms. rewrite !in_app_iff, H1, H2, H3.
      destruct H as [[H|H]|H]; [left|right; left|right; right]; eapply prefix_names; eassumption.
    Qed.

    Lemma declared_known n : In n (fields_of cs) \/ In n (scalars_of cs) \/ In n (functions_of cs) -> In n (atoms L ++ l_scalars L).
    Proof.
      destruct HDecl as (H1 & HDn). destruct (HDn n) as (H2 & H3 & _). unfold atoms. rewrite !in_app_iff, H1, H2, H3. tauto.
    Qed.

    Lemma run_prefix a b : cs = a ++ b -> exists m, run_calls new_mstate a = Ok m /\ Forall (name_like L) (pm_derived (ms_names m))
      /\ forall s e, In s (equations_of a) -> strip_spaces s = eq_text e -> good_equation L e -> later_all (ms_names m) e.
    Proof.
      revert b. induction a as [|c a IH] using rev_ind; intros b E.
      { exists new_mstate. split; [reflexivity|]. split; [constructor|]. intros s e []. }
      rewrite <- app_assoc in E. destruct (IH _ E) as (m & Em & HD & HC). cbn [app] in E.
      assert (T := tracked_run _ _ Em). assert (Hcin : In c cs) by (rewrite E; apply in_or_app; right; left; reflexivity).
      assert (Hstep : forall m', run_call m c = Ok m' -> Forall (name_like L) (pm_derived (ms_names m')) ->
        incl (all_field_names (ms_names m)) (all_field_names (ms_names m')) ->
        (forall s e, c = CEquation s -> strip_spaces s = eq_text e -> good_equation L e -> later_all (ms_names m') e) ->
        exists m', run_calls new_mstate (a ++ [c]) = Ok m' /\ Forall (name_like L) (pm_derived (ms_names m'))
          /\ forall s e, In s (equations_of (a ++ [c])) -> strip_spaces s = eq_text e -> good_equation L e -> later_all (ms_names m') e).
      { intros m' H1 H2 H3 H4. exists m'. split; [apply run_calls_snoc; exists m; split; assumption|]. split; [exact H2|].
        intros s e Hs He Hg. unfold equations_of in Hs. rewrite flat_map_snoc in Hs. apply in_app_or in Hs. destruct Hs as [Hs|Hs].
        - unfold later_all. eapply Forall_impl; [|apply (HC s e Hs He Hg)]. intros i. apply later_mono, H3.
        - destruct c; try contradiction Hs. destruct Hs as [->|[]]. apply (H4 s e eq_refl He Hg). }
      assert (Hin1 : forall f : call -> list str, forall n, In n (f c) -> In n (flat_map f cs)).
      { intros f n Hn. apply in_flat_map. exists c. split; assumption. }
      destruct c as [n|n|n|k n t ds|text|eq s|]; cbn [run_call] in Hstep.
      - unfold call_field, checked in Hstep. assert (Hk : name_ok n = true).
        { apply known_ok, declared_known. left. apply (Hin1 (fun c => match c with CField n => [n] | _ => [] end)). left. reflexivity. }
        rewrite Hk in Hstep. eapply Hstep; [reflexivity|exact HD| |intros ? ? Hx; discriminate Hx].
        cbn [with_names ms_names]. unfold all_field_names. cbn [pm_fields pm_derived]. intros x Hx. rewrite !in_app_iff in *. tauto.
      - unfold call_scalar, checked in Hstep. assert (Hk : name_ok n = true).
        { apply known_ok, declared_known. right. left. apply (Hin1 (fun c => match c with CScalar n => [n] | _ => [] end)). left. reflexivity. }
        rewrite Hk in Hstep. eapply Hstep; [reflexivity|exact HD| |intros ? ? Hx; discriminate Hx].
        cbn [with_names ms_names]. unfold all_field_names. cbn [pm_fields pm_derived]. apply incl_refl.
      - unfold call_function, checked in Hstep.
        assert (Hf : In n (functions_of cs)).
        { apply (Hin1 (fun c => match c with CFunction n => [n] | CTerm _ _ _ ds => ds | _ => [] end)). left. reflexivity. }
        rewrite (known_ok n (declared_known n (or_intror (or_intror Hf)))) in Hstep. cbn [bind] in Hstep.
        destruct (fields_done a (CFunction n) b E I) as [HF Hne]. rewrite (tk_fields _ _ T), HF in Hstep.
        destruct (l_fields L) as [|f0 fr] eqn:El; [congruence|]. eapply Hstep; [reflexivity| | |intros ? ? Hx; discriminate Hx];
          cbn [with_names ms_names add_derived pm_derived].
        + apply Forall_app. split; [exact HD|]. constructor; [|constructor]. left. unfold atoms. apply in_or_app. right.
          destruct HDecl as (_ & HDn). apply HDn, Hf.
        + unfold all_field_names. cbn [add_derived pm_fields pm_derived]. intros x Hx. rewrite !in_app_iff in *. tauto.
      - unfold call_term, checked in Hstep.
        assert (Hu : In n (user_terms L)).
        { assert (Ht : In n (terms_of k cs)).
          { apply (Hin1 (fun c => match c with
                     | CTerm KImplicit n _ _ => match k with KImplicit => [n] | _ => [] end
                     | CTerm KExplicit n _ _ => match k with KExplicit => [n] | _ => [] end
                     | CTerm KMixed n _ _ => match k with KMixed => [n] | _ => [] end
                     | _ => [] end)). destruct k; left; reflexivity. }
          destruct HDecl as (_ & HDn). destruct (HDn n) as (_ & _ & H1 & H2 & H3). unfold user_terms. rewrite !in_app_iff, H1, H2, H3. destruct k; auto. }
        rewrite (user_ok n Hu) in Hstep. cbn [bind] in Hstep. cbv zeta in Hstep.
        destruct (register_names_spec ds (ms_names (add_term k n t m))) as (A1 & _ & _ & _ & _ & A6 & _ & A8).
        eapply Hstep; [reflexivity| | |intros ? ? Hx; discriminate Hx]; cbn [with_names ms_names].
        + apply Forall_forall. intros x Hx. destruct (A8 x Hx) as [H|H].
          * rewrite Forall_forall in HD. apply HD. exact H.
          * left. unfold atoms. apply in_or_app. right. destruct HDecl as (_ & HDn). apply HDn.
            apply (Hin1 (fun c => match c with CFunction n => [n] | CTerm _ _ _ ds => ds | _ => [] end)). exact H.
        + unfold all_field_names. rewrite A1. intros x Hx. apply in_app_or in Hx. apply in_or_app.
          destruct Hx as [Hx|Hx]; [left; exact Hx|right; apply A6, Hx].
      - destruct (fields_done a (CEquation text) b E I) as [HF Hne].
        destruct (HEqs text) as (e & He & Hg).
        { apply (Hin1 (fun c => match c with CEquation e => [e] | _ => [] end)). left. reflexivity. }
        destruct (update_weak e (ms_names m) Hg) as (p' & Ep & A & B & D).
        { rewrite (tk_fields _ _ T). exact HF. } { exact HD. } { exact (user_declared a _ m E T). }
        unfold call_equation, add_equation in Hstep. rewrite He, Ep in Hstep. cbn [bind] in Hstep.
        eapply Hstep; [reflexivity|exact A|exact B|]. cbn [ms_names]. intros s e' Es He' Hg'. injection Es as <-.
        rewrite He in He'.
        assert (Hu : exists p2, update_derived_fields (ms_names m) (eq_text e') = Ok p2 /\ later_all p2 e').
        { destruct (update_weak e' (ms_names m) Hg') as (p2 & E2 & _ & _ & D2).
          { rewrite (tk_fields _ _ T). exact HF. } { exact HD. } { exact (user_declared a _ m E T). }
          exists p2. split; assumption. }
        destruct Hu as (p2 & E2 & D2). rewrite <- He', Ep in E2. injection E2 as <-. exact D2.
      - assert (Hr := HSrc a b eq s E). unfold call_source in Hstep. rewrite (proj2 (Z.ltb_ge eq 0)) in Hstep by lia.
        destruct (append_at_total (Z.to_nat eq) s (ms_sources m)) as (l' & El); [rewrite (tk_sources_length _ _ T); lia|].
        rewrite El in Hstep. eapply Hstep; [reflexivity|exact HD|apply incl_refl|intros ? ? Hx; discriminate Hx].
      - exfalso. exact (HInit Hcin).
    Qed.

    Lemma final_inv m : run_calls new_mstate cs = Ok m -> minv L (ms_names m).
    Proof.
      intros Em. assert (T := tracked_run _ _ Em). destruct (run_prefix cs [] (eq_sym (app_nil_r cs))) as (m' & Em' & HD & _).
      rewrite Em in Em'. injection Em' as <-. destruct HDecl as (H1 & HDn).
      constructor.
      - rewrite (tk_fields _ _ T). symmetry. exact H1.
      - intros n. rewrite (tk_scalars _ _ T). symmetry. apply HDn.
      - intros n. rewrite (tk_implicit _ _ T). symmetry. apply HDn.
      - intros n. rewrite (tk_explicit _ _ T). symmetry. apply HDn.
      - intros n. rewrite (tk_mixed _ _ T). symmetry. apply HDn.
      - intros n Hn. assert (Hf := proj1 (proj1 (proj2 (HDn n))) Hn). apply (tk_functions _ _ T) in Hf. unfold all_field_names in Hf.
        apply in_app_or in Hf. destruct Hf as [Hf|Hf]; [|exact Hf]. exfalso. rewrite (tk_fields _ _ T), <- H1 in Hf.
        assert (Hnd := gl_nodup L HL). unfold atoms in Hnd. revert Hnd Hf Hn. clear. generalize (l_fields L), (l_functions L).
        intros x y. induction x as [|z x IH]; intros Hnd Hx Hy; [destruct Hx|]. cbn [app] in Hnd. inversion Hnd as [|? ? Hz Hr]; subst.
        destruct Hx as [<-|Hx]; [|exact (IH Hr Hx Hy)]. apply Hz, in_or_app. right. exact Hy.
      - exact HD.
    Qed.

    Theorem any_order es : Forall2 (fun s e => strip_spaces s = eq_text e) (equations_of cs) es -> Forall (good_equation L) es ->
      exists m, run_calls new_mstate (cs ++ [CInit]) = Ok m /\ length (ms_rhs m) = length es
      /\ forall i e, nth_error es i = Some e -> exists terms denum, nth_error (ms_rhs m) i = Some (terms, denum)
      /\ forall cpow val ft scal brick pure lin nonlin implicit explicit linear nonlinear freq,
        good_bricks L (ms_names m) cpow val ft scal brick ->
        (forall n t, registered cs KImplicit n t -> implicit n = pure t) ->
        (forall n t, registered cs KExplicit n t -> explicit n = pure t) ->
        (forall n t, registered cs KMixed n t -> linear n = lin t /\ nonlinear n = nonlin t) ->
        let ev := eval_entry cpow brick pure lin nonlin freq in
        Cadd (Csum (map ev terms)) (Cmul (Csum (map ev denum)) (brick (q_field e)))
        = rhs_meaning L cpow val ft scal implicit explicit linear nonlinear freq (brick (q_field e)) e.
    Proof.
      intros H2 Hg. destruct (run_prefix cs [] (eq_sym (app_nil_r cs))) as (m & Em & HD & HC).
      assert (T := tracked_run _ _ Em). assert (HM := final_inv m Em).
      assert (Hb : exists r, build_all m (map eq_text es) = Ok r /\ length r = length es
        /\ forall i e, nth_error es i = Some e -> exists terms denum, nth_error r i = Some (map (resolve m) terms, map (resolve m) denum)
           /\ build (ms_names m) (eq_text e) = Ok (terms, denum)
           /\ forall cpow val ft scal brick implicit explicit linear nonlinear freq,
              good_bricks L (ms_names m) cpow val ft scal brick ->
              let ev := eval_built cpow brick implicit explicit linear nonlinear freq in
              Cadd (Csum (map ev terms)) (Cmul (Csum (map ev denum)) (brick (q_field e)))
              = rhs_meaning L cpow val ft scal implicit explicit linear nonlinear freq (brick (q_field e)) e).
      { assert (Hall : Forall (fun e => exists terms denum, build (ms_names m) (eq_text e) = Ok (terms, denum)
           /\ forall cpow val ft scal brick implicit explicit linear nonlinear freq,
              good_bricks L (ms_names m) cpow val ft scal brick ->
              let ev := eval_built cpow brick implicit explicit linear nonlinear freq in
              Cadd (Csum (map ev terms)) (Cmul (Csum (map ev denum)) (brick (q_field e)))
              = rhs_meaning L cpow val ft scal implicit explicit linear nonlinear freq (brick (q_field e)) e) es).
        { assert (Hin : forall e, In e es -> exists s, In s (equations_of cs) /\ strip_spaces s = eq_text e).
          { clear - H2. induction H2 as [|s e ss es' Hs _ IH]; intros x Hx; [destruct Hx|]. destruct Hx as [<-|Hx].
            - exists s. split; [left; reflexivity|exact Hs].
            - destruct (IH x Hx) as (s' & A & B). exists s'. split; [right; exact A|exact B]. }
          apply Forall_forall. intros e He. rewrite Forall_forall in Hg. destruct (Hin e He) as (s & Hs & Es).
          apply (build_spec L HL); [exact HM|apply Hg, He|]. specialize (HC s e Hs Es (Hg e He)).
          unfold all_cov. unfold later_all in HC. eapply Forall_impl; [|exact HC]. intros i Hi. apply Hi; [exact HM|apply incl_refl]. }
        clear - Hall. induction Hall as [|e es (terms & denum & Eb & Hv) _ IH].
        - exists []. split; [reflexivity|]. split; [reflexivity|]. intros [|i] e; discriminate.
        - destruct IH as (r & Er & Lr & Hr). cbn [map build_all]. rewrite Eb. cbn [bind]. rewrite Er. cbn [bind fst snd].
          eexists. split; [reflexivity|]. split; [cbn [length]; f_equal; exact Lr|]. intros [|i] e' He; cbn [nth_error] in *.
          + injection He as <-. exists terms, denum. split; [reflexivity|]. split; [exact Eb|exact Hv].
          + apply Hr, He. }
      destruct Hb as (r & Er & Lr & Hr).
      assert (Eeq : ms_equations m = map eq_text es).
      { rewrite (tk_equations _ _ T). clear - H2. induction H2 as [|s e ss es' Hs _ IH]; [reflexivity|]. cbn [map]. rewrite Hs, IH. reflexivity. }
      eexists. split; [apply run_calls_snoc; exists m; split; [exact Em|]; cbn [run_call]; unfold call_init; rewrite Eeq, Er; cbn [bind]; reflexivity|].
      cbn [ms_rhs ms_names]. split; [exact Lr|]. intros i e He. destruct (Hr i e He) as (terms & denum & En & Eb & Hv).
      exists (map (resolve m) terms), (map (resolve m) denum). split; [exact En|].
      intros cpow val ft scal brick pure lin nonlin implicit explicit linear nonlinear freq GB H3 H4 H5.
      destruct (build_names _ _ _ _ Eb) as [N1 N2].
      assert (H5a : forall n t, registered cs KMixed n t -> linear n = lin t) by (intros n t H; apply (H5 n t H)).
      assert (H5b : forall n t, registered cs KMixed n t -> nonlinear n = nonlin t) by (intros n t H; apply (H5 n t H)).
      rewrite (entries_value cs m T cpow brick pure lin nonlin freq implicit explicit linear nonlinear H3 H4 H5a H5b terms N1).
      rewrite (entries_value cs m T cpow brick pure lin nonlin freq implicit explicit linear nonlinear H3 H4 H5a H5b denum N2).
      apply (Hv cpow val ft scal brick implicit explicit linear nonlinear freq GB).
    Qed.
  End Calls.
End Lang.
