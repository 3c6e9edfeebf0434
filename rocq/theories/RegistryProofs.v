From Verif Require Import ListAux ParseProofs OperatorProofs RegistrySpec DerivedProofs TextProofs EquationProofs EquationProofs2 EquationProofs3 EquationProofs4 EquationProofs5 EquationProofs6 EquationProofs7 EquationProofs8.
From Coq Require Import Lia.
Open Scope nat_scope.

(** ** Following the calls *)
Lemma run_calls_app cs cs' m : run_calls m (cs ++ cs') = bind (run_calls m cs) (fun m' => run_calls m' cs').
Proof.
  revert m. induction cs as [|c cs IH]; intros m; [reflexivity|]. cbn [app run_calls].
  destruct (run_call m c); cbn [bind]; [apply IH|reflexivity|reflexivity].
Qed.

Lemma run_calls_snoc cs c m m' : run_calls m (cs ++ [c]) = Ok m' <-> exists m1, run_calls m cs = Ok m1 /\ run_call m1 c = Ok m'.
Proof.
  rewrite run_calls_app. cbn [run_calls]. destruct (run_calls m cs) as [m1| |]; cbn [bind].
  - split; [intros H; exists m1; split; [reflexivity|]|intros (x & E & H); injection E as <-; rewrite H; reflexivity].
    destruct (run_call m1 c); cbn [bind] in H; congruence.
  - split; [discriminate|intros (x & E & _); discriminate].
  - split; [discriminate|intros (x & E & _); discriminate].
Qed.

Definition keys (l : list (str * nat)) (names : list str) : Prop := forall n, In n names <-> find_term l n <> None.

Lemma register_names_spec ds p : let q := register_names p ds in
  pm_fields q = pm_fields p /\ pm_scalars q = pm_scalars p /\ pm_implicit q = pm_implicit p /\ pm_explicit q = pm_explicit p
  /\ pm_mixed q = pm_mixed p /\ incl (pm_derived p) (pm_derived q) /\ (forall n, In n ds -> In n (all_field_names q))
  /\ (forall n, In n (pm_derived q) -> In n (pm_derived p) \/ In n ds).
Proof.
  cbv zeta. revert p. induction ds as [|d ds IH]; intros p; cbn [register_names].
  { repeat split; try reflexivity; [apply incl_refl|intros n []|auto]. }
  set (p1 := if is_fname p d then p else add_derived p d).
  assert (H1 : pm_fields p1 = pm_fields p /\ pm_scalars p1 = pm_scalars p /\ pm_implicit p1 = pm_implicit p /\ pm_explicit p1 = pm_explicit p
    /\ pm_mixed p1 = pm_mixed p /\ incl (pm_derived p) (pm_derived p1) /\ In d (all_field_names p1)
    /\ forall n, In n (pm_derived p1) -> In n (pm_derived p) \/ n = d).
  { unfold p1. destruct (is_fname p d) eqn:E.
    - repeat split; try reflexivity; [apply incl_refl|apply mem_str_In, E|auto].
    - cbn [add_derived pm_fields pm_scalars pm_implicit pm_explicit pm_mixed pm_derived]. repeat split; try reflexivity.
      + apply incl_appl, incl_refl.
      + unfold all_field_names. cbn [add_derived pm_fields pm_derived]. rewrite !in_app_iff. cbn. tauto.
      + intros n Hn. apply in_app_or in Hn. destruct Hn as [Hn|[<-|[]]]; auto. }
  destruct H1 as (A1 & A2 & A3 & A4 & A5 & A6 & A7 & A8).
  destruct (IH p1) as (B1 & B2 & B3 & B4 & B5 & B6 & B7 & B8).
  rewrite B1, B2, B3, B4, B5. split; [exact A1|]. split; [exact A2|]. split; [exact A3|]. split; [exact A4|]. split; [exact A5|].
  split; [intros n Hn; apply B6, A6, Hn|]. split.
  - intros n [<-|Hn]; [|apply B7, Hn]. unfold all_field_names in *. rewrite B1. apply in_app_or in A7. apply in_or_app.
    destruct A7 as [H|H]; [left; exact H|right; apply B6, H].
  - intros n Hn. destruct (B8 n Hn) as [H|H]; [|right; right; exact H]. destruct (A8 n H) as [H'| ->]; [left; exact H'|right; left; reflexivity].
Qed.

Lemma derived_loop_same terms field m : let m' := EquationModel.derived_loop m field terms in
  pm_fields m' = pm_fields m /\ pm_scalars m' = pm_scalars m /\ pm_implicit m' = pm_implicit m /\ pm_explicit m' = pm_explicit m
  /\ pm_mixed m' = pm_mixed m /\ incl (pm_derived m) (pm_derived m').
Proof.
  cbv zeta. revert m. induction terms as [|t terms IH]; intros m; cbn [EquationModel.derived_loop].
  { repeat split; try reflexivity. apply incl_refl. }
  match goal with |- context [EquationModel.derived_loop ?x field terms] => set (m1 := x) end.
  assert (H : pm_fields m1 = pm_fields m /\ pm_scalars m1 = pm_scalars m /\ pm_implicit m1 = pm_implicit m /\ pm_explicit m1 = pm_explicit m
    /\ pm_mixed m1 = pm_mixed m /\ incl (pm_derived m) (pm_derived m1)).
  { unfold m1. destruct (is_user_term m t); [repeat split; try reflexivity; apply incl_refl|].
    destruct (sort_factors _); [repeat split; try reflexivity; apply incl_refl|].
    destruct (is_fname m _); [repeat split; try reflexivity; apply incl_refl|].
    cbn [pm_fields pm_scalars pm_implicit pm_explicit pm_mixed pm_derived]. repeat split; try reflexivity. apply incl_appl, incl_refl. }
  destruct H as (A1 & A2 & A3 & A4 & A5 & A6). destruct (IH m1) as (B1 & B2 & B3 & B4 & B5 & B6).
  rewrite B1, B2, B3, B4, B5. repeat split; try assumption. eapply incl_tran; eassumption.
Qed.

Lemma add_equation_same p text p' : add_equation p text = Ok p' ->
  pm_fields p' = pm_fields p /\ pm_scalars p' = pm_scalars p /\ pm_implicit p' = pm_implicit p /\ pm_explicit p' = pm_explicit p
  /\ pm_mixed p' = pm_mixed p /\ incl (pm_derived p) (pm_derived p').
Proof.
  unfold add_equation, update_derived_fields. destruct (split_char "=" (strip_spaces text)) as [|l [|r ?]]; try discriminate.
  destruct (split_on_many r pm_signs) as [ps| |]; try discriminate. cbn [bind].
  destruct (field_name_from_leibniz l) as [f| |]; try discriminate. cbn [bind]. intros H. injection H as <-.
  apply derived_loop_same.
Qed.

(** What a successful run leaves, whatever the calls. *)
Record tracked (cs : list call) (m : mstate) : Prop := {
  tk_fields : pm_fields (ms_names m) = fields_of cs;
  tk_scalars : pm_scalars (ms_names m) = scalars_of cs;
  tk_implicit : pm_implicit (ms_names m) = terms_of KImplicit cs;
  tk_explicit : pm_explicit (ms_names m) = terms_of KExplicit cs;
  tk_mixed : pm_mixed (ms_names m) = terms_of KMixed cs;
  tk_functions : incl (functions_of cs) (all_field_names (ms_names m));
  tk_equations : ms_equations m = map strip_spaces (equations_of cs);
  tk_table : forall k n t, find_term (match k with KImplicit => ms_implicit m | KExplicit => ms_explicit m | KMixed => ms_mixed m end) n = Some t
             <-> registered cs k n t;
  tk_sources_length : length (ms_sources m) = length (equations_of cs);
  tk_sources : forall i l, nth_error (ms_sources m) i = Some l -> l = sources_of i cs;
  tk_sources_late : forall i, length (equations_of cs) <= i -> sources_of i cs = []
}.

Lemma append_at_spec i s l l' : append_at i s l = Some l' ->
  length l' = length l /\ i < length l /\ forall j x, nth_error l' j = Some x -> exists y, nth_error l j = Some y /\ x = y ++ (if Nat.eqb j i then [s] else []).
Proof.
  revert i l'. induction l as [|y l IH]; intros i l' H; [destruct i; discriminate|].
  destruct i as [|i]; cbn [append_at] in H.
  - injection H as <-. split; [reflexivity|]. split; [cbn; lia|]. intros [|j] x Hj; cbn [nth_error] in *.
    + injection Hj as <-. exists y. split; reflexivity.
    + exists x. rewrite app_nil_r. split; [exact Hj|reflexivity].
  - destruct (append_at i s l) as [r|] eqn:E; [|discriminate]. injection H as <-.
    destruct (IH i r E) as (A & B & D). split; [cbn; lia|]. split; [cbn; lia|].
    intros [|j] x Hj; cbn [nth_error] in *.
    + injection Hj as <-. exists y. rewrite app_nil_r. split; reflexivity.
    + apply D, Hj.
Qed.
Lemma append_at_total i s l : i < length l -> exists l', append_at i s l = Some l'.
Proof.
  revert i. induction l as [|y l IH]; intros i H; [cbn in H; lia|]. destruct i as [|i]; cbn [append_at]; [eexists; reflexivity|].
  destruct (IH i) as (r & ->); [cbn in H; lia|]. eexists. reflexivity.
Qed.

Lemma registered_snoc_other cs c k n t : (forall t' ds', c <> CTerm k n t' ds') -> registered (cs ++ [c]) k n t <-> registered cs k n t.
Proof.
  intros Hc. split.
  - intros (b & a & ds & E & Ha). destruct (exists_last (l := CTerm k n t ds :: a)) as (a' & x & E2); [discriminate|].
    rewrite E2, app_assoc in E. apply app_inj_tail in E. destruct E as [E ->].
    destruct a' as [|y a']; cbn [app] in E2.
    + injection E2 as E2 _. exfalso. exact (Hc t ds (eq_sym E2)).
    + injection E2 as <- ->. exists b, a', ds. split; [exact E|]. intros t' ds' Hin. apply (Ha t' ds'), in_or_app. left. exact Hin.
  - intros (b & a & ds & -> & Ha). exists b, (a ++ [c]), ds. split; [rewrite <- app_assoc; reflexivity|].
    intros t' ds' Hin. apply in_app_or in Hin. destruct Hin as [Hin|[E|[]]]; [exact (Ha t' ds' Hin)|exact (Hc t' ds' E)].
Qed.
Lemma registered_snoc_same cs k n t t' ds : registered (cs ++ [CTerm k n t' ds]) k n t <-> t = t'.
Proof.
  split.
  - intros (b & a & ds2 & E & Ha). destruct (exists_last (l := CTerm k n t ds2 :: a)) as (a' & x & E2); [discriminate|].
    rewrite E2, app_assoc in E. apply app_inj_tail in E. destruct E as [E <-].
    destruct a' as [|y a']; cbn [app] in E2; injection E2 as E2 E3; [congruence|].
    exfalso. apply (Ha t' ds). rewrite E3. apply in_or_app. right. left. reflexivity.
  - intros ->. exists cs, [], ds. split; [reflexivity|]. intros ? ? [].
Qed.

Lemma flat_map_snoc {A B} (f : A -> list B) l x : flat_map f (l ++ [x]) = flat_map f l ++ f x.
Proof. rewrite flat_map_app. cbn [flat_map]. rewrite app_nil_r. reflexivity. Qed.

Lemma kind_dec (a b : kind) : {a = b} + {a <> b}.
Proof. decide equality. Qed.

Ltac snoc := unfold fields_of, scalars_of, functions_of, equations_of, terms_of, sources_of in *; rewrite ?flat_map_snoc, ?app_nil_r.

Lemma tracked_same cs c m m' : tracked cs m ->
  (forall k n t ds, c <> CTerm k n t ds) ->
  pm_fields (ms_names m') = fields_of (cs ++ [c]) -> pm_scalars (ms_names m') = scalars_of (cs ++ [c]) ->
  pm_implicit (ms_names m') = pm_implicit (ms_names m) -> pm_explicit (ms_names m') = pm_explicit (ms_names m) ->
  pm_mixed (ms_names m') = pm_mixed (ms_names m) ->
  incl (functions_of (cs ++ [c])) (all_field_names (ms_names m')) ->
  ms_equations m' = map strip_spaces (equations_of (cs ++ [c])) ->
  ms_implicit m' = ms_implicit m -> ms_explicit m' = ms_explicit m -> ms_mixed m' = ms_mixed m ->
  length (ms_sources m') = length (equations_of (cs ++ [c])) ->
  (forall i l, nth_error (ms_sources m') i = Some l -> l = sources_of i (cs ++ [c])) ->
  (forall i, length (equations_of (cs ++ [c])) <= i -> sources_of i (cs ++ [c]) = []) ->
  tracked (cs ++ [c]) m'.
Proof.
  intros T Hc H1 H2 H3 H4 H5 H6 H7 H8 H9 H10 H11 H12 H13.
  assert (Ht : forall k, terms_of k (cs ++ [c]) = terms_of k cs).
  { intros k. snoc. destruct c; try apply app_nil_r. exfalso. eapply Hc. reflexivity. }
  constructor; try assumption.
  - rewrite H3, Ht. apply (tk_implicit _ _ T).
  - rewrite H4, Ht. apply (tk_explicit _ _ T).
  - rewrite H5, Ht. apply (tk_mixed _ _ T).
  - intros k n t. rewrite registered_snoc_other by (intros; apply Hc). rewrite H8, H9, H10. apply (tk_table _ _ T).
Qed.

Lemma tracked_run cs m : run_calls new_mstate cs = Ok m -> tracked cs m.
Proof.
  revert m. induction cs as [|c cs IH] using rev_ind; intros m H.
  { cbn [run_calls] in H. injection H as <-. constructor; cbn; try reflexivity.
    - intros ? [].
    - intros k n t. split; [destruct k; discriminate|]. intros (b & a & ds & E & _). destruct b; discriminate.
    - intros [|i] l; discriminate. }
  apply run_calls_snoc in H. destruct H as (m1 & E1 & E2). specialize (IH m1 E1).
  destruct c as [n|n|n|k n t ds|text|eq s|]; cbn [run_call] in E2.
  - unfold call_field, checked in E2. destruct (name_ok n); [|discriminate]. injection E2 as <-.
    apply (tracked_same cs _ m1); cbn [with_names ms_names pm_fields pm_scalars pm_implicit pm_explicit pm_mixed ms_equations ms_implicit ms_explicit ms_mixed ms_sources];
      try (reflexivity || assumption || discriminate); snoc; try apply IH.
    + f_equal. apply IH.
    + unfold all_field_names. cbn [pm_fields pm_derived]. intros x Hx. apply (tk_functions _ _ IH) in Hx.
      unfold all_field_names in Hx. rewrite !in_app_iff in *. tauto.
    + intros i l Hl. rewrite flat_map_snoc, app_nil_r. revert Hl. apply IH.
    + intros i Hi. rewrite flat_map_snoc, app_nil_r. apply (tk_sources_late _ _ IH). rewrite ?flat_map_snoc, ?app_nil_r in Hi. exact Hi.
  - unfold call_scalar, checked in E2. destruct (name_ok n); [|discriminate]. injection E2 as <-.
    apply (tracked_same cs _ m1); cbn [with_names ms_names pm_fields pm_scalars pm_implicit pm_explicit pm_mixed ms_equations ms_implicit ms_explicit ms_mixed ms_sources];
      try (reflexivity || assumption || discriminate); snoc; try apply IH.
    + f_equal. apply IH.
    + intros i l Hl. rewrite flat_map_snoc, app_nil_r. revert Hl. apply IH.
    + intros i Hi. rewrite flat_map_snoc, app_nil_r. apply (tk_sources_late _ _ IH). rewrite ?flat_map_snoc, ?app_nil_r in Hi. exact Hi.
  - unfold call_function, checked in E2. destruct (name_ok n); [|discriminate]. cbn [bind] in E2.
    destruct (pm_fields (ms_names m1)) as [|f0 fr] eqn:Ef; [discriminate|]. injection E2 as <-.
    apply (tracked_same cs _ m1); cbn [with_names ms_names add_derived pm_fields pm_scalars pm_implicit pm_explicit pm_mixed ms_equations ms_implicit ms_explicit ms_mixed ms_sources];
      try (reflexivity || assumption || discriminate); snoc; try apply IH.
    + intros x Hx. apply in_app_or in Hx. unfold all_field_names. cbn [add_derived pm_fields pm_derived].
      destruct Hx as [Hx|[<-|[]]]; [|rewrite !in_app_iff; cbn; tauto]. apply (tk_functions _ _ IH) in Hx.
      unfold all_field_names in Hx. rewrite !in_app_iff in *. tauto.
    + intros i l Hl. rewrite flat_map_snoc, app_nil_r. revert Hl. apply IH.
    + intros i Hi. rewrite flat_map_snoc, app_nil_r. apply (tk_sources_late _ _ IH). rewrite ?flat_map_snoc, ?app_nil_r in Hi. exact Hi.
  - unfold call_term, checked in E2. destruct (name_ok n); [|discriminate]. cbn [bind] in E2. cbv zeta in E2.
    assert (Em : m = with_names (add_term k n t m1) (register_names (ms_names (add_term k n t m1)) ds)) by congruence. rewrite Em. clear E2 Em.
    destruct (register_names_spec ds (ms_names (add_term k n t m1))) as (A1 & A2 & A3 & A4 & A5 & A6 & A7 & _).
    constructor; cbn [with_names ms_names ms_equations ms_implicit ms_explicit ms_mixed ms_sources].
    + rewrite A1. snoc. apply IH.
    + rewrite A2. snoc. apply IH.
    + rewrite A3. cbn [add_term ms_names pm_implicit]. snoc. destruct k; rewrite ?app_nil_r; rewrite ?(tk_implicit _ _ IH); reflexivity.
    + rewrite A4. cbn [add_term ms_names pm_explicit]. snoc. destruct k; rewrite ?app_nil_r; rewrite ?(tk_explicit _ _ IH); reflexivity.
    + rewrite A5. cbn [add_term ms_names pm_mixed]. snoc. destruct k; rewrite ?app_nil_r; rewrite ?(tk_mixed _ _ IH); reflexivity.
    + snoc. intros x Hx. apply in_app_or in Hx. destruct Hx as [Hx|Hx]; [|apply A7, Hx]. apply (tk_functions _ _ IH) in Hx.
      unfold all_field_names in *. rewrite A1. cbn [add_term ms_names pm_fields pm_derived] in *. apply in_app_or in Hx. apply in_or_app.
      destruct Hx as [Hx|Hx]; [left; exact Hx|right; apply A6, Hx].
    + snoc. cbn [add_term ms_equations]. apply IH.
    + intros k' n' t'. cbn [add_term ms_implicit ms_explicit ms_mixed].
      destruct (kind_dec k k') as [<-|Hk].
      * assert (E : match k with KImplicit => match k with KImplicit => (n, t) :: ms_implicit m1 | _ => ms_implicit m1 end
                    | KExplicit => match k with KExplicit => (n, t) :: ms_explicit m1 | _ => ms_explicit m1 end
                    | KMixed => match k with KMixed => (n, t) :: ms_mixed m1 | _ => ms_mixed m1 end end
                  = (n, t) :: match k with KImplicit => ms_implicit m1 | KExplicit => ms_explicit m1 | KMixed => ms_mixed m1 end) by (destruct k; reflexivity).
        rewrite E. cbn [find_term]. destruct (str_eqb n n') eqn:En.
        -- apply str_eqb_eq in En. subst n'. rewrite registered_snoc_same. split; [intros H; injection H; auto|intros ->; reflexivity].
        -- rewrite registered_snoc_other; [apply (tk_table _ _ IH)|]. intros t2 ds2 Eq. injection Eq as E3 E4 E5. subst.
           rewrite str_eqb_refl in En. discriminate.
      * rewrite registered_snoc_other; [|intros t2 ds2 Eq; injection Eq as E3 E4 E5; congruence].
        rewrite <- (tk_table _ _ IH). destruct k, k'; try tauto; congruence.
    + snoc. cbn [add_term ms_sources]. apply IH.
    + cbn [add_term ms_sources]. intros i l Hl. snoc. revert Hl. apply IH.
    + intros i Hi. snoc. apply (tk_sources_late _ _ IH). unfold equations_of in *. rewrite ?flat_map_snoc, ?app_nil_r in Hi. exact Hi.
  - unfold call_equation in E2. destruct (add_equation (ms_names m1) text) as [p| |] eqn:Ep; try discriminate. cbn [bind] in E2. injection E2 as <-.
    destruct (add_equation_same _ _ _ Ep) as (A1 & A2 & A3 & A4 & A5 & A6).
    apply (tracked_same cs _ m1); cbn [ms_names pm_fields pm_scalars pm_implicit pm_explicit pm_mixed ms_equations ms_implicit ms_explicit ms_mixed ms_sources];
      try (reflexivity || assumption || discriminate); snoc; rewrite ?A1, ?A2; try apply IH.
    + intros x Hx. apply (tk_functions _ _ IH) in Hx. unfold all_field_names in *. rewrite A1. apply in_app_or in Hx. apply in_or_app.
      destruct Hx as [Hx|Hx]; [left; exact Hx|right; apply A6, Hx].
    + rewrite map_app. f_equal. apply IH.
    + rewrite !app_length. f_equal. apply IH.
    + intros i l Hl. rewrite flat_map_snoc, app_nil_r. destruct (Nat.lt_ge_cases i (length (ms_sources m1))) as [Hi|Hi].
      * rewrite nth_error_app1 in Hl by exact Hi. revert Hl. apply IH.
      * rewrite nth_error_app2 in Hl by exact Hi. destruct (i - length (ms_sources m1)) as [|j] eqn:Ei; cbn [nth_error] in Hl; [|destruct j; discriminate].
        injection Hl as <-. symmetry. apply (tk_sources_late _ _ IH). rewrite <- (tk_sources_length _ _ IH). lia.
    + intros i Hi. rewrite flat_map_snoc, app_nil_r. apply (tk_sources_late _ _ IH). rewrite ?flat_map_snoc, ?app_length in Hi. unfold equations_of. lia.
  - unfold call_source in E2. destruct (eq <? 0)%Z eqn:Eq; [discriminate|]. apply Z.ltb_ge in Eq.
    destruct (append_at (Z.to_nat eq) s (ms_sources m1)) as [l1|] eqn:El; [|discriminate]. injection E2 as <-.
    destruct (append_at_spec _ _ _ _ El) as (A & B & D).
    apply (tracked_same cs _ m1); cbn [ms_names pm_fields pm_scalars pm_implicit pm_explicit pm_mixed ms_equations ms_implicit ms_explicit ms_mixed ms_sources];
      try (reflexivity || assumption || discriminate); snoc; try apply IH.
    + rewrite A. apply IH.
    + intros i l Hl. rewrite flat_map_snoc. destruct (D i l Hl) as (y & Hy & ->). apply (tk_sources _ _ IH) in Hy. rewrite Hy. unfold sources_of. f_equal.
      destruct (Nat.eqb i (Z.to_nat eq)) eqn:Ei; [apply Nat.eqb_eq in Ei|apply Nat.eqb_neq in Ei];
        destruct (eq =? Z.of_nat i)%Z eqn:Ez; [reflexivity| | |reflexivity]; [apply Z.eqb_neq in Ez|apply Z.eqb_eq in Ez]; lia.
    + intros i Hi. rewrite ?flat_map_snoc, ?app_nil_r in Hi. rewrite flat_map_snoc. assert (HS := tk_sources_late _ _ IH i Hi). unfold sources_of in HS. rewrite HS.
      destruct (eq =? Z.of_nat i)%Z eqn:Ez; [|reflexivity]. apply Z.eqb_eq in Ez. rewrite (tk_sources_length _ _ IH) in B. unfold equations_of in B. lia.
  - unfold call_init in E2. destruct (build_all m1 (ms_equations m1)) as [r| |]; try discriminate. cbn [bind] in E2. injection E2 as <-.
    apply (tracked_same cs _ m1); cbn [ms_names pm_fields pm_scalars pm_implicit pm_explicit pm_mixed ms_equations ms_implicit ms_explicit ms_mixed ms_sources];
      try (reflexivity || assumption || discriminate); snoc; try apply IH.
    + intros i l Hl. rewrite flat_map_snoc, app_nil_r. revert Hl. apply IH.
    + intros i Hi. rewrite flat_map_snoc, app_nil_r. apply (tk_sources_late _ _ IH). rewrite ?flat_map_snoc, ?app_nil_r in Hi. exact Hi.
Qed.
