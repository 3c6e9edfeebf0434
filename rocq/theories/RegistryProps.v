(** Properties C81 - C83: setting up a model by calls in any order. *)
From Verif Require Import FileModel ParseProofs RegistrySpec EquationProofs4 EquationProofs8 EquationProps RegistryProofs RegistryProofs2 RegistryProofs3.
From Coq Require Import Lia Lra Qreals.
Open Scope nat_scope.

(** ** C81 *)

(** Constants, functions, terms, equations and sources may be declared in any
    order, as long as the fields come before the first equation and the first
    function: Init then gives every equation the meaning of its text, with the
    terms registered last under their names. *)
Theorem C81_any_order_partial : forall L cs es, good_lang L -> declares cs L -> fields_first cs -> sources_in_range cs -> ~ In CInit cs ->
  Forall2 (fun s e => strip_spaces s = eq_text e) (equations_of cs) es -> Forall (good_equation L) es ->
  exists m, run_calls new_mstate (cs ++ [CInit]) = Ok m /\ length (ms_rhs m) = length es
  /\ forall i e, nth_error es i = Some e -> exists terms denum, nth_error (ms_rhs m) i = Some (terms, denum)
  /\ forall cpow val ft scal brick pure lin nonlin implicit explicit linear nonlinear freq,
    good_bricks L (ms_names m) cpow val ft scal brick ->
    (forall n t, registered cs KImplicit n t -> implicit n = pure t) ->
    (forall n t, registered cs KExplicit n t -> explicit n = pure t) ->
    (forall n t, registered cs KMixed n t -> linear n = lin t /\ nonlinear n = nonlin t) ->
    let ev := eval_entry cpow brick pure lin nonlin freq in
    Cadd (Csum (map ev terms)) (Cmul (Csum (map ev denum)) (brick (q_field e)))
    = rhs_meaning L cpow val ft scal implicit explicit linear nonlinear freq (brick (q_field e)) e.
Proof.
  intros L cs es HL HD HF HS HI H2 Hg. apply (any_order L HL cs HD HF HS HI); [|exact H2|exact Hg].
  intros s Hs. revert Hs Hg. clear - H2. induction H2 as [|s0 e ss es Hs0 _ IH]; intros Hs Hg; [destruct Hs|].
  inversion Hg as [|? ? G1 G2]; subst. destruct Hs as [<-|Hs]; [exists e; split; assumption|apply IH; assumption].
Qed.
Print Assumptions C81_any_order_partial.

(** A field that is declared after an equation that uses it: the product is
    evaluated as the constant 1, without a message. *)
Definition late_field : list call :=
  [CField (lit "conc"); CEquation (lit "dconc/dt = conc*temp"); CField (lit "temp"); CInit].
Theorem C81_late_field_refuted : exists m terms denum, run_calls new_mstate late_field = Ok m /\ ms_rhs m = [(terms, denum)]
  /\ forall cpow brick pure lin nonlin freq, let ev := eval_entry cpow brick pure lin nonlin freq in
     Cadd (Csum (map ev terms)) (Cmul (Csum (map ev denum)) (brick (lit "conc"))) = C1.
Proof.
  eexists _, _, _. split; [vm_compute; reflexivity|]. split; [vm_compute; reflexivity|].
  intros cpow brick pure lin nonlin freq ev. unfold ev, eval_entry.
  cbn [map fst snd eval_built eval_pterm pt_bricks pt_neg pt_field pt_lap eval_bricks Csum]. csolve.
Qed.
Print Assumptions C81_late_field_refuted.

(** The same calls with the fields first evaluate the product. *)
Definition early_field : list call :=
  [CField (lit "conc"); CField (lit "temp"); CEquation (lit "dconc/dt = conc*temp"); CInit].
Example C81_early_field : exists m terms denum, run_calls new_mstate early_field = Ok m /\ ms_rhs m = [(terms, denum)]
  /\ forall cpow brick pure lin nonlin freq, let ev := eval_entry cpow brick pure lin nonlin freq in
     Cadd (Csum (map ev terms)) (Cmul (Csum (map ev denum)) (brick (lit "conc"))) = brick (lit "conc*temp").
Proof.
  eexists _, _, _. split; [vm_compute; reflexivity|]. split; [vm_compute; reflexivity|].
  intros cpow brick pure lin nonlin freq ev. unfold ev, eval_entry.
  cbn [map fst snd eval_built eval_pterm pt_bricks pt_neg pt_field pt_lap eval_bricks Csum].
  change (lit "conc*temp") with (["c"; "o"; "n"; "c"; "*"; "t"; "e"; "m"; "p"]%char : str). csolve.
Qed.

(** Calls of the language of C18, with equations before the constants, the
    function and the term they use. *)
Definition mixed_calls : list call :=
  [CScalar (lit "m1"); CField (lit "conc"); CField (lit "eta");
   CEquation (lit "dconc/dt = m1*LAP conc^3 - kap^2*conc + conc^2*eta*m1 - LAP dfdc*m1 + LAP noise");
   CTerm KExplicit (lit "noise") 4 []; CSource 0 7; CFunction (lit "dfdc"); CScalar (lit "kap");
   CEquation (lit "deta/dt = -kap*LAP^2 eta + conc"); CTerm KExplicit (lit "noise") 5 []; CSource 1 8; CSource 0 9].
Example C81_nonvacuous : good_lang Lx /\ declares mixed_calls Lx /\ fields_first mixed_calls /\ sources_in_range mixed_calls
  /\ ~ In CInit mixed_calls /\ Forall2 (fun s e => strip_spaces s = eq_text e) (equations_of mixed_calls) [eq1; eq2]
  /\ Forall (good_equation Lx) [eq1; eq2] /\ registered mixed_calls KExplicit (lit "noise") 5.
Proof.
  split; [exact C18_nonvacuous_lang|]. split; [split; [reflexivity|]; intros n; cbn; tauto|].
  split; [|split; [|split; [|split; [|split]]]].
  - exists (firstn 3 mixed_calls), (skipn 3 mixed_calls). split; [reflexivity|]. split; [|split].
    + intros c H. cbn in H. repeat (destruct H as [<-|H]; [exact (fun x => x)|]). destruct H.
    + intros c H. cbn in H. repeat (destruct H as [<-|H]; [exact (fun x => x)|]). destruct H.
    + discriminate.
  - intros b a eq s E. unfold mixed_calls in E.
    do 12 (destruct b as [|? b]; [try discriminate E; injection E as <- <- _; cbn; lia|injection E as <- E]). destruct b; discriminate E.
  - cbn. intuition discriminate.
  - constructor; [reflexivity|]. constructor; [reflexivity|constructor].
  - apply C18_nonvacuous_equations.
  - exists (firstn 9 mixed_calls), (skipn 10 mixed_calls), []. split; [reflexivity|]. intros t' ds' H. cbn in H. intuition discriminate.
Qed.

(** ** C82 *)

(** IsImplicitTerm, IsExplicitTerm and IsMixedTerm say what was registered. *)
Theorem C82_kinds : forall cs m k name, run_calls new_mstate cs = Ok m ->
  (is_kind m k name = true <-> exists t, registered cs k name t).
Proof.
  intros cs m k name H. assert (T := tracked_run _ _ H). unfold is_kind. split.
  - destruct (find_term _ name) as [t|] eqn:E; [|discriminate]. intros _. exists t. apply (tk_table _ _ T k name t), E.
  - intros (t & Ht). apply (tk_table _ _ T k name t) in Ht. rewrite Ht. reflexivity.
Qed.
Print Assumptions C82_kinds.

(** After Init there is one right-hand side for each equation, and every
    registered function in it comes from the term registered last with its
    name and kind. *)
Theorem C82_last_registration_partial : forall cs m, run_calls new_mstate (cs ++ [CInit]) = Ok m ->
  length (ms_rhs m) = length (equations_of cs)
  /\ forall i terms denum b o, nth_error (ms_rhs m) i = Some (terms, denum) -> In (b, o) (terms ++ denum) ->
     match b with
     | BTerm _ => o = None
     | BImplicit n _ => exists t, o = Some t /\ registered cs KImplicit n t
     | BExplicit n _ => exists t, o = Some t /\ registered cs KExplicit n t
     | BLinear n _ | BNonLinear n _ => exists t, o = Some t /\ registered cs KMixed n t
     end.
Proof.
  intros cs m H. destruct (init_entries cs m H) as [A B]. split; [exact A|]. intros i terms denum b o Hi Hb.
  specialize (B i terms denum (b, o) Hi Hb). destruct b; exact B.
Qed.
Print Assumptions C82_last_registration_partial.

(** A name registered again as another kind keeps its old meaning: the order is
    implicit, explicit, mixed, not the order of registration. *)
Definition twice : list call :=
  [CField (lit "conc"); CTerm KImplicit (lit "TERM") 1 []; CTerm KExplicit (lit "TERM") 2 []; CEquation (lit "dconc/dt = TERM"); CInit].
Theorem C82_other_kind_refuted : exists m, run_calls new_mstate twice = Ok m
  /\ ms_rhs m = [([], [(BImplicit (lit "TERM") (lit "TERM", None), Some 1)])]
  /\ is_kind m KExplicit (lit "TERM") = true.
Proof. eexists. split; [vm_compute; reflexivity|]. split; vm_compute; reflexivity. Qed.
Print Assumptions C82_other_kind_refuted.

Example C82_nonvacuous : exists m, run_calls new_mstate (mixed_calls ++ [CInit]) = Ok m
  /\ exists terms denum p, nth_error (ms_rhs m) 0 = Some (terms, denum) /\ In (BExplicit (lit "noise") p, Some 5) terms.
Proof. eexists. split; [vm_compute; reflexivity|]. eexists _, _, _. split; [vm_compute; reflexivity|]. vm_compute. eauto 10. Qed.

(** ** C83 *)

(** The sources of an equation are those added with its number, in order, and
    the equations are those added, without blanks. *)
Theorem C83_sources : forall cs m, run_calls new_mstate cs = Ok m ->
  ms_equations m = map strip_spaces (equations_of cs) /\ length (ms_sources m) = length (equations_of cs)
  /\ forall i l, nth_error (ms_sources m) i = Some l -> l = sources_of i cs.
Proof. intros cs m H. assert (T := tracked_run _ _ H). split; [apply T|]. split; apply T. Qed.
Print Assumptions C83_sources.

(** AddSource panics exactly when there is no equation with that number. *)
Theorem C83_source_range : forall cs m eq s, run_calls new_mstate cs = Ok m ->
  if ((0 <=? eq) && (eq <? Z.of_nat (length (equations_of cs))))%Z
  then exists m', run_call m (CSource eq s) = Ok m' else run_call m (CSource eq s) = Panic.
Proof.
  intros cs m eq s H. assert (T := tracked_run _ _ H). cbn [run_call]. unfold call_source.
  destruct (Z.leb_spec 0 eq) as [H0|H0]; cbn [andb].
  - rewrite (proj2 (Z.ltb_ge eq 0)) by lia. destruct (Z.ltb_spec eq (Z.of_nat (length (equations_of cs)))) as [H1|H1].
    + destruct (append_at_total (Z.to_nat eq) s (ms_sources m)) as (l & ->); [rewrite (tk_sources_length _ _ T); lia|]. eexists. reflexivity.
    + destruct (append_at (Z.to_nat eq) s (ms_sources m)) as [l|] eqn:E; [|reflexivity].
      destruct (append_at_spec _ _ _ _ E) as (_ & B & _). rewrite (tk_sources_length _ _ T) in B. lia.
  - rewrite (proj2 (Z.ltb_lt eq 0)) by lia. reflexivity.
Qed.
Print Assumptions C83_source_range.

(** Calling Init again changes nothing. *)
Theorem C83_init_again : forall cs m, run_calls new_mstate (cs ++ [CInit]) = Ok m -> run_calls new_mstate (cs ++ [CInit; CInit]) = Ok m.
Proof.
  intros cs m H. change [CInit; CInit] with ([CInit] ++ [CInit]). rewrite app_assoc. apply run_calls_snoc. exists m. split; [exact H|].
  apply run_calls_snoc in H. destruct H as (m1 & _ & E). cbn [run_call] in *. exact (init_again _ _ E).
Qed.
Print Assumptions C83_init_again.

(** What is declared after Init is not used until Init is called again, and
    the summary then says that the model is not initialised exactly when
    equations were added. *)
Theorem C83_after_init : forall cs more m1 m, run_calls new_mstate (cs ++ [CInit]) = Ok m1 -> run_calls m1 more = Ok m -> ~ In CInit more ->
  ms_rhs m = ms_rhs m1 /\ (summarize m = None <-> equations_of more <> []).
Proof.
  intros cs more m1 m H1 H2 Hn. assert (E := run_calls_rhs more m1 m H2 Hn). split; [exact E|].
  destruct (init_entries cs m1 H1) as [A _].
  assert (T : tracked ((cs ++ [CInit]) ++ more) m).
  { apply tracked_run. rewrite run_calls_app, H1. exact H2. }
  unfold summarize. rewrite E, A, (tk_equations _ _ T), map_length, !equations_app, !app_length. cbn [equations_of flat_map length].
  destruct (equations_of more) as [|e es]; cbn [length].
  - rewrite !Nat.add_0_r, Nat.eqb_refl. split; [discriminate|congruence].
  - rewrite (proj2 (Nat.eqb_neq _ _)) by lia. split; [discriminate|reflexivity].
Qed.
Print Assumptions C83_after_init.

(** The summary has one line for each equation, in order: its number, its text
    and the numbers of explicit and implicit functions. *)
Theorem C83_summary : forall cs m, run_calls new_mstate (cs ++ [CInit]) = Ok m ->
  exists lines, summarize m = Some lines /\ length lines = length (equations_of cs)
  /\ forall i text, nth_error (equations_of cs) i = Some text -> exists terms denum line,
     nth_error (ms_rhs m) i = Some (terms, denum) /\ nth_error lines i = Some line
     /\ row_of [dec (Z.of_nat i); strip_spaces text; dec (Z.of_nat (length terms)); dec (Z.of_nat (length denum))] line.
Proof.
  intros cs m H. destruct (init_entries cs m H) as [A _]. assert (T := tracked_run _ _ H).
  assert (Ee : ms_equations m = map strip_spaces (equations_of cs)).
  { rewrite (tk_equations _ _ T), equations_app. cbn [equations_of flat_map]. rewrite app_nil_r. reflexivity. }
  assert (Hl : length (ms_rhs m) = length (ms_equations m)) by (rewrite A, Ee, map_length; reflexivity).
  destruct (summary_lines_spec (ms_equations m) 0 (ms_rhs m) Hl) as [B D].
  exists (summary_lines 0 (ms_equations m) (ms_rhs m)). split; [unfold summarize; rewrite Hl, Nat.eqb_refl; reflexivity|].
  split; [rewrite B, Ee, map_length; reflexivity|]. intros i text Hi.
  destruct (nth_error (ms_rhs m) i) as [[t d]|] eqn:Er.
  - destruct (D i (strip_spaces text) t d) as (line & E1 & E2); [rewrite Ee; apply map_nth_error, Hi|exact Er|].
    exists t, d, line. split; [reflexivity|]. split; [exact E1|exact E2].
  - exfalso. apply nth_error_None in Er. assert (i < length (equations_of cs)) by (apply nth_error_Some; rewrite Hi; discriminate). lia.
Qed.
Print Assumptions C83_summary.

(** Example: the sources of the calls above. *)
Example C83_nonvacuous : exists m, run_calls new_mstate (mixed_calls ++ [CInit]) = Ok m
  /\ ms_sources m = [[7; 9]; [8]] /\ map (fun td => (length (fst td), length (snd td))) (ms_rhs m) = [(4, 1); (1, 1)].
Proof. eexists. split; [vm_compute; reflexivity|]. split; vm_compute; reflexivity. Qed.
