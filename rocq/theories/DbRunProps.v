(** Property C113: a run with a FieldDB leaves the fields of every epoch in the
    database, whoever else writes to the file meanwhile. *)
From Verif Require Import ListAux IndexSpec DftSpec ParseProofs SolverSpec SolverProofs SimSpec RegistryProps CsvRunProofs CsvRunProps DbRunModel DbRunProofs.
From Verif Require Import EquationSpec EquationProps StepProofs ConserveProofs SimProps KeepSpec KeepProps MatchProofs2 SimProofs SimProofs2 DftProofs ResumeSpec ResumeProps.
From Verif Require Import DbSpec DbProofs2 DbProofs3 DbProofs4 DbProps.
From Verif Require IndexProofs.
From Coq Require Import Reals ZArith Lia Permutation.
From Verif Require Import Complex.
Open Scope nat_scope.

Lemma nodup_left {A} : forall a b : list A, NoDup (a ++ b) -> NoDup a.
Proof. induction a as [|x a IH]; intros b H; [constructor|]. inversion H as [|? ? H1 H2]; subst. constructor; [intros Hx; apply H1, in_or_app; left; exact Hx|exact (IH b H2)]. Qed.

(** C113. A new database file used for one domain; before the run any calls on
    it, and during the run any calls of other objects, which have or draw other
    numbers.  A run of Solve with SaveFields as callback, for any stepper and
    other callbacks, does not panic, and afterwards
    - Load of every epoch gives the fields in the order of their names, each with
      the real parts it had after the steps of this epoch;
    - LoadLast gives the last epoch, if earlier records of the same number are
      from earlier steps;
    - Load of other steps of the same number is as before. *)
Theorem C113_database : forall L cs es m, declared L cs es -> run_calls new_mstate (cs ++ [CInit]) = Ok m ->
  forall dom k w0 before who rnd between c (sp : stepper (env * nat)) sv ne ns x x' tr,
  new_world k w0 -> (forall i, h_dom (w_handles w0 i) = Some dom) -> NoDup (sv_callbacks sv) -> In c (sv_callbacks sv) -> l_fields L <> [] ->
  (forall s1 s2, fits L (nodes dom) m (fst s1) -> st_step sp s1 = Some s2 -> fits L (nodes dom) m (fst s2)) -> fits L (nodes dom) m (fst x) ->
  solve sp sv ne ns x = Some (x', tr) ->
  let w := run w0 before in let s := h_sim (fst (ensure_init (w_handles w who) rnd)) in
  (forall i, i <> who -> h_sim (w_handles w i) <> s) ->
  (forall q e, q < ne -> In e (between (sv_start sv + Z.of_nat q)%Z) -> ev_who e <> who /\ ev_rnd e <> s) ->
  (forall q, q < ne -> ~ saved_at w0 before s (sv_start sv + Z.of_nat q)) ->
  exists hist w', hist 0 = x /\ hist (ne * ns) = x' /\ history sp hist (ne * ns)
  /\ db_after (l_fields L) who rnd between c tr w = Some w'
  /\ (forall q, q < ne -> exists r, load s (sv_start sv + Z.of_nat q) (w_db w') = Some r /\ in_order (map fst r)
      /\ Permutation r (combine (l_fields L) (map real_parts (e_fields (fst (hist ((q + 1) * ns)))))))
  /\ (0 < ne -> (forall ts, load s ts (w_db w) <> Some [] -> (ts < sv_start sv + Z.of_nat ne)%Z) ->
      load_last s (w_db w') = load s (sv_start sv + Z.of_nat ne - 1) (w_db w'))
  /\ (forall ts, (forall q, q < ne -> ts <> (sv_start sv + Z.of_nat q)%Z) -> load s ts (w_db w') = load s ts (w_db w)).
Proof.
  intros L cs es m HD Em dom k w0 before who rnd between c sp sv ne ns x x' tr HN Hdom ND Hc Hne Hkeep Hf HS w s Hoth Hbet Hno.
  apply solve_some in HS. destruct HS as (h & H0 & Hn & Hh & ->). exists h.
  assert (Hfit : forall j, j <= ne * ns -> fits L (nodes dom) m (fst (h j))).
  { induction j as [|j IH]; intros Hj; [rewrite H0; exact Hf|]. apply (Hkeep (h j)); [apply IH; lia|]. apply Hh. lia. }
  set (calls := map (fun q => ((sv_start sv + Z.of_nat q)%Z, fst (h ((q + 1) * ns)))) (seq 0 ne)).
  assert (Hv : valid_domain dom). { destruct HN as [_ HN]. destruct (HN 0) as (_ & _ & d & Ed & V & _). rewrite Hdom in Ed. injection Ed as <-. exact V. }
  assert (Hok : world_ok k w0 w) by (apply run_ok, new_world_ok, HN).
  assert (Hlen : forall q, q < ne -> Forall (fun f => Z.of_nat (length (snd f)) = num_nodes dom) (combine (l_fields L) (e_fields (fst (h ((q + 1) * ns)))))).
  { intros q Hq. destruct (Hfit ((q + 1) * ns) ltac:(nia)) as (_ & F2 & _). apply Forall_forall. intros [nm d] Hin. apply in_combine_r in Hin. cbn [snd].
    unfold all_length in F2. rewrite Forall_forall in F2. rewrite (F2 d Hin). unfold nodes. rewrite Z2Nat.id; [reflexivity|]. pose proof (IndexProofs.num_nodes_pos dom (proj2 Hv)). lia. }
  assert (Hlc : forall q, In q calls -> Forall (fun f => Z.of_nat (length (snd f)) = num_nodes dom) (combine (l_fields L) (e_fields (snd q)))).
  { intros q Hq. apply in_map_iff in Hq. destruct Hq as (j & <- & Hj). apply in_seq in Hj. apply Hlen. lia. }
  assert (Hst : forall q, In q calls -> strangers who s (between (fst q))).
  { intros q Hq e He. apply in_map_iff in Hq. destruct Hq as (j & <- & Hj). apply in_seq in Hj. apply (Hbet j); [lia|exact He]. }
  assert (Ho : own who rnd s w) by (split; [reflexivity|exact Hoth]).
  exists (run w (events_of (l_fields L) who rnd between calls)). split; [exact H0|]. split; [exact Hn|]. split; [exact Hh|].
  split. { rewrite db_calls, (calls_run c sp sv h ne ns ND Hc). fold calls. apply (save_calls_run (l_fields L) who rnd between k w0 dom calls Hdom Hlc w Hok). }
  assert (HL : forall q, q < ne -> exists r, load s (sv_start sv + Z.of_nat q) (w_db (run w (events_of (l_fields L) who rnd between calls))) = Some r /\ in_order (map fst r)
      /\ Permutation r (combine (l_fields L) (map real_parts (e_fields (fst (h ((q + 1) * ns))))))).
  { intros q Hq. assert (Fq := Hfit ((q + 1) * ns) ltac:(nia)).
    assert (Hsplit : calls = map (fun q => ((sv_start sv + Z.of_nat q)%Z, fst (h ((q + 1) * ns)))) (seq 0 q) ++ ((sv_start sv + Z.of_nat q)%Z, fst (h ((q + 1) * ns)))
        :: map (fun q => ((sv_start sv + Z.of_nat q)%Z, fst (h ((q + 1) * ns)))) (seq (S q) (ne - S q))).
    { unfold calls. replace ne with (q + S (ne - S q)) at 1 by lia. rewrite seq_app, map_app. reflexivity. }
    rewrite Hsplit. destruct (call_read (l_fields L) who rnd between s k w0 before dom (map (fun q => ((sv_start sv + Z.of_nat q)%Z, fst (h ((q + 1) * ns)))) (seq 0 q)) (sv_start sv + Z.of_nat q)%Z (fst (h ((q + 1) * ns))) (map (fun q => ((sv_start sv + Z.of_nat q)%Z, fst (h ((q + 1) * ns)))) (seq (S q) (ne - S q))) HN Hdom Ho) as (r & E & H1 & H2).
    - rewrite <- Hsplit. exact Hst.
    - rewrite <- Hsplit. unfold calls. rewrite map_map. cbn [fst]. apply FinFun.Injective_map_NoDup; [intros a b E; lia|apply seq_NoDup].
    - apply Hlen, Hq.
    - rewrite combine_fst by (symmetry; apply Fq). pose proof (gl_nodup L (dc_lang _ _ _ HD)) as G. unfold atoms in G. exact (nodup_left _ _ G).
    - apply Hno, Hq.
    - exists r. split; [exact E|]. split; [exact H1|]. eapply Permutation_trans; [exact H2|]. unfold as_saved. clear. revert L. intros L. generalize (e_fields (fst (h ((q + 1) * ns)))). generalize (l_fields L).
      induction l as [|a l IH]; intros [|d ds]; cbn [combine map]; constructor. apply IH. }
  assert (HO : forall ts, (forall q, q < ne -> ts <> (sv_start sv + Z.of_nat q)%Z) -> load s ts (w_db (run w (events_of (l_fields L) who rnd between calls))) = load s ts (w_db w)).
  { intros ts Hts. apply (load_kept k w0 w); [exact Hok|]. intros H. apply (own_events (l_fields L) who rnd between s calls w Ho Hst) in H.
    unfold calls in H. rewrite map_map in H. cbn [fst] in H. apply in_map_iff in H. destruct H as (q & E & Hq). apply in_seq in Hq. apply (Hts q); [lia|symmetry; exact E]. }
  split; [exact HL|]. split; [|exact HO]. intros Hpos Hearly. unfold load_last. f_equal.
  apply (last_is (world_doms w0)); [exact (proj2 (proj2 (run_ok k w0 _ w Hok)))| |].
  - intros E. destruct (HL (ne - 1) ltac:(lia)) as (r & Er & _ & Hp). replace (sv_start sv + Z.of_nat (ne - 1))%Z with (sv_start sv + Z.of_nat ne - 1)%Z in Er by lia.
    rewrite E in Er. injection Er as <-. apply Permutation_nil in Hp. destruct (Hfit ((ne - 1 + 1) * ns) ltac:(nia)) as (F1 & _). destruct (l_fields L) as [|a l]; [contradiction|].
    destruct (e_fields (fst (h ((ne - 1 + 1) * ns)))); discriminate.
  - intros t Ht. destruct (Z_lt_le_dec t (sv_start sv + Z.of_nat ne)) as [Hlt|Hle]; [lia|]. rewrite HO in Ht by (intros q Hq; lia). specialize (Hearly t Ht). lia.
Qed.
Print Assumptions C113_database.

(** Allen-Cahn on any domain with two nodes or more: another object writes a
    comment and its own fields at the same epochs, under another number. *)
Example C113_nonvacuous : forall dom f dt, valid_domain dom -> (2 <= num_nodes dom)%Z -> length f = nodes dom ->
  let lib := no_library (nodes dom) principal_power in
  let sp := euler_stepper (simulation (nodes dom) (fftw_transform dom) lib ac_state) (fftw_transform dom) None dt in
  let sv := {| sv_terms := []; sv_callbacks := [5%nat; 2%nat]; sv_monitors := []; sv_start := 4%Z |} in
  let e := {| e_fields := [f]; e_derived := [[]] |} in
  let w0 := fresh (fun _ => dom) in
  let between := fun epoch => [ {| ev_who := 1; ev_rnd := 9; ev_op := OpComment []; ev_crash := Some 1 |}; saving 1 9 [(lit "conc", f)] epoch ] in
  new_world (length dom) w0 /\ (forall i, h_dom (w_handles w0 i) = Some dom)
  /\ h_sim (fst (ensure_init (w_handles w0 0) 7)) = 7%Z
  /\ (forall i, i <> 0 -> h_sim (w_handles w0 i) <> 7%Z)
  /\ (forall q b, q < 3 -> In b (between (sv_start sv + Z.of_nat q)%Z) -> ev_who b <> 0 /\ ev_rnd b <> 7%Z)
  /\ fits La (nodes dom) ac_state e
  /\ exists x' tr w' fl, solve sp sv 3 2 (e, 0%nat) = Some (x', tr) /\ db_after (l_fields La) 0 7 between 5 tr w0 = Some w'
     /\ nth_error (e_fields (fst x')) 0 = Some fl /\ load_last 7 (w_db w') = Some [(hd [] (l_fields La), real_parts fl)].
Proof.
  intros dom f dt Hv Hn Hl lib sp sv e w0 between. assert (GL : good_library La (nodes dom) lib) by exact (no_library_good La (nodes dom) principal_power eq_refl).
  assert (Hf : fits La (nodes dom) ac_state e) by (split; [reflexivity|split; [repeat constructor; exact Hl|reflexivity]]).
  assert (HW : new_world (length dom) w0) by (split; [reflexivity|]; intros i; split; [reflexivity|]; split; [reflexivity|]; exists dom; split; [reflexivity|]; split; [exact Hv|]; split; [reflexivity|exact Hn]).
  assert (Hb : forall q b, q < 3 -> In b (between (sv_start sv + Z.of_nat q)%Z) -> ev_who b <> 0 /\ ev_rnd b <> 7%Z).
  { intros q b _ [<-|[<-|[]]]; cbn; split; discriminate. }
  split; [exact HW|]. split; [reflexivity|]. split; [reflexivity|]. split; [intros i _; discriminate|]. split; [exact Hb|]. split; [exact Hf|].
  destruct (C99_runs_complete La ac_calls ac_eqs ac_state ac_declared ac_run (nodes dom) (fftw_transform dom) lib GL (fftw_good dom Hv) eq_refl None dt [f] eq_refl (proj1 (proj2 Hf)) sp (or_introl eq_refl) sv 3%nat 2%nat) as (fs' & H).
  destruct (H [[]] eq_refl) as (e' & k' & tr & HS & _).
  destruct (C113_database La ac_calls ac_eqs ac_state ac_declared ac_run dom (length dom) w0 [] 0 7%Z between 5 sp sv 3 2 (e, 0%nat) (e', k') tr HW (fun _ => eq_refl)) as (hist & w' & H0 & H1 & H2 & H3 & H4 & H5 & _); try assumption.
  - repeat constructor; cbn; intuition discriminate.
  - left. reflexivity.
  - discriminate.
  - apply (C112_steppers La ac_calls ac_eqs ac_state ac_declared ac_run (nodes dom) (fftw_transform dom) lib GL (fftw_good dom Hv) eq_refl None dt). left. reflexivity.
  - intros i _. discriminate.
  - intros q _ [].
  - change (h_sim (fst (ensure_init (w_handles (run w0 []) 0) 7))) with 7%Z in *. change (3 * 2) with 6 in H1.
    destruct (H4 2 ltac:(lia)) as (r & Er & _ & Hp). change ((2 + 1) * 2) with 6 in Hp. rewrite H1 in Hp. cbn [fst] in Hp.
    assert (F : length (e_fields e') = 1).
    { change e' with (fst (e', k')). rewrite <- H1. clear - H0 H2 Hf GL Hv. assert (forall j, j <= 6 -> fits La (nodes dom) ac_state (fst (hist j))).
      { induction j as [|j IH]; intros Hj; [rewrite H0; exact Hf|]. apply (C112_steppers La ac_calls ac_eqs ac_state ac_declared ac_run (nodes dom) (fftw_transform dom) lib GL (fftw_good dom Hv) eq_refl None dt sp (or_introl eq_refl) (hist j)); [apply IH; lia|]. apply H2. lia. }
      destruct (H 6 ltac:(lia)) as (E & _). rewrite E. reflexivity. }
    destruct (e_fields e') as [|fl [|fl2 rest]] eqn:Ee; [discriminate F| |discriminate F].
    assert (Hr : r = [(hd [] (l_fields La), real_parts fl)]). { apply Permutation_length_1_inv. apply Permutation_sym. exact Hp. }
    exists (e', k'), tr, w', fl. split; [exact HS|]. split; [exact H3|]. split; [cbn [fst]; rewrite Ee; reflexivity|]. rewrite <- Hr.
    rewrite H5; [exact Er|lia|]. intros ts Hts. exfalso. apply Hts. apply load_no_rows. reflexivity.
Qed.
