(** Property C102: runs that save their fields can be continued from the files. *)
From Verif Require Import ListAux FileSpec FileProofs ParseProofs StepProofs ConserveProofs EquationProps RegistryProps SimProps.
From Verif Require Import SimProofs SimProofs2 SolverSpec SolverProofs DftProofs ResumeProofs ResumeProofs2 ResumeSpec ResumeProps KeepSpec KeepProps SimSpec CheckpointModel CheckpointProofs.
From Verif Require SplitProps WatchProps.
From Coq Require Import Reals Permutation NArith Lia Lra.
From Verif Require Import Complex.
Open Scope R_scope.

(** In a run of Solve with a Float64IO callback, whatever the stepper and the
    other callbacks, the file <prefix>_<field>_<epoch>.bin holds, for each field
    and each epoch, the real parts of the field after the steps of this epoch;
    no other file <prefix>_<name>_<number>.bin is touched. *)
Theorem C102_files : forall L cs es, declared L cs es ->
  forall bits prefix c (sp : stepper (env * nat)) sv ne ns s s' tr fs, (forall x, float_bits (bits x)) ->
  NoDup (sv_callbacks sv) -> In c (sv_callbacks sv) -> solve sp sv ne ns s = Some (s', tr) ->
  let fs' := files_after bits (l_fields L) prefix c tr fs in
  exists hist, hist 0%nat = s /\ hist (ne * ns)%nat = s' /\ history sp hist (ne * ns)
  /\ (forall q i name d, (q < ne)%nat -> nth_error (l_fields L) i = Some name -> nth_error (e_fields (fst (hist ((q + 1) * ns)%nat))) i = Some d ->
      load_float64 fs' (bin_name prefix name (sv_start sv + Z.of_nat q)) = Some (map (fun z => bits (Re z)) d))
  /\ (forall name epoch, ~ In name (l_fields L) \/ (epoch < sv_start sv)%Z \/ (sv_start sv + Z.of_nat ne <= epoch)%Z ->
      load_float64 fs' (bin_name prefix name epoch) = load_float64 fs (bin_name prefix name epoch)).
Proof.
  intros L cs es HD bits prefix c sp sv ne ns s s' tr fs Hb ND Hc HS.
  exact (files_of_run bits (l_fields L) prefix c Hb (fields_nodup L (dc_lang _ _ _ HD)) sp sv ne ns s s' tr fs ND Hc HS).
Qed.
Print Assumptions C102_files.

(** So what is loaded from the last epoch are the fields at the end of the run,
    if they are real and their values are among those that float64 patterns
    stand for. *)
Lemma loaded_end L cs es n m : declared L cs es ->
  forall bits value prefix c (sp : stepper (env * nat)) sv ne ns s s' tr fs, (forall x, float_bits (bits x)) ->
  NoDup (sv_callbacks sv) -> In c (sv_callbacks sv) -> (0 < ne)%nat -> solve sp sv ne ns s = Some (s', tr) ->
  fits L n m (fst s') -> (forall d z, In d (e_fields (fst s')) -> In z d -> Im z = 0 /\ value (bits (Re z)) = Re z) ->
  loaded value (l_fields L) prefix (sv_start sv + Z.of_nat ne - 1) (files_after bits (l_fields L) prefix c tr fs) = Some (e_fields (fst s')).
Proof.
  intros HD bits value prefix c sp sv ne ns s s' tr fs Hb ND Hc Hne HS Hf Hv.
  destruct (C102_files L cs es HD bits prefix c sp sv ne ns s s' tr fs Hb ND Hc HS) as (h & _ & Hn & _ & HF & _).
  rewrite (loaded_back bits (l_fields L) prefix value _ _ (e_fields (fst s'))).
  - f_equal. transitivity (map (fun d : data => d) (e_fields (fst s'))); [|apply map_id]. apply map_ext_in. intros d Hd. transitivity (map (fun z : C => z) d); [|apply map_id].
    apply map_ext_in. intros z Hz. destruct (Hv d z Hd Hz) as [H1 H2]. rewrite H2. apply C_eq; [reflexivity|symmetry; exact H1].
  - apply Hf.
  - intros i name d Hi Hd. replace (sv_start sv + Z.of_nat ne - 1)%Z with (sv_start sv + Z.of_nat (ne - 1))%Z by lia.
    apply (HF (ne - 1)%nat i name d ltac:(lia) Hi). replace (ne - 1 + 1)%nat with ne by lia. rewrite Hn. exact Hd.
Qed.

(** One run gives [run_takes], because old values of derived fields do not matter. *)
Lemma takes_of_solve (sp : stepper (env * nat)) m (step : R -> env -> option env) dt nxt :
  (forall e k, st_step sp (e, k) = match step (time_of dt k) e with Some e' => Some (e', nxt k) | None => None end) ->
  (forall t e e', slots m e -> slots m e' -> e_fields e = e_fields e' -> step t e = step t e') ->
  forall sv ne ns e e' k' tr, slots m e -> solve sp sv ne ns (e, 0%nat) = Some ((e', k'), tr) -> run_takes sp m sv ne ns (e_fields e) (e_fields e').
Proof.
  intros Hsp Hforget sv ne ns e e' k' tr Hs HS ds Hd. apply iter_of_solve in HS.
  assert (HI : exists e1 k1, iter_step sp (ne * ns) ({| e_fields := e_fields e; e_derived := ds |}, 0%nat) = Some (e1, k1) /\ e_fields e1 = e_fields e').
  { destruct (ne * ns)%nat as [|N]; cbn [iter_step] in HS |- *.
    - injection HS as <- _. eexists _, _. split; reflexivity.
    - rewrite Hsp in HS. rewrite Hsp. rewrite (Hforget _ {| e_fields := e_fields e; e_derived := ds |} e Hd Hs eq_refl). exists e', k'. split; [exact HS|reflexivity]. }
  destruct HI as (e1 & k1 & HI & E). destruct (solve_of_iter sp sv ne ns _ _ HI) as (tr' & HS'). exists e1, k1, tr'. split; assumption.
Qed.

(** Sizes along a run. *)
Lemma euler_fields_count p ft filt dt t : forall todo i e e', euler_fields p ft filt dt t todo i e = Some e' -> length (e_fields e') = length (e_fields e).
Proof.
  induction todo as [|todo IH]; intros i e e' H; cbn [euler_fields] in H; [injection H as <-; reflexivity|].
  destruct (nth_error (e_fields e) i) as [d|]; [|discriminate]. destruct (get_rhs p e i t (length d)); [|discriminate]. destruct (get_denum p e i t (length d)); [|discriminate].
  rewrite (IH _ _ _ H). cbn [set_field e_fields]. apply set_nth_length.
Qed.
Lemma finish_fields_count p ft filt dt t final : forall todo i e e', finish_fields p ft filt dt t todo i final e = Some e' -> length (e_fields e') = length (e_fields e).
Proof.
  induction todo as [|todo IH]; intros i e e' H; cbn [finish_fields] in H; [injection H as <-; reflexivity|].
  destruct (nth_error (e_fields e) i) as [d|]; [|discriminate]. destruct (nth_error final i); [|discriminate]. destruct (get_denum p e i t (length d)); [|discriminate].
  rewrite (IH _ _ _ H). cbn [set_field e_fields]. apply set_nth_length.
Qed.
Lemma sync_fields_same p e : e_fields (sync p e) = e_fields e.
Proof. unfold sync. generalize 0%nat. revert e. induction (p_calc p) as [|c cs IH]; intros e i; cbn [sync_from]; [reflexivity|]. rewrite IH. reflexivity. Qed.
Lemma euler_count p ft filt dt t e e' : euler_step p ft filt dt t e = Some e' -> length (e_fields e') = length (e_fields e).
Proof.
  intros E. unfold euler_step in E. destruct (euler_fields _ _ _ _ _ _ _ _) as [e3|] eqn:E3; [|discriminate]. injection E as <-. cbn [e_fields]. rewrite map_length.
  rewrite (euler_fields_count _ _ _ _ _ _ _ _ _ E3). cbn [e_fields]. rewrite map_length, sync_fields_same. reflexivity.
Qed.
Lemma rk4_count p ft filt dt t e e' : rk4_step p ft filt dt t e = Some e' -> length (e_fields e') = length (e_fields e).
Proof.
  intros E. unfold rk4_step in E. cbv zeta in E. destruct (rhs_all _ _ _ _ _) as [k1|]; [|discriminate].
  destruct (correction _ _ (1 / 2 * dt) _ k1 _) as [[e3 k2]|]; [|discriminate]. destruct (correction _ _ (1 / 2 * dt) _ k2 _) as [[e4 k3]|]; [|discriminate].
  destruct (correction _ _ (1 * dt) _ k3 _) as [[e5 k4]|]; [|discriminate]. destruct (finish_fields _ _ _ _ _ _ _ _ _) as [e6|] eqn:E6; [|discriminate]. injection E as <-.
  cbn [e_fields]. rewrite map_length, (finish_fields_count _ _ _ _ _ _ _ _ _ _ E6). cbn [with_fields e_fields]. rewrite map_length, sync_fields_same. reflexivity.
Qed.
Lemma iter_keeps (sp : stepper (env * nat)) m (step : R -> env -> option env) dt nxt :
  (forall e k, st_step sp (e, k) = match step (time_of dt k) e with Some e' => Some (e', nxt k) | None => None end) ->
  (forall t e e', slots m e -> step t e = Some e' -> slots m e' /\ length (e_fields e') = length (e_fields e)) ->
  forall N e k e' k', slots m e -> iter_step sp N (e, k) = Some (e', k') -> slots m e' /\ length (e_fields e') = length (e_fields e).
Proof.
  intros Hsp Hst. induction N as [|N IH]; intros e k e' k' Hs H; cbn [iter_step] in H; [injection H as <- _; split; [exact Hs|reflexivity]|].
  rewrite Hsp in H. destruct (step (time_of dt k) e) as [e1|] eqn:E1; [|discriminate]. destruct (Hst _ _ _ Hs E1) as [A B]. destruct (IH _ _ _ _ A H) as [A' B']. split; [exact A'|congruence].
Qed.
Lemma real_lengths dom fs : real_fields dom fs -> all_length (nodes dom) fs.
Proof. intros H. unfold all_length. apply Forall_forall. intros d Hd. unfold real_fields in H. rewrite Forall_forall in H. apply H, Hd. Qed.

(** Euler.  A run of [ne] epochs saves its fields; a new solver starts from
    what is loaded from the files of the last epoch and ends with [fs2].  Then one run with as many
    steps as the two together ends with [fs2].  Conditions: those under which
    real fields stay real (C97), and nothing depends on time (C99). *)
Theorem C102_continued_euler_partial : forall L cs es m, declared L cs es -> run_calls new_mstate (cs ++ [CInit]) = Ok m ->
  forall dom lib, valid_domain dom -> square_layout dom -> good_library L (nodes dom) lib ->
  real_library L cs es dom (length (pm_derived (ms_names m))) lib -> timeless lib ->
  forall filt dt, let sp := euler_stepper (simulation (nodes dom) (fftw_transform dom) lib m) (fftw_transform dom) filt dt in
  forall bits value prefix c sv ne ns e e' k' tr fs, fits L (nodes dom) m e -> real_fields dom (e_fields e) ->
  (forall x, float_bits (bits x)) -> NoDup (sv_callbacks sv) -> In c (sv_callbacks sv) -> (0 < ne)%nat ->
  solve sp sv ne ns (e, 0%nat) = Some ((e', k'), tr) ->
  (forall d z, In d (e_fields e') -> In z d -> value (bits (Re z)) = Re z) ->
  exists fs1, loaded value (l_fields L) prefix (sv_start sv + Z.of_nat ne - 1) (files_after bits (l_fields L) prefix c tr fs) = Some fs1
  /\ forall sv' sv'' ne' ns' ne'' ns'' fs2, (ne'' * ns'' = ne * ns + ne' * ns')%nat ->
     run_takes sp m sv' ne' ns' fs1 fs2 -> run_takes sp m sv'' ne'' ns'' (e_fields e) fs2.
Proof.
  intros L cs es m HD Em dom lib Hv Hs GL RL TL filt dt sp bits value prefix c sv ne ns e e' k' tr fs Hf HR Hb ND Hc Hne HS Hval.
  assert (HI := iter_of_solve _ _ _ _ _ _ _ HS). unfold sp in HI. rewrite euler_iter in HI.
  assert (HR' := C97_euler_partial L cs es m HD Em dom lib Hv Hs GL RL filt dt _ _ _ _ _ Hf HR HI).
  assert (Hk : slots m e' /\ length (e_fields e') = length (e_fields e)).
  { apply (iter_keeps sp m (fun t e => euler_step (simulation (nodes dom) (fftw_transform dom) lib m) (fftw_transform dom) filt dt t e) dt S) with (ne * ns)%nat 0%nat k'; [reflexivity| |exact (proj2 (proj2 Hf))|exact (iter_of_solve _ _ _ _ _ _ _ HS)].
    intros t e1 e2 H E. split; [exact (euler_slots (nodes dom) (fftw_transform dom) m lib filt dt t e1 e2 H E)|exact (euler_count _ _ _ _ _ _ _ E)]. }
  assert (Hf' : fits L (nodes dom) m e') by (split; [rewrite (proj2 Hk); apply Hf|split; [exact (real_lengths dom _ HR')|exact (proj1 Hk)]]).
  exists (e_fields e'). split.
  - apply (loaded_end L cs es (nodes dom) m HD bits value prefix c sp sv ne ns (e, 0%nat) (e', k') tr fs Hb ND Hc Hne HS Hf').
    intros d z Hd Hz. split; [|apply (Hval d z Hd Hz)]. unfold real_fields in HR'. rewrite Forall_forall in HR'. destruct (HR' d Hd) as [_ H]. unfold real_field in H. rewrite Forall_forall in H. apply H, Hz.
  - intros sv' sv'' ne' ns' ne'' ns'' fs2 HN H2.
    apply (C99_continued_euler_partial (nodes dom) (fftw_transform dom) lib m filt dt TL sv sv' sv'' ne ns ne' ns' ne'' ns'' (e_fields e) (e_fields e') fs2 HN); [|exact H2].
    apply (takes_of_solve sp m (fun t e => euler_step (simulation (nodes dom) (fftw_transform dom) lib m) (fftw_transform dom) filt dt t e) dt S) with k' tr; [reflexivity| |exact (proj2 (proj2 Hf))|exact HS].
    intros t e1 e2 H H' E. exact (euler_forgets (nodes dom) (fftw_transform dom) m lib filt dt t e1 e2 H H' E).
Qed.
Print Assumptions C102_continued_euler_partial.

(** RK4: also with terms and sources that depend on time, as in C99; implicit
    terms do not read fields. *)
Lemma frozen_real L cs es dom nd lib : real_library L cs es dom nd lib -> real_library L cs es dom nd (frozen 0 lib).
Proof.
  intros [H1 H2 H3 H4 H5 H6]. constructor; [exact H1|exact H2|exact H3| | |].
  - intros k name s E t Hk Hr HE. exact (H4 k name s E 0 Hk Hr HE).
  - intros name s E t Hr HE. exact (H5 name s E 0 Hr HE).
  - intros i s t Hs. exact (H6 i s 0 Hs).
Qed.
Theorem C102_continued_rk4_partial : forall L cs es m, declared L cs es -> run_calls new_mstate (cs ++ [CInit]) = Ok m ->
  forall dom lib, valid_domain dom -> square_layout dom -> good_library L (nodes dom) lib ->
  real_library L cs es dom (length (pm_derived (ms_names m))) lib -> field_independent cs lib ->
  forall filt dt, let sp := rk4_stepper (simulation (nodes dom) (fftw_transform dom) lib m) (fftw_transform dom) filt dt in
  forall bits value prefix c sv ne ns e e' k' tr fs, fits L (nodes dom) m e -> real_fields dom (e_fields e) ->
  (forall x, float_bits (bits x)) -> NoDup (sv_callbacks sv) -> In c (sv_callbacks sv) -> (0 < ne)%nat ->
  solve sp sv ne ns (e, 0%nat) = Some ((e', k'), tr) ->
  (forall d z, In d (e_fields e') -> In z d -> value (bits (Re z)) = Re z) ->
  exists fs1, loaded value (l_fields L) prefix (sv_start sv + Z.of_nat ne - 1) (files_after bits (l_fields L) prefix c tr fs) = Some fs1
  /\ forall sv' sv'' ne' ns' ne'' ns'' fs2, (ne'' * ns'' = ne * ns + ne' * ns')%nat ->
     run_takes sp m sv' ne' ns' fs1 fs2 -> run_takes sp m sv'' ne'' ns'' (e_fields e) fs2.
Proof.
  intros L cs es m HD Em dom lib Hv Hs GL RL FI filt dt sp bits value prefix c sv ne ns e e' k' tr fs Hf HR Hb ND Hc Hne HS Hval.
  assert (HI := iter_of_solve _ _ _ _ _ _ _ HS). unfold sp in HI. rewrite (rk4_iter_frozen _ _ _ _ _ _ _ _ 0%nat) in HI.
  replace (time_of dt 0) with 0 in HI by (unfold time_of; cbn [INR]; ring). destruct (rk4_propagate _ _ _ _ _ _ _) as [[e1 j]|] eqn:EP; [|discriminate]. injection HI as -> _.
  assert (HR' := C97_rk4_partial L cs es m HD Em dom (frozen 0 lib) Hv Hs (frozen_good _ _ _ GL) (frozen_real _ _ _ _ _ _ RL) (frozen_independent _ _ FI) filt dt _ _ _ _ _ Hf HR EP).
  assert (Hk : slots m e' /\ length (e_fields e') = length (e_fields e)).
  { apply (iter_keeps sp m (fun t e => rk4_step (simulation (nodes dom) (fftw_transform dom) lib m) (fftw_transform dom) filt dt t e) dt (fun k => k)) with (ne * ns)%nat 0%nat k'; [reflexivity| |exact (proj2 (proj2 Hf))|exact (iter_of_solve _ _ _ _ _ _ _ HS)].
    intros t e1 e2 H E. split; [exact (rk4_slots (nodes dom) (fftw_transform dom) m lib filt dt t e1 e2 H E)|exact (rk4_count _ _ _ _ _ _ _ E)]. }
  assert (Hf' : fits L (nodes dom) m e') by (split; [rewrite (proj2 Hk); apply Hf|split; [exact (real_lengths dom _ HR')|exact (proj1 Hk)]]).
  exists (e_fields e'). split.
  - apply (loaded_end L cs es (nodes dom) m HD bits value prefix c sp sv ne ns (e, 0%nat) (e', k') tr fs Hb ND Hc Hne HS Hf').
    intros d z Hd Hz. split; [|apply (Hval d z Hd Hz)]. unfold real_fields in HR'. rewrite Forall_forall in HR'. destruct (HR' d Hd) as [_ H]. unfold real_field in H. rewrite Forall_forall in H. apply H, Hz.
  - intros sv' sv'' ne' ns' ne'' ns'' fs2 HN H2.
    apply (C99_continued_rk4 (nodes dom) (fftw_transform dom) lib m filt dt sv sv' sv'' ne ns ne' ns' ne'' ns'' (e_fields e) (e_fields e') fs2 HN); [|exact H2].
    apply (takes_of_solve sp m (fun t e => rk4_step (simulation (nodes dom) (fftw_transform dom) lib m) (fftw_transform dom) filt dt t e) dt (fun k => k)) with k' tr; [reflexivity| |exact (proj2 (proj2 Hf))|exact HS].
    intros t e1 e2 H H' E. exact (rk4_forgets (nodes dom) (fftw_transform dom) m lib filt dt t e1 e2 H H' E).
Qed.
Print Assumptions C102_continued_rk4_partial.

(** Any finite set of values can be those that patterns stand for, so the
    conditions on [bits] and [value] are met for every single run. *)
Lemma bits_exist : forall vs : list R, (N.of_nat (length vs) < 2 ^ 64)%N ->
  exists bits value, (forall x, float_bits (bits x)) /\ forall x, In x vs -> value (bits x) = x.
Proof.
  intros vs Hl. assert (F : exists f : R -> nat, forall x, (f x <= length vs)%nat /\ (In x vs -> nth (f x) vs 0 = x /\ (f x < length vs)%nat)).
  { clear Hl. induction vs as [|v vs (f & Hf)]; [exists (fun _ => 0%nat); intros x; split; [reflexivity|intros []]|].
    exists (fun x => if Req_EM_T x v then 0%nat else S (f x)). intros x. destruct (Req_EM_T x v) as [->|Hne].
    - split; [cbn; lia|]. intros _. split; [reflexivity|cbn; lia].
    - destruct (Hf x) as [A B]. split; [cbn [length]; lia|]. intros [->|Hin]; [contradiction|]. destruct (B Hin) as [B1 B2]. cbn [nth length]. split; [exact B1|lia]. }
  destruct F as (f & Hf). exists (fun x => if (f x <? length vs)%nat then N.of_nat (f x) else 0%N), (fun b => nth (N.to_nat b) vs 0). split.
  - intros x. unfold float_bits. destruct (Nat.ltb_spec (f x) (length vs)); [lia|reflexivity].
  - intros x Hx. destruct (Hf x) as [_ B]. destruct (B Hx) as [B1 B2]. apply Nat.ltb_lt in B2. rewrite B2, Nat2N.id. exact B1.
Qed.

(** Fields that are not real are not saved completely.  A run that starts with a
    real field (the square root of -1 appears in its equation) and whose files
    do not hold its last field, whatever the patterns. *)
Theorem C102_imaginary_parts_refuted : exists L cs es m dom lib e e' k' tr sv, declared L cs es /\ run_calls new_mstate (cs ++ [CInit]) = Ok m
  /\ valid_domain dom /\ square_layout dom /\ good_library L (nodes dom) lib /\ fits L (nodes dom) m e /\ real_fields dom (e_fields e)
  /\ sv_callbacks sv = [0%nat]
  /\ solve (euler_stepper (simulation (nodes dom) (fftw_transform dom) lib m) (fftw_transform dom) None 1) sv 1 1 (e, 0%nat) = Some ((e', k'), tr)
  /\ forall bits value prefix fs, (forall x, float_bits (bits x)) ->
     exists fs1, loaded value (l_fields L) prefix (sv_start sv + Z.of_nat 1 - 1) (files_after bits (l_fields L) prefix 0 tr fs) = Some fs1 /\ fs1 <> e_fields e'.
Proof.
  destruct C97_fractional_power_refuted as (L & cs & es & m & dom & lib & e & e' & HD & Em & Hv & Hs & GL & _ & Hf & HR & E & Hf' & HN).
  set (sv := {| sv_terms := []; sv_callbacks := [0%nat]; sv_monitors := []; sv_start := 0%Z |}).
  assert (HI : iter_step (euler_stepper (simulation (nodes dom) (fftw_transform dom) lib m) (fftw_transform dom) None 1) (1 * 1) (e, 0%nat) = Some (e', 1%nat)).
  { cbn [Nat.mul Nat.add iter_step st_step euler_stepper fst snd]. replace (time_of 1 0) with 0 by (unfold time_of; cbn [INR]; ring). rewrite E. reflexivity. }
  destruct (solve_of_iter _ sv 1 1 _ _ HI) as (tr & HS).
  exists L, cs, es, m, dom, lib, e, e', 1%nat, tr, sv. do 7 (split; [assumption|]). split; [reflexivity|]. split; [exact HS|].
  intros bits value prefix fs Hb.
  destruct (C102_files L cs es HD bits prefix 0 _ sv 1 1 _ _ tr fs Hb ltac:(repeat constructor; intros []) (or_introl eq_refl) HS) as (h & _ & Hn & _ & HF & _).
  exists (map (map (fun z => RtoC (value (bits (Re z))))) (e_fields e')). split.
  - apply loaded_back.
    + apply Hf'.
    + intros i name d Hi Hd. apply (HF 0%nat i name d ltac:(lia) Hi). cbn [Nat.add Nat.mul] in Hn |- *. rewrite Hn. exact Hd.
  - intros EQ. apply HN. rewrite <- EQ. unfold real_fields. apply Forall_forall. intros d Hd. apply in_map_iff in Hd. destruct Hd as (d0 & <- & Hd0). rewrite map_length. split.
    + destruct Hf' as (_ & Ha & _). unfold all_length in Ha. rewrite Forall_forall in Ha. apply Ha, Hd0.
    + apply Forall_forall. intros z Hz. apply in_map_iff in Hz. destruct Hz as (w & <- & _). reflexivity.
Qed.
Print Assumptions C102_imaginary_parts_refuted.

(** Allen-Cahn: for every real starting field there is a run of three epochs of
    two steps and patterns for its values that meet the conditions. *)
Example C102_nonvacuous : forall dom f dt, valid_domain dom -> square_layout dom -> (N.of_nat (nodes dom) < 2 ^ 64)%N -> length f = nodes dom -> real_field f ->
  let lib := no_library (nodes dom) principal_power in
  let sp := euler_stepper (simulation (nodes dom) (fftw_transform dom) lib ac_state) (fftw_transform dom) None dt in
  let sv := {| sv_terms := []; sv_callbacks := [5%nat; 2%nat]; sv_monitors := []; sv_start := 4%Z |} in
  let e := {| e_fields := [f]; e_derived := repeat [] (length (pm_derived (ms_names ac_state))) |} in
  declared La ac_calls ac_eqs /\ good_library La (nodes dom) lib /\ real_library La ac_calls ac_eqs dom (length (pm_derived (ms_names ac_state))) lib /\ timeless lib
  /\ fits La (nodes dom) ac_state e /\ real_fields dom (e_fields e)
  /\ exists e' k' tr bits value, solve sp sv 3 2 (e, 0%nat) = Some ((e', k'), tr) /\ (forall x, float_bits (bits x))
     /\ forall d z, In d (e_fields e') -> In z d -> value (bits (Re z)) = Re z.
Proof.
  intros dom f dt Hv Hs Hn Hl Hr lib sp sv e.
  assert (GL : good_library La (nodes dom) lib) by exact (no_library_good La (nodes dom) principal_power eq_refl).
  assert (Hf : fits La (nodes dom) ac_state e) by (split; [reflexivity|split; [repeat constructor; exact Hl|apply repeat_length]]).
  split; [exact ac_declared|]. split; [exact GL|].
  assert (RL : real_library La ac_calls ac_eqs dom (length (pm_derived (ms_names ac_state))) lib).
  { destruct (C97_whole_exponents La ac_calls ac_eqs dom (length (pm_derived (ms_names ac_state))) (no_library (nodes dom) principal_power) ac_declared eq_refl eq_refl)
      as [RL _]; [intros i; reflexivity|exact GL|reflexivity|intros s []| |exact RL].
    intros q t s w [<-|[]] Ht Hw. cbn in Ht. destruct Ht as [Ht|[Ht|[]]]; injection Ht as <- _; destruct Hw as [<-|[]]; reflexivity || exact I. }
  assert (HR : real_fields dom (e_fields e)) by (repeat constructor; assumption).
  split; [exact RL|]. split; [constructor; reflexivity|]. split; [exact Hf|]. split; [exact HR|].
  destruct (C99_runs_complete La ac_calls ac_eqs ac_state ac_declared ac_run (nodes dom) (fftw_transform dom) lib GL (fftw_good dom Hv) eq_refl None dt [f] eq_refl (proj1 (proj2 Hf)) sp (or_introl eq_refl) sv 3%nat 2%nat) as (fs' & H).
  destruct (H (e_derived e) (repeat_length _ _)) as (e' & k' & tr & HS & _). change (solve sp sv 3 2 (e, 0%nat) = Some ((e', k'), tr)) in HS.
  assert (Hk : slots ac_state e' /\ length (e_fields e') = length (e_fields e)).
  { apply (iter_keeps sp ac_state (fun t e => euler_step (simulation (nodes dom) (fftw_transform dom) lib ac_state) (fftw_transform dom) None dt t e) dt S) with (3 * 2)%nat 0%nat k'; [reflexivity| |exact (proj2 (proj2 Hf))|exact (iter_of_solve _ _ _ _ _ _ _ HS)].
    intros t e1 e2 H1 E. split; [exact (euler_slots (nodes dom) (fftw_transform dom) ac_state lib None dt t e1 e2 H1 E)|exact (euler_count _ _ _ _ _ _ _ E)]. }
  destruct (bits_exist (map Re (firstn (nodes dom) (concat (e_fields e'))))) as (bits & value & Hb & Hval).
  { rewrite map_length. pose proof (firstn_le_length (nodes dom) (concat (e_fields e'))). lia. }
  exists e', k', tr, bits, value. split; [exact HS|]. split; [exact Hb|]. intros d z Hd Hz. apply Hval. apply in_map.
  destruct (e_fields e') as [|d0 [|d1 r]] eqn:Ee; [destruct Hd| |destruct Hk as [_ Hk]; cbn in Hk; discriminate]. destruct Hd as [->|[]].
  cbn [concat]. rewrite app_nil_r. rewrite firstn_all2; [exact Hz|].
  assert (HI := iter_of_solve _ _ _ _ _ _ _ HS). unfold sp in HI. rewrite euler_iter in HI.
  assert (HR' := C97_euler_partial La ac_calls ac_eqs ac_state ac_declared ac_run dom lib Hv Hs GL RL None dt _ _ _ _ _ Hf HR HI).
  rewrite Ee in HR'. unfold real_fields in HR'. inversion HR' as [|? ? [Hd _] _]; subst. rewrite Hd. reflexivity.
Qed.
