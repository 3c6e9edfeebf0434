(** Property C101: what monitors record. *)
From Verif Require Import ListAux FileModel ParseProofs StepProofs ConserveProofs EquationProps RegistryProps SimProps.
From Verif Require Import SimProofs SimProofs2 SimProofs3 LinearProps SolverSpec SolverProofs ResumeProofs ResumeSpec ResumeProps WatchProofs WatchProofs2 SimSpec WatchModel WatchSpec.
From Coq Require Import Reals Permutation Lia Lra.
From Verif Require Import Complex.
Open Scope R_scope.

(** A new monitor on a field holds, after a run of Solve with any stepper, one
    value for each epoch: the real part of the field at its site after the
    steps of this epoch. *)
Theorem C101_field : forall L cs es m, declared L cs es -> run_calls new_mstate (cs ++ [CInit]) = Ok m ->
  forall lib (sp : stepper (env * nat)) sv ne ns s s' tr, NoDup (sv_monitors sv) ->
  solve sp sv ne ns s = Some (s', tr) ->
  exists hist, hist 0%nat = s /\ hist (ne * ns)%nat = s' /\ history sp hist (ne * ns)
  /\ forall site name k i, In k (sv_monitors sv) -> nth_error (l_fields L) i = Some name ->
     monitored lib m (new_point_monitor site name) k tr
     = map (fun q => Re (nth site (nth i (e_fields (fst (hist ((q + 1) * ns)%nat))) []) C0)) (seq 0 ne).
Proof.
  intros L cs es m HD Em lib sp sv ne ns s s' tr ND HS. destruct (watch_field L cs es m HD Em lib sp sv ne ns s s' tr ND HS) as (h & H0 & Hn & Hh & H).
  exists h. split; [exact H0|]. split; [exact Hn|]. split; [exact Hh|]. intros site name k i Hk Hi. exact (H (new_point_monitor site name) k i Hk Hi).
Qed.
Print Assumptions C101_field.

(** On a registered function it holds something else with Euler: the real part
    of a Fourier amplitude, the one with the number of the site, of the function
    calculated before the last step of the epoch. *)
Theorem C101_function_partial : forall L cs es m, declared L cs es -> run_calls new_mstate (cs ++ [CInit]) = Ok m ->
  forall n ft lib filt dt sv ne ns e k0 s' tr, let sp := euler_stepper (simulation n ft lib m) ft filt dt in
  NoDup (sv_monitors sv) -> (0 < ns)%nat -> fits L n m e ->
  solve sp sv ne ns (e, k0) = Some (s', tr) ->
  exists hist, hist 0%nat = (e, k0) /\ hist (ne * ns)%nat = s' /\ history sp hist (ne * ns)
  /\ forall site name k c, In k (sv_monitors sv) -> In name (l_functions L) -> lb_calc lib name = Some c ->
     monitored lib m (new_point_monitor site name) k tr
     = map (fun q => Re (nth site (fft ft (c (e_fields (fst (hist ((q + 1) * ns - 1)%nat))))) C0)) (seq 0 ne).
Proof.
  intros L cs es m HD Em n ft lib filt dt sv ne ns e k0 s' tr sp ND Hns Hf HS.
  destruct (watch_function L cs es m HD Em n ft lib filt dt sv ne ns e k0 s' tr ND Hns (proj2 (proj2 Hf)) HS) as (h & H0 & Hn & Hh & H).
  exists h. split; [exact H0|]. split; [exact Hn|]. split; [exact Hh|]. intros site name k c Hk Hi Hc. exact (H (new_point_monitor site name) k c Hk Hi Hc).
Qed.
Print Assumptions C101_function_partial.

(** With RK4 it holds the real part of a Fourier amplitude of the function at
    the fields that the last stage of the last step of the epoch predicted. *)
Theorem C101_function_rk4_partial : forall L cs es m, declared L cs es -> run_calls new_mstate (cs ++ [CInit]) = Ok m ->
  forall n ft lib, good_transform n ft -> good_library L n lib -> field_independent cs lib -> map q_field es = l_fields L ->
  forall filt dt sv ne ns e k0 s' tr, let p := simulation n ft lib m in let sp := rk4_stepper p ft filt dt in
  NoDup (sv_monitors sv) -> (0 < ns)%nat -> fits L n m e ->
  solve sp sv ne ns (e, k0) = Some (s', tr) ->
  exists hist P, hist 0%nat = (e, k0) /\ hist (ne * ns)%nat = s' /\ history sp hist (ne * ns)
  /\ (forall j, (j < ne * ns)%nat -> predicted p ft dt (time_of dt (snd (hist j))) (fst (hist j)) (P j))
  /\ forall site name k c, In k (sv_monitors sv) -> In name (l_functions L) -> lb_calc lib name = Some c ->
     monitored lib m (new_point_monitor site name) k tr
     = map (fun q => Re (nth site (fft ft (c (P ((q + 1) * ns - 1)%nat))) C0)) (seq 0 ne).
Proof.
  intros L cs es m HD Em n ft lib GT GL FI HO filt dt sv ne ns e k0 s' tr p sp ND Hns Hf HS.
  destruct (watch_function_rk4 L cs es m HD Em n ft lib GT GL FI HO filt dt sv ne ns e k0 s' tr ND Hns Hf HS) as (h & P & H0 & Hn & Hh & HP & H).
  exists h, P. split; [exact H0|]. split; [exact Hn|]. split; [exact Hh|]. split; [exact HP|]. intros site name k c Hk Hi Hc. exact (H (new_point_monitor site name) k c Hk Hi Hc).
Qed.
Print Assumptions C101_function_rk4_partial.

(** *** dconc/dt = load with a registered function *)
Definition Lo : lang :=
  {| l_fields := [lit "conc"]; l_functions := [lit "load"]; l_scalars := []; l_implicit := []; l_explicit := []; l_mixed := [] |}.
Definition load_calls : list call := [CField (lit "conc"); CFunction (lit "load"); CEquation (lit "dconc/dt = load")].
Definition load_eqs : list eqtext :=
  [{| q_field := lit "conc"; q_lead := None; q_first := IProduct [plainw "load" None]; q_more := [] |}].
Definition load_state : mstate := match run_calls new_mstate (load_calls ++ [CInit]) with Ok m => m | _ => new_mstate end.
Definition load_library : library := {|
  lb_pow := fun z _ => z; lb_scalar := fun _ => C0; lb_calc := fun s => if str_eqb s (lit "load") then Some (fun _ => [C1; C1]) else None;
  lb_pure := fun _ _ _ => [C0; C0]; lb_linear := fun _ _ _ => [C0; C0]; lb_nonlinear := fun _ _ _ => [C0; C0]; lb_source := fun _ _ => [C0; C0] |}.
Lemma load_run : run_calls new_mstate (load_calls ++ [CInit]) = Ok load_state.
Proof. vm_compute. reflexivity. Qed.
Lemma load_declared : declared Lo load_calls load_eqs.
Proof.
  constructor.
  - good_language.
  - split; [reflexivity|]. intros n. cbn. tauto.
  - exists (firstn 1 load_calls), (skipn 1 load_calls). split; [reflexivity|]. split; [|split].
    + intros c H. cbn in H. repeat (destruct H as [<-|H]; [exact (fun x => x)|]). destruct H.
    + intros c H. cbn in H. repeat (destruct H as [<-|H]; [exact (fun x => x)|]). destruct H.
    + discriminate.
  - intros b a eq s E. unfold load_calls in E.
    do 3 (destruct b as [|? b]; [discriminate E|injection E as <- E]). destruct b; discriminate E.
  - cbn. intuition discriminate.
  - intros k name t ds H. cbn in H. intuition discriminate.
  - constructor; [reflexivity|constructor].
  - constructor; [|constructor]. split; [cbn; auto|]. split; [discriminate|]. split; [|constructor].
    split; [exists [], [plainw "load" None], []; good_prod|vm_compute; intuition discriminate].
Qed.
Lemma load_good : good_library Lo 2 load_library.
Proof.
  constructor.
  - intros name. cbn [load_library lb_calc Lo l_functions]. split.
    + intros [<-|[]]. rewrite ParseProofs.str_eqb_refl. eauto.
    + intros (c & E). destruct (str_eqb name (lit "load")) eqn:H; [|discriminate]. apply str_eqb_eq in H. left. congruence.
  - intros name c fs E. cbn [load_library lb_calc] in E. destruct (str_eqb name (lit "load")); [|discriminate]. injection E as <-. reflexivity.
  - reflexivity.
Qed.
Lemma load_completes filt dt sv ne ns e k0 : k0 = 0%nat -> fits Lo 2 load_state e ->
  exists s' tr, solve (euler_stepper (simulation 2 ft2 load_library load_state) ft2 filt dt) sv ne ns (e, k0) = Some (s', tr).
Proof.
  intros -> (H1 & H2 & H3).
  destruct (C99_runs_complete Lo load_calls load_eqs load_state load_declared load_run 2 ft2 load_library load_good ft2_good eq_refl filt dt (e_fields e) H1 H2
    _ (or_introl eq_refl) sv ne ns) as (fs' & H).
  destruct (H (e_derived e) H3) as (e' & k & tr & HS & _). destruct e as [fs ds]. cbn [e_fields e_derived] in HS. eauto.
Qed.

(** The function is 1 at every node at all times; every monitor on it at node 1
    holds zeros. *)
Theorem C101_function_refuted : exists L cs es m n ft lib name c site,
  declared L cs es /\ run_calls new_mstate (cs ++ [CInit]) = Ok m /\ good_library L n lib /\ good_transform n ft
  /\ In name (l_functions L) /\ lb_calc lib name = Some c /\ (site < n)%nat /\ (forall fs, Re (nth site (c fs) C0) = 1)
  /\ forall filt dt sv ne ns e k, NoDup (sv_monitors sv) -> In k (sv_monitors sv) -> (0 < ns)%nat -> fits L n m e ->
     exists s' tr, solve (euler_stepper (simulation n ft lib m) ft filt dt) sv ne ns (e, 0%nat) = Some (s', tr)
     /\ monitored lib m (new_point_monitor site name) k tr = repeat 0 ne.
Proof.
  exists Lo, load_calls, load_eqs, load_state, 2%nat, ft2, load_library, (lit "load"), (fun _ => [C1; C1]), 1%nat.
  split; [exact load_declared|]. split; [exact load_run|]. split; [exact load_good|]. split; [exact ft2_good|]. split; [left; reflexivity|].
  split; [reflexivity|]. split; [lia|]. split; [reflexivity|].
  intros filt dt sv ne ns e k ND Hk Hns Hf. destruct (load_completes filt dt sv ne ns e 0 eq_refl Hf) as (s' & tr & HS). exists s', tr. split; [exact HS|].
  destruct (C101_function_partial Lo load_calls load_eqs load_state load_declared load_run 2 ft2 load_library filt dt sv ne ns e 0 s' tr ND Hns Hf HS) as (h & _ & _ & _ & H).
  rewrite (H 1%nat (lit "load") k (fun _ => [C1; C1]) Hk (or_introl eq_refl) eq_refl). rewrite <- (seq_length ne 0) at 2. generalize (seq 0 ne). clear.
  induction l as [|x l IH]; cbn [map length repeat]; [reflexivity|]. rewrite IH. f_equal. cbn. ring.
Qed.
Print Assumptions C101_function_refuted.

Lemma load_independent : field_independent load_calls load_library.
Proof. split; intros; reflexivity. Qed.
(** The same with RK4. *)
Theorem C101_function_rk4_refuted : exists L cs es m n ft lib name c site,
  declared L cs es /\ run_calls new_mstate (cs ++ [CInit]) = Ok m /\ good_library L n lib /\ good_transform n ft
  /\ In name (l_functions L) /\ lb_calc lib name = Some c /\ (site < n)%nat /\ (forall fs, Re (nth site (c fs) C0) = 1)
  /\ forall filt dt sv ne ns e k, NoDup (sv_monitors sv) -> In k (sv_monitors sv) -> (0 < ns)%nat -> fits L n m e ->
     exists s' tr, solve (rk4_stepper (simulation n ft lib m) ft filt dt) sv ne ns (e, 0%nat) = Some (s', tr)
     /\ monitored lib m (new_point_monitor site name) k tr = repeat 0 ne.
Proof.
  exists Lo, load_calls, load_eqs, load_state, 2%nat, ft2, load_library, (lit "load"), (fun _ => [C1; C1]), 1%nat.
  split; [exact load_declared|]. split; [exact load_run|]. split; [exact load_good|]. split; [exact ft2_good|]. split; [left; reflexivity|].
  split; [reflexivity|]. split; [lia|]. split; [reflexivity|].
  intros filt dt sv ne ns e k ND Hk Hns Hf.
  assert (HS : exists s' tr, solve (rk4_stepper (simulation 2 ft2 load_library load_state) ft2 filt dt) sv ne ns (e, 0%nat) = Some (s', tr)).
  { destruct Hf as (H1 & H2 & H3).
    destruct (C99_runs_complete Lo load_calls load_eqs load_state load_declared load_run 2 ft2 load_library load_good ft2_good eq_refl filt dt (e_fields e) H1 H2
      _ (or_intror (conj eq_refl load_independent)) sv ne ns) as (fs' & H).
    destruct (H (e_derived e) H3) as (e' & k1 & tr & HS & _). destruct e as [fs ds]. cbn [e_fields e_derived] in HS. eauto. }
  destruct HS as (s' & tr & HS). exists s', tr. split; [exact HS|].
  destruct (C101_function_rk4_partial Lo load_calls load_eqs load_state load_declared load_run 2 ft2 load_library ft2_good load_good load_independent eq_refl filt dt sv ne ns e 0 s' tr ND Hns Hf HS) as (h & P & _ & _ & _ & _ & H).
  rewrite (H 1%nat (lit "load") k (fun _ => [C1; C1]) Hk (or_introl eq_refl) eq_refl). rewrite <- (seq_length ne 0) at 2. generalize (seq 0 ne). clear.
  induction l as [|x l IH]; cbn [map length repeat]; [reflexivity|]. rewrite IH. f_equal. cbn. ring.
Qed.
Print Assumptions C101_function_rk4_refuted.

Example C101_nonvacuous : forall dt e, fits Lo 2 load_state e ->
  let sv := {| sv_terms := []; sv_callbacks := []; sv_monitors := [0%nat; 1%nat]; sv_start := 0%Z |} in
  declared Lo load_calls load_eqs /\ run_calls new_mstate (load_calls ++ [CInit]) = Ok load_state /\ NoDup (sv_monitors sv)
  /\ good_transform 2 ft2 /\ good_library Lo 2 load_library /\ field_independent load_calls load_library /\ map q_field load_eqs = l_fields Lo
  /\ fits Lo 2 load_state {| e_fields := [[C1; C0]]; e_derived := [[]] |}
  /\ exists s' tr, solve (euler_stepper (simulation 2 ft2 load_library load_state) ft2 None dt) sv 3 2 (e, 0%nat) = Some (s', tr).
Proof.
  intros dt e Hf sv. split; [exact load_declared|]. split; [exact load_run|]. split; [repeat constructor; cbn; intuition discriminate|].
  split; [exact ft2_good|]. split; [exact load_good|]. split; [exact load_independent|]. split; [reflexivity|].
  split; [split; [reflexivity|split; [repeat constructor|reflexivity]]|]. apply load_completes; [reflexivity|exact Hf].
Qed.
