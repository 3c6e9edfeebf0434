(** Properties C21 and C25 (and the time part of C23). *)
From Verif Require Import ListAux SolverModel SolverSpec StepProofs ConserveProofs SolverProofs StepProps ParseSpec ParseProps.
Open Scope R_scope.

(** C21. When the equations are added in the order of their fields, every
    field is advanced by the equation whose left-hand side names it. *)
Theorem C21_own_equation_same_order_partial :
  forall (names : list str) (rhs : list str) (p : pde) (ft : transform) (filt : option (R -> R)) (dt t : R) (e : env),
  let eqs := map (fun e => equation (fst e) (snd e)) (combine names rhs) in
  NoDup names -> Forall dt_free names -> length rhs = length names ->
  length (e_fields e) = length names -> length (p_eqns p) = length names ->
  exists e' Y', euler_step p ft filt dt t e = Some e' /\ e_fields e' = map (to_real ft) Y' /\
    advanced_by_own_equation names eqs p ft filt dt t (spectrum p ft e) Y'.
Proof.
  intros names rhs p ft filt dt t e eqs ND DF Hr He Hp.
  destruct (euler_step_sequential p ft filt dt t e) as (e' & Y' & E & F & L & N); [lia|].
  exists e', Y'. split; [exact E|]. split; [exact F|].
  intros i name y j Hn Hy Hj. cbn zeta.
  assert (Hc : Forall (fun x => dt_free (fst x)) (combine names rhs)).
  { apply Forall_forall. intros [a b] Hin. apply in_combine_l in Hin. rewrite Forall_forall in DF. apply DF. exact Hin. }
  pose proof (C17_eq_number_finds_equation (combine names rhs) name Hc) as Q. fold eqs in Q. rewrite Hj in Q.
  destruct Q as (k & Hk & Q & _). apply Nat2Z.inj in Hk. subst k.
  assert (Hnj : nth_error names j = Some name).
  { clear - Q Hr. revert rhs j Hr Q. induction names as [|x names IH]; intros [|y rhs] [|j] Hr Q; cbn in *; try discriminate.
    - exact Q.
    - apply (IH rhs); [lia|exact Q]. }
  assert (i = j).
  { apply (NoDup_nth_error names); auto; [|congruence]. apply nth_error_Some. congruence. }
  subst j. exact (N i y Hy).
Qed.
Print Assumptions C21_own_equation_same_order_partial.

(** x' = x + 1 placed second, y' = 0 placed first. *)
Definition pde_swapped : pde := {|
  p_calc := [];
  p_eqns := [{| q_terms := [const_term C0]; q_denum := []; q_sources := [] |};
             {| q_terms := [const_term C1]; q_denum := []; q_sources := [] |}];
  p_mods := [] |}.

(** When the equations are added in another order, fields are advanced by the
    equations of other fields. *)
Theorem C21_other_order_refuted :
  exists (names eqs : list str) (p : pde) (ft : transform) (e e' : env) (Y' : list data),
    NoDup names /\ (forall name, In name names -> exists j, eq_number eqs name = Ok (Z.of_nat j)) /\
    length (p_eqns p) = length eqs /\ length (e_fields e) = length names /\
    euler_step p ft None 1 0 e = Some e' /\ e_fields e' = map (to_real ft) Y' /\
    ~ advanced_by_own_equation names eqs p ft None 1 0 (spectrum p ft e) Y'.
Proof.
  exists [("eta"%string : str); ("rho"%string : str)],
    [equation ("rho"%string : str) ("0"%string : str); equation ("eta"%string : str) ("1"%string : str)], pde_swapped, ft1.
  exists {| e_fields := [[C0]; [C0]]; e_derived := [] |}. eexists _, _.
  split. { repeat constructor; cbn; intuition discriminate. }
  split. { intros name [<-|[<-|[]]]; [exists 1%nat|exists 0%nat]; reflexivity. }
  split; [reflexivity|]. split; [reflexivity|]. split; [reflexivity|]. split; [reflexivity|].
  intros H. destruct (H 0%nat ("eta"%string : str) [C0] 1%nat eq_refl eq_refl eq_refl) as (r & a & Hr & Ha & Hy).
  cbn in Hr, Ha. injection Hr as <-. injection Ha as <-. cbn [nth_error] in Hy.
  apply (f_equal (fun o => match o with Some (z :: _) => Re z | _ => 0 end)) in Hy.
  change (Re (semi_implicit 1 C0 (Cadd C0 C0) C0) = Re (semi_implicit 1 C0 (Cadd C0 C1) C0)) in Hy.
  unfold semi_implicit in Hy. rewrite !Cdiv_one in Hy. cbn in Hy. lra.
Qed.
Print Assumptions C21_other_order_refuted.

Example C21_nonvacuous :
  let names := [("eta"%string : str); ("rho"%string : str)] in
  let eqs := map (fun e => equation (fst e) (snd e)) (combine names [("1"%string : str); ("0"%string : str)]) in
  NoDup names /\ eq_number eqs ("rho"%string : str) = Ok 1%Z.
Proof. split; [repeat constructor; cbn; intuition discriminate|reflexivity]. Qed.

(** C25. A run of Solve is: nepochs*nsteps steps; after every step each
    registered term is told the new time; after the nsteps steps of epoch k
    every callback is called once, in order, with number StartEpoch + k, and
    then every monitor; nothing else. *)
Theorem C25_run_of_solve :
  forall (S : Type) (sp : stepper S) (sv : solver) (nepochs nsteps : nat) (s s' : S) (tr : list (event S)),
  solve sp sv nepochs nsteps s = Some (s', tr) <->
  exists hist, hist 0%nat = s /\ hist (nepochs * nsteps)%nat = s' /\ history sp hist (nepochs * nsteps) /\
    tr = run_trace sp sv hist nepochs nsteps.
Proof. exact @solve_some. Qed.
Print Assumptions C25_run_of_solve.

Theorem C25_euler_time_partial : forall p ft filt dt sv nepochs nsteps s s' tr,
  solve (euler_stepper p ft filt dt) sv nepochs nsteps s = Some (s', tr) ->
  st_time (euler_stepper p ft filt dt) s' = st_time (euler_stepper p ft filt dt) s + INR (nepochs * nsteps) * dt.
Proof. exact euler_solve_time. Qed.
Print Assumptions C25_euler_time_partial.

(** With the RK4 stepper the time never moves. *)
Theorem C25_rk4_time_refuted : forall p ft filt dt sv nepochs nsteps s s' tr,
  solve (rk4_stepper p ft filt dt) sv nepochs nsteps s = Some (s', tr) ->
  st_time (rk4_stepper p ft filt dt) s' = st_time (rk4_stepper p ft filt dt) s.
Proof. exact rk4_solve_time. Qed.
Print Assumptions C25_rk4_time_refuted.

(** Propagate of the solver does the same steps as Propagate of the stepper. *)
Theorem C25_solver_runs_euler : forall p ft filt dt sv nsteps e k,
  option_map fst (solver_propagate (euler_stepper p ft filt dt) sv nsteps (e, k)) = euler_propagate p ft filt dt nsteps k e.
Proof. exact solver_euler_propagate. Qed.
Print Assumptions C25_solver_runs_euler.

(** Consecutive calls reach the state of one long call ... *)
Theorem C25_consecutive_state :
  forall (S : Type) (sp : stepper S) (sv : solver) (ne1 ne2 nsteps : nat) (s s1 s2 : S) tr1 tr2,
  solve sp sv ne1 nsteps s = Some (s1, tr1) -> solve sp sv ne2 nsteps s1 = Some (s2, tr2) ->
  exists tr, solve sp sv (ne1 + ne2) nsteps s = Some (s2, tr).
Proof. exact @solve_consecutive. Qed.
Print Assumptions C25_consecutive_state.

(** ... but the epoch numbers handed to the callbacks start again, so files
    named after the epoch are overwritten. *)
Theorem C25_consecutive_epochs_refuted :
  exists (sp : stepper nat) (sv : solver) s1 s2 tr1 tr2 tr,
    solve sp sv 1 1 0%nat = Some (s1, tr1) /\ solve sp sv 1 1 s1 = Some (s2, tr2) /\
    solve sp sv 2 1 0%nat = Some (s2, tr) /\ tr1 ++ tr2 <> tr.
Proof.
  exists {| st_step := fun k => Some (S k); st_time := INR |}.
  exists {| sv_terms := []; sv_callbacks := [0%nat]; sv_monitors := []; sv_start := 0%Z |}.
  do 5 eexists. split; [reflexivity|]. split; [reflexivity|]. split; [reflexivity|]. discriminate.
Qed.
Print Assumptions C25_consecutive_epochs_refuted.

(** A point monitor holds one value per epoch: the real part of the brick at
    its site after the steps of that epoch. *)
Theorem C25_point_monitor :
  forall (S : Type) (sp : stepper S) (sv : solver) (nepochs nsteps : nat) (s s' : S) tr (brick : S -> nat -> C) site m d,
  NoDup (sv_monitors sv) -> In m (sv_monitors sv) ->
  solve sp sv nepochs nsteps s = Some (s', tr) ->
  exists hist, hist 0%nat = s /\ history sp hist (nepochs * nsteps) /\
    point_monitor_run brick site m tr d = d ++ map (fun k => Re (brick (hist ((k + 1) * nsteps)%nat) site)) (seq 0 nepochs).
Proof. exact @point_monitor_data. Qed.
Print Assumptions C25_point_monitor.

Example C25_nonvacuous :
  let sp := {| st_step := fun k => Some (S k); st_time := INR |} in
  let sv := {| sv_terms := [4%nat]; sv_callbacks := [0%nat; 1%nat]; sv_monitors := [2%nat]; sv_start := 5%Z |} in
  solve sp sv 2 3 0%nat = Some (6%nat, run_trace sp sv (fun k => k) 2 3) /\ length (run_trace sp sv (fun k => k) 2 3) = 12%nat.
Proof. split; reflexivity. Qed.

(** C23, time: through the solver the RK4 stepper does not advance the time. *)
Theorem C23_solver_time_refuted :
  exists p ft dt sv s s' tr, solve (rk4_stepper p ft None dt) sv 1 1 s = Some (s', tr) /\
    st_time (rk4_stepper p ft None dt) s' <> st_time (rk4_stepper p ft None dt) s + INR (1 * 1) * dt.
Proof.
  exists pde2, ft2, 1, {| sv_terms := []; sv_callbacks := []; sv_monitors := []; sv_start := 0%Z |}, (env2, 0%nat).
  destruct (rk4_step_scheme 2 pde2 ft2 None 1 (time_of 1 0) ft2_good pde2_lengths pde2_denum pde2_derived env2) as
    (? & ? & ? & ? & ? & ? & ? & e' & _ & _ & _ & _ & _ & _ & _ & E & _); [repeat constructor|cbn; lia|reflexivity|].
  exists (e', 0%nat), []. split.
  - unfold solve. cbn [solve_from solver_propagate st_step rk4_stepper fst snd]. rewrite E. reflexivity.
  - cbn. unfold time_of. cbn. lra.
Qed.
Print Assumptions C23_solver_time_refuted.
