(** Vocabulary for the statements about solver runs and equation order. *)
From Verif Require Export SolverModel ParseModel.

(** A possible history of states under a stepper. *)
Definition history {S} (sp : stepper S) (hist : nat -> S) (n : nat) : Prop :=
  forall k, (k < n)%nat -> st_step sp (hist k) = Some (hist (Datatypes.S k)).

(** What user code must see in [nepochs] epochs of [nsteps] steps. *)
Definition epoch_trace {S} (sp : stepper S) (sv : solver) (hist : nat -> S) (nsteps : nat) (epoch : Z) (k : nat) : list (event S) :=
  flat_map (fun j => let s := hist (k * nsteps + j + 1)%nat in map (fun tm => EFinished tm (st_time sp s) s) (sv_terms sv)) (seq 0 nsteps)
  ++ map (fun c => ECallback c epoch (hist ((k + 1) * nsteps)%nat)) (sv_callbacks sv)
  ++ map (fun m => EMonitor m (hist ((k + 1) * nsteps)%nat)) (sv_monitors sv).

Definition run_trace {S} (sp : stepper S) (sv : solver) (hist : nat -> S) (nepochs nsteps : nat) : list (event S) :=
  flat_map (fun k => epoch_trace sp sv hist nsteps (sv_start sv + Z.of_nat k)%Z k) (seq 0 nepochs).

(** The amplitudes [Y'] of all fields are obtained by the semi-implicit scheme,
    field by field, each with the equation whose left-hand side names it. *)
Definition advanced_by_own_equation (names eqs : list str) (p : pde) (ft : transform) (filt : option (R -> R))
                                    (dt t : R) (s : env) (Y' : list data) : Prop :=
  forall i name y j, nth_error names i = Some name -> nth_error (e_fields s) i = Some y ->
    eq_number eqs name = Ok (Z.of_nat j) ->
    let mix := {| e_fields := firstn i Y' ++ skipn i (e_fields s); e_derived := e_derived s |} in
    exists r a, get_rhs p mix j t (length y) = Some r /\ get_denum p mix j t (length y) = Some a /\
      nth_error Y' i = Some (apply_filter filt ft (map3 (semi_implicit dt) y r a)).
