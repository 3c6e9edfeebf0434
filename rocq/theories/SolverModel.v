(** Model of the solver loop, its callbacks and monitors. *)
From Verif Require Export StepModel StepSpec.

(** pf/solver.go:13-23, TimeStepper: [None] is a panic inside Step. *)
Record stepper (S : Type) := { st_step : S -> option S; st_time : S -> R }.
Arguments st_step {S}. Arguments st_time {S}.

(** What user code sees: OnStepFinished of a registered term with the time, a
    callback with the epoch number, Add of a monitor; each with the state at
    that moment.  User code that changes the solver is not modelled.
    Calls of user code by pf/solver.go:70-121. *)
Inductive event (S : Type) :=
| EFinished (term : nat) (t : R) (s : S)
| ECallback (cb : nat) (epoch : Z) (s : S)
| EMonitor (m : nat) (s : S).
Arguments EFinished {S}. Arguments ECallback {S}. Arguments EMonitor {S}.

(** pf/solver.go:29-37: what Solve uses of a Solver.  [sv_terms] lists the
    registered terms in the order in which the maps of implicit, explicit and
    mixed terms are walked. *)
Record solver := { sv_terms : list nat; sv_callbacks : list nat; sv_monitors : list nat; sv_start : Z }.

(** pf/solver.go:70-84, Propagate. *)
Fixpoint solver_propagate {S} (sp : stepper S) (sv : solver) (nsteps : nat) (s : S) : option (S * list (event S)) :=
  match nsteps with
  | O => Some (s, [])
  | Datatypes.S n =>
      match st_step sp s with
      | None => None
      | Some s1 =>
          match solver_propagate sp sv n s1 with
          | None => None
          | Some (s2, tr) => Some (s2, map (fun j => EFinished j (st_time sp s1) s1) (sv_terms sv) ++ tr)
          end
      end
  end.

(** pf/solver.go:106-120, Solve, from epoch [i] on (the log line is left out). *)
Fixpoint solve_from {S} (sp : stepper S) (sv : solver) (todo : nat) (i : Z) (nsteps : nat) (s : S) : option (S * list (event S)) :=
  match todo with
  | O => Some (s, [])
  | Datatypes.S todo' =>
      match solver_propagate sp sv nsteps s with
      | None => None
      | Some (s1, tr1) =>
          match solve_from sp sv todo' (i + 1) nsteps s1 with
          | None => None
          | Some (s2, tr2) =>
              Some (s2, tr1 ++ map (fun c => ECallback c (i + sv_start sv)%Z s1) (sv_callbacks sv)
                            ++ map (fun m => EMonitor m s1) (sv_monitors sv) ++ tr2)
          end
      end
  end.
Definition solve {S} (sp : stepper S) (sv : solver) (nepochs nsteps : nat) (s : S) := solve_from sp sv nepochs 0 nsteps s.

(** pf/euler.go:16-52: the counter is increased by Step. *)
Definition euler_stepper (p : pde) (ft : transform) (filt : option (R -> R)) (dt : R) : stepper (env * nat) := {|
  st_step := fun s => match euler_step p ft filt dt (time_of dt (snd s)) (fst s) with
                      | Some e' => Some (e', S (snd s)) | None => None end;
  st_time := fun s => time_of dt (snd s) |}.

(** pf/rk4.go:29-74 and GetTime: Step does not touch CurrentStep. *)
Definition rk4_stepper (p : pde) (ft : transform) (filt : option (R -> R)) (dt : R) : stepper (env * nat) := {|
  st_step := fun s => match rk4_step p ft filt dt (time_of dt (snd s)) (fst s) with
                      | Some e' => Some (e', snd s) | None => None end;
  st_time := fun s => time_of dt (snd s) |}.

(** pf/monitor.go:28-31, PointMonitor.Add: append the real part of the brick at
    the site; [brick] reads the named brick. *)
Definition point_monitor_add {S} (brick : S -> nat -> C) (site : nat) (d : list R) (s : S) : list R :=
  d ++ [Re (brick s site)].

(** pf/monitor.go, Data of the point monitor with number [m] after a run. *)
Definition point_monitor_run {S} (brick : S -> nat -> C) (site m : nat) (tr : list (event S)) (d : list R) : list R :=
  fold_left (fun d ev => match ev with EMonitor k s => if Nat.eqb k m then point_monitor_add brick site d s else d | _ => d end) tr d.
