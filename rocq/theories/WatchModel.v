(** Model of monitors attached to the solver of a declared model. *)
From Verif Require Import FileModel.
From Verif Require Export SolverModel SimModel.

(** pf/monitor.go:17-25, NewPointMonitor, and 28-31, Add: the data start empty;
    the value is read from the brick with the name of the monitor. *)
Record point_monitor := { pt_site : nat; pt_field : str; pt_data : list R }.
Definition new_point_monitor (site : nat) (field : str) : point_monitor :=
  {| pt_site := site; pt_field := field; pt_data := [] |}.

(** pf/solver.go:123-125, AddMonitor: the monitor with the next number. *)
Definition add_monitor (sv : solver) (k : nat) : solver :=
  {| sv_terms := sv_terms sv; sv_callbacks := sv_callbacks sv; sv_monitors := sv_monitors sv ++ [k]; sv_start := sv_start sv |}.

(** What a monitor on [name] at [site] holds after the run with this trace
    (pf/solver.go:115-118 calls Add with the bricks of the model). *)
Definition monitored (lib : library) (m : mstate) (pm : point_monitor) (k : nat) (tr : list (event (env * nat))) : list R :=
  point_monitor_run (fun s j => brick_at lib (ms_names m) (fst s) j (pt_field pm)) (pt_site pm) k tr (pt_data pm).
