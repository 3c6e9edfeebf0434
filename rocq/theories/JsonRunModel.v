(** Model of JSONifyMonitors after a run of Solve. *)
From Verif Require Export WatchModel JsonModel.

(** pf/solver.go:128-134, JSONifyMonitors after a run with the trace [tr]: the
    monitors in the order of the slice Monitors, where number [k] stands for the
    monitor [nth k pms] (site and field) made by NewPointMonitor; [brick] reads
    the brick of a name (pf/monitor.go:28-31). *)
Definition solver_json {S} (fmt : R -> option str) (brick : str -> S -> nat -> C) (pms : list (nat * str)) (sv : solver) (tr : list (event S)) : option str :=
  jsonify_monitors fmt (map (fun k => let pm := nth k pms (0%nat, []) in
    {| jm_data := Some (point_monitor_run (brick (snd pm)) (fst pm) k tr []); jm_site := Z.of_nat (fst pm); jm_field := snd pm; jm_name := jm_name (new_jmonitor (V := R) 0 (snd pm)) |}) (sv_monitors sv)).
