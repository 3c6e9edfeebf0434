(** Model of Solver.JSONifyMonitors. *)
From Verif Require Export FileModel.
Open Scope Z_scope.

Section Json.
  Context {V : Type}.
  (** encoding/json on a float64 (pf/solver.go:129): [None] for the values that
      are not finite, for which Marshal returns an error. *)
  Variable fmt : V -> option str.

  (** pf/monitor.go:9-14, PointMonitor.  [jm_data] is [None] for a nil slice
      (a monitor that was not made by NewPointMonitor). *)
  Record jmonitor := { jm_data : option (list V); jm_site : Z; jm_field : str; jm_name : str }.
  (** pf/monitor.go:17-25, NewPointMonitor. *)
  Definition new_jmonitor (site : Z) (field : str) : jmonitor :=
    {| jm_data := Some []; jm_site := site; jm_field := field; jm_name := lit "PointMonitor" |}.
  (** pf/monitor.go:28-31, Add, after the value was read from the brick; append
      to a nil slice makes a slice. *)
  Definition jm_add (m : jmonitor) (v : V) : jmonitor :=
    {| jm_data := Some (match jm_data m with Some d => d | None => [] end ++ [v]); jm_site := jm_site m; jm_field := jm_field m; jm_name := jm_name m |}.

  (** The hexadecimal digits of encoding/json (pf/solver.go:129). *)
  Definition hex_digit (n : N) : ascii := if (n <? 10)%N then ascii_of_N (48 + n) else ascii_of_N (87 + n).
  (** encoding/json on a string (pf/solver.go:129), character by character, with
      the escapes for HTML that Marshal uses.  Simplified: characters from 128 on
      are kept, which is right for UTF-8 without U+2028 and U+2029. *)
  Definition json_char (c : ascii) : str :=
    let n := N_of_ascii c in
    if (n =? 34)%N || (n =? 92)%N then [ascii_of_N 92; c]
    else if (n =? 10)%N then lit "\n" else if (n =? 13)%N then lit "\r" else if (n =? 9)%N then lit "\t"
    else if (n <? 32)%N || (n =? 60)%N || (n =? 62)%N || (n =? 38)%N then lit "\u00" ++ [hex_digit (n / 16); hex_digit (n mod 16)]
    else [c].
  (** encoding/json on a string (pf/solver.go:129). *)
  Definition json_string (s : str) : str := [ascii_of_N 34] ++ flat_map json_char s ++ [ascii_of_N 34].
  (** encoding/json on the values of a slice (pf/solver.go:129). *)
  Fixpoint json_numbers (l : list V) : option (list str) :=
    match l with
    | [] => Some []
    | v :: l' => match fmt v, json_numbers l' with Some t, Some ts => Some (t :: ts) | _, _ => None end
    end.
  (** encoding/json on a slice (pf/solver.go:129). *)
  Definition json_array (items : list str) : str := lit "[" ++ join_char "," items ++ lit "]".
  (** encoding/json on the Data of a monitor (pf/monitor.go:10). *)
  Definition json_data (d : option (list V)) : option str :=
    match d with None => Some (lit "null") | Some l => option_map json_array (json_numbers l) end.
  (** A key of encoding/json with its colon (pf/monitor.go:10-13). *)
  Definition json_key (k : string) : str := json_string (lit k) ++ lit ":".
  (** encoding/json on a PointMonitor: the exported fields in the order of
      pf/monitor.go:10-13. *)
  Definition json_monitor (m : jmonitor) : option str :=
    match json_data (jm_data m) with
    | None => None
    | Some d => Some (lit "{" ++ json_key "Data" ++ d ++ lit "," ++ json_key "Site" ++ dec (jm_site m) ++ lit "," ++ json_key "Field" ++ json_string (jm_field m)
                      ++ lit "," ++ json_key "Name" ++ json_string (jm_name m) ++ lit "}")
    end.
  (** encoding/json on the Monitors of a solver (pf/solver.go:129). *)
  Fixpoint json_monitors (ms : list jmonitor) : option (list str) :=
    match ms with
    | [] => Some []
    | m :: ms' => match json_monitor m, json_monitors ms' with Some t, Some ts => Some (t :: ts) | _, _ => None end
    end.
  (** pf/solver.go:128-134, JSONifyMonitors, for point monitors added through
      AddMonitor to a solver made by NewSolver (pf/solver.go:45, the list is not
      nil); [None] is the panic. *)
  Definition jsonify_monitors (ms : list jmonitor) : option str := option_map json_array (json_monitors ms).
End Json.
Arguments jmonitor : clear implicits.
