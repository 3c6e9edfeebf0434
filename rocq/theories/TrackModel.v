(** Model of the quantities SDD records about its steps (SDDMonitor) and of their
    log file.  Exact arithmetic. *)
From Coq Require Import String.
From Verif Require Export SddModel.
Import ListNotations.
Open Scope R_scope.

(** pf/sdd.go:26-51, SDDMonitor without the log file. *)
Record sdd_monitor := { mo_force : R; mo_spectrum : R; mo_torque : R; mo_norm : R; mo_change : R }.

(** pf/sdd.go:122-130: NewSDD leaves the monitor zero. *)
Definition new_sdd_monitor : sdd_monitor := {| mo_force := 0; mo_spectrum := 0; mo_torque := 0; mo_norm := 0; mo_change := 0 |}.

(** pf/sdd.go:377-386, FieldNorm: v = cmplx.Abs(..); norm += v*v. *)
Fixpoint data_norm (d : data) : R :=
  match d with [] => 0 | z :: d' => Cabs z * Cabs z + data_norm d' end.
Fixpoint field_norm (fs : list data) : R :=
  match fs with [] => 0 | d :: fs' => data_norm d + field_norm fs' end.

(** pf/sdd.go:225-231: the change of the amplitudes [d] of one field;
    [mx] is MaxForce and [ps] ForcePowerSpectrum so far. *)
Fixpoint watch_force (dt : R) (n : nat) (d orig : data) (mx ps : R) : R * R :=
  match d, orig with
  | z :: d', w :: orig' =>
      let diff := Cabs (Cdiv (Csub z w) (RtoC dt)) in
      watch_force dt n d' orig' (if Rlt_dec mx diff then diff else mx) (ps + diff * diff / INR n)
  | _, _ => (mx, ps)
  end.

(** pf/sdd.go:200-232: the loop over the fields with the monitor. *)
Fixpoint track_fields (p : pde) (s : sdd) (n : nat) (fto rs re : data) (todo i : nat) (e : env) (mx ps : R) : option (env * R * R) :=
  match todo with
  | O => Some (e, mx, ps)
  | S todo' =>
      match nth_error (e_fields e) i with
      | None => None
      | Some d =>
          let work := householder (sdd_force (s_alpha s) n i rs re) (chunk n i fto) 2 n in
          let d1 := map2 (fun z w => Cadd z (Cmul (RtoC (s_dt s)) w)) d work in
          match get_denum p (set_field e i d1) i (sdd_time s) n with
          | None => None
          | Some a =>
              let d2 := dsm_dot (householder_denum (s_dt s) a (chunk n i fto) 2) d1 in
              let (mx', ps') := watch_force (s_dt s) n d2 d mx ps in
              track_fields p s n fto rs re todo' (S i) (set_field e i d2) mx' ps'
          end
      end
  end.

(** pf/sdd.go:285-291: MaxTorque. *)
Fixpoint watch_torque (torque : data) (mx : R) : R :=
  match torque with
  | [] => mx
  | t :: torque' => watch_torque torque' (if Rlt_dec mx (Rabs (Re t)) then Rabs (Re t) else mx)
  end.

(** pf/sdd.go:273-281: the check that logs a warning. *)
Definition torque_warning (torque : data) (o : list R) : bool :=
  if Rlt_dec (/ 10 ^ 10) (Rabs (rdot (map Re torque) o)) then true else false.

(** pf/sdd.go:159-301, Step with the monitor; the flag tells if the warning is
    logged.  The rest is [sdd_step]. *)
Definition track_step (p : pde) (ft : transform) (s : sdd) (mo : sdd_monitor) (e : env) : option (sdd * sdd_monitor * env * bool) :=
  if negb (s_ready s) then None
  else if Rlt_dec (s_dt s) (/ 10 ^ 16) then None
  else match e_fields e with
  | [] => None
  | f0 :: _ =>
      let n := length f0 in
      let k := length (e_fields e) in
      let t := sdd_time s in
      let l := dimer_length s t in
      let fnorm := field_norm (e_fields e) in
      let fto := ft_orientation ft n k (s_orient s) in
      match extract_rhs p (at_start p ft l (s_orient s) e) t n k, extract_rhs p (at_end p ft l (s_orient s) e) t n k with
      | Some rs, Some re =>
          match track_fields p s n fto rs re k 0 (at_centre p ft l (s_orient s) e) 0 0 with
          | None => None
          | Some (e1, mx, ps) =>
              match extract_denum p e1 t n k with
              | None => None
              | Some denums =>
                  let torque := sdd_torque ft n k l fto rs re denums in
                  Some ({| s_dt := s_dt s; s_tau_orient := s_tau_orient s; s_tau_dimer := s_tau_dimer s;
                           s_alpha := s_alpha s; s_step := S (s_step s); s_min_len := s_min_len s;
                           s_init_len := s_init_len s;
                           s_orient := turn s torque; s_ready := true |},
                        {| mo_force := mx; mo_spectrum := sqrt (ps / INR (k * n)); mo_torque := watch_torque torque 0;
                           mo_norm := fnorm; mo_change := mo_norm mo - fnorm |},
                        model_ifft ft e1,
                        torque_warning torque (s_orient s))
              end
          end
      | _, _ => None
      end
  end.

(** pf/solver.go:70-83, Propagate with the SDD stepper. *)
Fixpoint track_run (p : pde) (ft : transform) (steps : nat) (s : sdd) (mo : sdd_monitor) (e : env) : option (sdd * sdd_monitor * env) :=
  match steps with
  | O => Some (s, mo, e)
  | S k => match track_step p ft s mo e with None => None | Some (s', mo', e', _) => track_run p ft k s' mo' e' end
  end.

(** ** The log file.  It is appended to; fmt.Sprintf("%f") is the parameter
    [show].  Numbers need no quotes in csv (encoding/csv, pf/sdd.go:68). *)
(** The end of a line csv.Writer writes (pf/sdd.go:68-80). *)
Definition newline : string := String (Ascii.Ascii false true false true false false false false) EmptyString.
(** One record of csv.Writer (pf/sdd.go:68-80). *)
Definition csv_line (cells : list string) : string := (String.concat "," cells ++ newline)%string.
(** pf/sdd.go:67. *)
Definition sdd_header : list string := ["MaxForce"; "MaxTorque"; "ForcePowerSpect"; "FieldNorm"; "FieldNormChange"]%string.
(** pf/sdd.go:75-81. *)
Definition sdd_record (show : R -> string) (mo : sdd_monitor) : list string :=
  [show (mo_force mo); show (mo_torque mo); show (mo_spectrum mo); show (mo_norm mo); show (mo_change mo)].
(** pf/sdd.go:56-83, Log; without a file nothing happens. *)
Definition sdd_log (show : R -> string) (mo : sdd_monitor) (file : option string) : option string :=
  match file with
  | None => None
  | Some txt => Some (txt ++ (if Nat.eqb (String.length txt) 0 then csv_line sdd_header else "") ++ csv_line (sdd_record show mo))%string
  end.

(** pf/solver.go:106-121, Solve with the SDD stepper and its Log as callback. *)
Fixpoint track_solve (p : pde) (ft : transform) (show : R -> string) (epochs steps : nat) (s : sdd) (mo : sdd_monitor) (e : env) (file : option string)
  : option (sdd * sdd_monitor * env * option string) :=
  match epochs with
  | O => Some (s, mo, e, file)
  | S k => match track_run p ft steps s mo e with
           | None => None
           | Some (s', mo', e') => track_solve p ft show k steps s' mo' e' (sdd_log show mo' file)
           end
  end.
