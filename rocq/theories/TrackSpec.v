(** Vocabulary for the statements about the quantities SDD records. *)
From Coq Require Import String.
From Verif Require Export SddSpec TrackModel.
Open Scope R_scope.

(** Value of field [i] at node [j]. *)
Definition value_at (fs : list data) (i j : nat) : C := nth j (nth i fs []) C0.

(** Change of field [i] at node [j] per unit of time. *)
Definition rate (dt : R) (fs fs' : list data) (i j : nat) : C := Cdiv (Csub (value_at fs' i j) (value_at fs i j)) (RtoC dt).

(** [v] is the largest of the values [f i j] with i < k and j < n. *)
Definition largest (k n : nat) (f : nat -> nat -> R) (v : R) : Prop :=
  (forall i j, (i < k)%nat -> (j < n)%nat -> f i j <= v) /\ exists i j, (i < k)%nat /\ (j < n)%nat /\ v = f i j.

(** Sum of |.|^2 over all fields and nodes. *)
Definition squares (k n : nat) (fs : list data) : R := rsum k (fun i => rsum n (fun j => Cnorm2 (value_at fs i j))).

(** Root of the mean of |.|^2 over [k] fields and [n] nodes. *)
Definition root_mean_square (k n : nat) (f : nat -> nat -> C) : R :=
  sqrt (rsum k (fun i => rsum n (fun j => Cnorm2 (f i j))) / INR (k * n)).

(** [T] is the torque of a step: orthogonal to the orientation, which becomes
    o - c T, scaled back to unit length. *)
Record torque_of (k n : nat) (s s' : sdd) (T : nat -> R) : Prop := {
  to_orthogonal : rsum (k * n) (fun j => T j * nth j (s_orient s) 0) = 0;
  to_turns : let c := s_dt s / (dimer_length s (sdd_time s) * s_tau_orient s) in
    forall j, (j < k * n)%nat -> nth j (s_orient s') 0 = (nth j (s_orient s) 0 - c * T j) / sqrt (1 + c * c * rsum (k * n) (fun i => T i * T i))
}.

(** The lines of the log file for the records [mos]. *)
Fixpoint rows (show : R -> string) (mos : list sdd_monitor) : string :=
  match mos with
  | [] => ""
  | mo :: mos' => String.concat "," [show (mo_force mo); show (mo_torque mo); show (mo_spectrum mo); show (mo_norm mo); show (mo_change mo)] ++ newline ++ rows show mos'
  end%string.
