(** Model of a run that saves its fields in a database. *)
From Verif Require Export SolverModel SimModel.
From Verif Require DbModel.
From Coq Require Import ZArith.

(** pf/database.go:231-242, SaveFields as a callback: one call for one epoch by
    the object [who]; [rnd] is the number it draws if it has none
    (pf/database.go:144-153). *)
Definition save_event (names : list str) (who : nat) (rnd epoch : Z) (e : env) : DbModel.event :=
  {| DbModel.ev_who := who; DbModel.ev_rnd := rnd; DbModel.ev_op := DbModel.OpSave (combine names (e_fields e)) epoch; DbModel.ev_crash := None |}.
(** pf/database.go:231-242 as the callback with number [c] of the solver
    (pf/solver.go:111-113): the database after the run; None: the run panics.
    [between epoch] are the calls that other objects, perhaps of other processes,
    make on the same file before the callback of this epoch. *)
Fixpoint db_after (names : list str) (who : nat) (rnd : Z) (between : Z -> list DbModel.event) (c : nat) (tr : list (event (env * nat))) (w : DbModel.world) : option DbModel.world :=
  match tr with
  | [] => Some w
  | ECallback k epoch s :: tr' =>
      if Nat.eqb k c
      then let w1 := DbModel.run w (between epoch) in
           let ev := save_event names who rnd epoch (fst s) in
           if snd (DbModel.exec (DbModel.w_handles w1 who) rnd (DbModel.ev_op ev) (DbModel.w_db w1))
           then db_after names who rnd between c tr' (DbModel.step w1 ev)
           else None
      else db_after names who rnd between c tr' w
  | _ :: tr' => db_after names who rnd between c tr' w
  end.
