(** Vocabulary for the statements about 8-bit images.  [B2R] is the real
    number a binary64 value stands for. *)
From Verif Require Export PixelModel.
Open Scope R_scope.

(** Powers of two. *)
Notation b2 := (bpow radix2).

(** All values are numbers (no infinity, no NaN) of size at most [D]. *)
Definition finite_in (D : R) (l : list f64) : Prop := Forall (fun x => is_finite x = true /\ Rabs (B2R x) <= D) l.
