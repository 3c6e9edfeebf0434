(** Vocabulary for the statements about the limit of small time steps. *)
From Coq Require Import Reals.
From Verif Require Import FileModel.
From Verif Require Export LinearSpec Complex.
Open Scope nat_scope.

(** Amplitude number [k] of field number [i]. *)
Definition amplitude_of (ft : transform) (fields : list data) (i k : nat) : C := nth k (fft ft (nth i fields [])) C0.

(** [z'] is the derivative of [z] at time [t]. *)
Definition changes (z : R -> C) (t : R) (z' : C) : Prop :=
  derivable_pt_lim (fun s => Re (z s)) t (Re z') /\ derivable_pt_lim (fun s => Im (z s)) t (Im z').

(** The fields [U] as functions of time solve the equations as they are
    written: at every time every amplitude of the field of an equation changes
    by its right-hand side. *)
Definition solution (L : lang) (cs : list call) (es : list eqtext) (n : nat) (ft : transform) (lib : library) (U : R -> list data) : Prop :=
  (forall t, length (U t) = length (l_fields L) /\ all_length n (U t))
  /\ forall t i q k, nth_error es i = Some q -> k < n ->
     exists M, written L cs n ft lib (U t) {| e_fields := map (fft ft) (U t); e_derived := [] |} t q k M
     /\ changes (fun s => amplitude_of ft (U s) i k) t M.

(** Sum of the squares of the differences at the nodes. *)
Definition distance2 (d d' : data) : R := Vec.rsum (length d) (fun j => Cnorm2 (Csub (nth j d C0) (nth j d' C0))).
