(** Vocabulary for runs that do not follow the steps exactly: rounding errors,
    noise, values rounded in a file. *)
From Coq Require Import Reals.
From Verif Require Import FileModel.
From Verif Require Export LimitSpec.
Open Scope R_scope.

(** The states [st 0], [st 1], ... follow the steps up to disturbances: at every
    node, [st (S k)] is off what the step makes of [st k] by at most
    [dl (S k)].  Nothing is asked where values leave the ball of radius [r]. *)
Definition disturbed_run (step : R -> env -> option env) (h : R) (nf n : nat) (r : R) (dl : nat -> R) (N : nat) (st : nat -> env) : Prop :=
  forall k, (k < N)%nat -> exists e', step (INR k * h) (st k) = Some e'
  /\ (bounded_by nf n (r ^ 2) (e_fields e') -> close nf n (dl (S k) ^ 2) (e_fields (st (S k))) (e_fields e')).

(** What is stored after every step is rounded. *)
Definition rounded (rnd : C -> C) (e : env) : env := {| e_fields := map (map rnd) (e_fields e); e_derived := map (map rnd) (e_derived e) |}.
Fixpoint rounded_run (step : R -> env -> option env) (rnd : C -> C) (h : R) (k : nat) (e : env) : option env :=
  match k with
  | O => Some e
  | S k' => match rounded_run step rnd h k' e with
            | None => None
            | Some e1 => match step (INR k' * h) e1 with None => None | Some e2 => Some (rounded rnd e2) end
            end
  end.

(** Both parts of a number rounded to the nearest floating point number with
    [prec] binary digits and exponents from [emin] on (binary64 is prec = 53,
    emin = -1074; overflow is not modelled). *)
From Flocq Require Import Core.
Definition rounded_part (emin prec : Z) (x : R) : R := round radix2 (FLT_exp emin prec) ZnearestE x.
Definition rounded_number (emin prec : Z) (z : C) : C := (rounded_part emin prec (fst z), rounded_part emin prec (snd z)).
(** A bound for the error of rounding numbers in the ball of radius [r]. *)
Definition rounding_unit (emin prec : Z) (r : R) : R := r * bpow radix2 (1 - prec) + bpow radix2 emin.
