(** Specification used by C101. *)
From Verif Require Export StepSpec.
From Coq Require Import Reals List.
Import ListNotations.
Open Scope R_scope.

(** [fs] are the fields that the last stage of a Runge-Kutta step of length
    [dt] from the state [e] predicts for the end of the step: the three stages
    before, then (Y + dt K3) / (1 - dt A), transformed back. *)
Definition predicted (p : pde) (ft : transform) (dt t : R) (e : env) (fs : list data) : Prop :=
  let Y := map (fft ft) (e_fields e) in
  exists k1 s2 k2 s3 k3 s4,
    nonlinear_part p ft t (e_derived e) Y k1 /\
    implicit_stage p (dt / 2) t e Y k1 s2 /\ nonlinear_part p ft t (e_derived e) s2 k2 /\
    implicit_stage p (dt / 2) t e Y k2 s3 /\ nonlinear_part p ft t (e_derived e) s3 k3 /\
    implicit_stage p dt t e Y k3 s4 /\ fs = map (to_real ft) s4.
