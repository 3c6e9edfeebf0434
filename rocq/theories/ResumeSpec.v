(** Vocabulary for the statements about runs that are continued and about runs
    under Solve. *)
From Coq Require Import Reals.
From Verif Require Import FileModel.
From Verif Require Export SimSpec SolverSpec.
Open Scope R_scope.

(** Registered terms and sources do not depend on time. *)
Record timeless (lib : library) : Prop := {
  tl_source : forall s t t', lb_source lib s t = lb_source lib s t';
  tl_pure : forall s E t t', lb_pure lib s E t = lb_pure lib s E t';
  tl_linear : forall s E t t', lb_linear lib s E t = lb_linear lib s E t';
  tl_nonlinear : forall s E t t', lb_nonlinear lib s E t = lb_nonlinear lib s E t'
}.

(** Registered terms and sources keep the values they have at time [t0]. *)
Definition frozen (t0 : R) (lib : library) : library := {|
  lb_pow := lb_pow lib; lb_scalar := lb_scalar lib; lb_calc := lb_calc lib;
  lb_pure := fun s E _ => lb_pure lib s E t0;
  lb_linear := fun s E _ => lb_linear lib s E t0;
  lb_nonlinear := fun s E _ => lb_nonlinear lib s E t0;
  lb_source := fun s _ => lb_source lib s t0 |}.

(** A run of a new solver ([epochs] epochs of [steps] steps) takes the fields
    [fs] to the fields [fs']. *)
Definition run_takes (sp : stepper (env * nat)) (m : mstate) (sv : solver) (epochs steps : nat) (fs fs' : list data) : Prop :=
  forall ds, length ds = length (pm_derived (ms_names m)) -> exists e' k tr,
  solve sp sv epochs steps ({| e_fields := fs; e_derived := ds |}, 0%nat) = Some ((e', k), tr) /\ e_fields e' = fs'.
