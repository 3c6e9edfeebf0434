(** Vocabulary for the statements about ImplicitEuler with small time steps. *)
From Verif Require Export LimitSpec KeepSpec ImplicitSpec.
Open Scope R_scope.

(** Every field of [e] is within [delta] (sum of squares over the nodes) of
    the field of [U]. *)
Definition close_to (nf : nat) (delta : R) (fs us : list data) : Prop :=
  forall i, (i < nf)%nat -> distance2 (nth i fs []) (nth i us []) <= delta.

(** The solver returns a vector of the right length whose entries are within
    [r] of the old values and at which every entry of the residual is at most
    [tol]. *)
Record nearly_solves (r tol : R) (solve : (list R -> option (list R)) -> list R -> list R) (F : list R -> option (list R)) (x0 old : list R) : Prop := {
  ns_length : length (solve F x0) = length x0;
  ns_near : forall j, (j < length x0)%nat -> Rabs (nth j (solve F x0) 0 - nth j old 0) <= r;
  ns_residual : forall out, F (solve F x0) = Some out -> forall j, (j < length out)%nat -> Rabs (nth j out 0) <= tol
}.

(** [steps] fixed-point iterations: the residual is subtracted. *)
Fixpoint fixed_point (steps : nat) (F : list R -> option (list R)) (x0 : list R) : list R :=
  match steps with
  | O => x0
  | S k => match F (fixed_point k F x0) with
           | Some out => minus (fixed_point k F x0) out
           | None => fixed_point k F x0
           end
  end.
