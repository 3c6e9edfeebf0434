(** Vocabulary for the statements about lattices. *)
From Verif Require Export LatticeModel.
Open Scope R_scope.

Definition is_inverse (n : nat) (c ci : matrix) : Prop :=
  meq_on n (mmul n ci c) kron /\ meq_on n (mmul n c ci) kron.
Definition symmetric_on (n : nat) (d : matrix) : Prop := forall i j, (i < n)%nat -> (j < n)%nat -> d i j = d j i.

(** Vectors are the columns of a cell.  The cells [c] + t [d] and
    [m] + t [dm] are reciprocal to each other up to the second order in t. *)
Definition reciprocal_to_first_order (n : nat) (c m d dm : matrix) : Prop :=
  exists rest : matrix, forall t i j, (i < n)%nat -> (j < n)%nat ->
    rsum n (fun x => (c x i + t * d x i) * (m x j + t * dm x j)) = 2 * PI * kron i j + t * t * rest i j.

(** Component of a Miller index. *)
Definition miller_at (m : miller) (j : nat) : Z := let '(h, k, l) := m in match j with O => h | S O => k | _ => l end.

(** The points of the lattice of a cell: integer combinations of its columns. *)
Definition lattice_point (n : nat) (c : matrix) (p : nat -> R) : Prop :=
  exists z : nat -> Z, forall x, (x < n)%nat -> p x = rsum n (fun i => IZR (z i) * c x i).
