(** Vocabulary for the statements about the crystal initialisation. *)
From Verif Require Export CrystalModel GridSpec LatticeSpec.
Open Scope R_scope.

(** ** Corners *)
(** A choice of a corner of the box: 0 or 1 per axis. *)
Definition corner_choice (dim : nat) (s : list Z) : Prop := length s = dim /\ Forall (fun x => x = 0%Z \/ x = 1%Z) s.
(** [c] are the scaled coordinates of the point [p]. *)
Definition scaled_coordinates (dim : nat) (cell : matrix) (c p : nat -> R) : Prop :=
  forall i, (i < dim)%nat -> rsum dim (fun j => c j * cell i j) = p i.
(** The corner of the box with the extents [dom]. *)
Definition box_corner (dom s : list Z) (i : nat) : R := IZR (nth i s 0%Z) * IZR (nth i dom 0%Z).
(** m is the smallest scaled coordinate of any corner. *)
Definition smallest_corner_coordinate (dim : nat) (cell : matrix) (dom : list Z) (m : R) : Prop :=
  (exists s c i, corner_choice dim s /\ scaled_coordinates dim cell c (box_corner dom s) /\ (i < dim)%nat /\ m = c i) /\
  (forall s c i, corner_choice dim s -> scaled_coordinates dim cell c (box_corner dom s) -> (i < dim)%nat -> m <= c i).

(** ** Sites *)
(** The position of the cell with the integer coordinates [z] of the lattice
    that starts at the scaled coordinates (m, ..., m). *)
Definition site (dim : nat) (cell : matrix) (m : R) (z : list Z) (k : nat) : R :=
  rsum dim (fun j => (IZR (nth j z 0%Z) + m) * cell k j).
(** Every edge of the box is a vector of the lattice. *)
Definition edges_are_lattice_vectors (dim : nat) (cell : matrix) (dom : list Z) : Prop :=
  exists e : nat -> nat -> Z, forall k x, (k < dim)%nat -> (x < dim)%nat ->
    rsum dim (fun i => IZR (e k i) * cell x i) = if Nat.eqb x k then IZR (nth k dom 0%Z) else 0.
(** All entries of the cell are multiples of [h]. *)
Definition multiples_of (dim : nat) (h : R) (cell : matrix) : Prop :=
  forall i j, (i < dim)%nat -> (j < dim)%nat -> exists n : Z, cell i j = IZR n * h.
(** The sites of [cells] are the lattice points of the half open box, each
    once. *)
Definition one_cell_per_lattice_point (dim : nat) (cell : matrix) (dom : list Z) (m : R) (cells : list (list Z)) : Prop :=
  NoDup cells /\ (forall z, In z cells -> length z = dim) /\
  (forall z z', In z cells -> In z' cells -> (forall k, (k < dim)%nat -> site dim cell m z k = site dim cell m z' k) -> z = z') /\
  (forall p : nat -> R,
     (exists z, In z cells /\ forall k, (k < dim)%nat -> p k = site dim cell m z k) <->
     (lattice_point dim cell p /\ forall k, (k < dim)%nat -> 0 <= p k < IZR (nth k dom 0%Z))).

(** ** Field *)
(** [n] is [x] rounded towards zero. *)
Definition rounds_to_zero (x : R) (n : Z) : Prop :=
  (0 <= x -> IZR n <= x < IZR n + 1) /\ (x <= 0 -> IZR n - 1 < x <= IZR n).
(** Numbers of the offsets within the cutoff [c], and the offset itself. *)
Definition valid_offset (dim : nat) (c : R) (o : list Z) : Prop :=
  length o = dim /\ Forall (fun x => (0 <= x)%Z /\ IZR x + 1 <= 2 * c) o.
Definition offset (c : R) (o : list Z) (k : nat) : R := IZR (nth k o 0%Z) + 1 / 2 - c.
Definition offset_length (dim : nat) (c : R) (o : list Z) : R := sqrt (rsum dim (fun k => (offset c o k) ^ 2)).
(** Position of the atom [j] of the cell [z]. *)
Definition atom (dim : nat) (cell basis : matrix) (m : R) (z : list Z) (j : nat) (k : nat) : R :=
  site dim cell m z k + rsum dim (fun i => cell k i * basis i j).
(** The node [q] is, up to periods of the grid, the position [p] rounded
    towards zero. *)
Definition falls_on (dim : nat) (dom : list Z) (p : nat -> R) (q : list Z) : Prop :=
  forall k, (k < dim)%nat -> exists n per : Z, rounds_to_zero (p k) n /\ nth k q 0%Z = (n + per * nth k dom 0)%Z.
(** Offset [o] of atom [j] in the cell [z] falls on node [q]. *)
Definition covers (dim : nat) (cell basis : matrix) (m c : R) (dom : list Z) (z : list Z) (j : nat) (o q : list Z) : Prop :=
  falls_on dim dom (fun k => atom dim cell basis m z j k + offset c o k) q.

(** The order of the program: cells, then atoms, then offsets. *)
Definition later (z : list Z) (j : nat) (o : list Z) (z' : list Z) (j' : nat) (o' : list Z) : Prop :=
  lex_lt z z' \/ (z = z' /\ ((j < j')%nat \/ (j = j' /\ lex_lt o o'))).
(** [v] is what the node [q] holds after the atoms in [cells] were painted over
    the value [old]: the kernel at the last offset that falls on the node. *)
Definition painted (dim : nat) (cell basis : matrix) (nb : nat) (m : R) (kern : atomic_kernel) (dom : list Z)
  (cells : list (list Z)) (q : list Z) (old v : R) : Prop :=
  let c := ak_cutoff kern in
  let hit := fun z j o => In z cells /\ (j < nb)%nat /\ valid_offset dim c o /\ covers dim cell basis m c dom z j o q in
  ((forall z j o, ~ hit z j o) /\ v = old) \/
  (exists z j o, hit z j o /\ v = ak_eval kern (offset_length dim c o) /\
     forall z' j' o', hit z' j' o' -> ~ later z j o z' j' o').

(** ** Grain boundary *)
(** [v] is the value of the periodic field at the position p turned by the
    angle [t] around the centre of the grid, up to less than one node. *)
Definition turned_value (d0 d1 : Z) (data : list R) (t : R) (ix iy : Z) (v : R) : Prop :=
  exists s0 s1 : Z, v = periodic_value [d0; d1] data [(d0 / 2 + s0)%Z; (d1 / 2 + s1)%Z] /\
    Rabs (IZR s0 - (cos t * IZR (ix - d0 / 2) - sin t * IZR (iy - d1 / 2))) < 1 /\
    Rabs (IZR s1 - (sin t * IZR (ix - d0 / 2) + cos t * IZR (iy - d1 / 2))) < 1.

(** ** The cells of the package *)
(** dimension, cell and its volume for the lattice parameter [a] *)
Inductive package_cell (a : R) : nat -> matrix -> R -> Prop :=
  | pc_fcc : package_cell a 3 (fcc a) (det3 (fcc a))
  | pc_bcc : package_cell a 3 (bcc a) (det3 (bcc a))
  | pc_sc3d : package_cell a 3 (sc3d a) (det3 (sc3d a))
  | pc_sc2d : package_cell a 2 (sc2d a) (det2 (sc2d a))
  | pc_triangular : package_cell a 2 (triangular2d a) (det2 (triangular2d a)).
(** The extents are whole multiples of [a]. *)
Definition whole_cells (a : R) (dom : list Z) : Prop := Forall (fun d => exists n : Z, IZR d = IZR n * a) dom.
