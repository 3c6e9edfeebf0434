(** Model of the crystal lattices: cells, reciprocal cells, changes of them. *)
From Verif Require Export Vec MillerModel.
Open Scope R_scope.

(** A matrix of gonum: entries by row and column; float64 is real.
    gonum mat.Dense as used in pfc/lattice.go: entries by row and column. *)
Definition matrix := nat -> nat -> R.
(** mat.Dense.Set as used in pfc/lattice.go. *)
Definition mset (m : matrix) (i j : nat) (v : R) : matrix :=
  fun a b => if (Nat.eqb a i && Nat.eqb b j)%bool then v else m a b.
(** mat.NewDense(r, c, nil) as used in pfc/lattice.go. *)
Definition mzero : matrix := fun _ _ => 0.

(** pfc/lattice.go:78-92, Reciprocal; [inv] is the inverse computed by
    mat.Inverse. *)
Definition reciprocal (inv : matrix) : matrix := fun j i => 2 * PI * inv i j.

(** pfc/lattice.go:32-42, HKLVector, and 57-70, ChangeHKLVector. *)
Definition hkl_vector (col : nat) (rc : matrix) (m : miller) (i : nat) : R :=
  let '(h, k, l) := m in
  let r := IZR h * rc i 0%nat + IZR k * rc i 1%nat in
  if Nat.eqb col 3 then r + IZR l * rc i 2%nat else r.

(** pfc/lattice.go:48-54, CellChange. *)
Definition cell_change (n : nat) (rc d : matrix) : matrix :=
  fun i j => - 1 / (2 * PI) * mmul n (mmul n rc d) rc i j.
Definition change_hkl_vector (col : nat) (rc : matrix) (m : miller) (d : matrix) : nat -> R :=
  hkl_vector col (cell_change col rc d) m.

(** pfc/lattice.go:95-161: the cells. *)
Definition fcc (a : R) : matrix :=
  mset (mset (mset (mset (mset (mset mzero 0 0 (a / 2)) 1 0 (a / 2)) 1 1 (a / 2)) 2 1 (a / 2)) 0 2 (a / 2)) 2 2 (a / 2).
Definition sc3d (a : R) : matrix := mset (mset (mset mzero 0 0 a) 1 1 a) 2 2 a.
Definition bcc (a : R) : matrix :=
  mset (mset (mset (mset (mset (mset (mset (mset (mset mzero 0 0 (a / 2)) 1 0 (a / 2)) 2 0 (a / 2))
    0 1 (- a / 2)) 1 1 (a / 2)) 2 1 (a / 2)) 0 2 (a / 2)) 1 2 (- a / 2)) 2 2 (a / 2).
Definition sc2d (a : R) : matrix := mset (mset mzero 0 0 a) 1 1 a.
Definition triangular2d (a : R) : matrix := mset (mset (mset mzero 0 0 a) 0 1 (a / 2)) 1 1 (a / 2).

(** pfc/lattice.go:19-21, Volume: the determinant. *)
Definition ent (m : matrix) (i j : nat) : R := m i j.
Definition det2 (m : matrix) : R := (ent m 0 0 * ent m 1 1 - ent m 0 1 * ent m 1 0).
Definition det3 (m : matrix) : R :=
  (ent m 0 0 * (ent m 1 1 * ent m 2 2 - ent m 1 2 * ent m 2 1) - ent m 0 1 * (ent m 1 0 * ent m 2 2 - ent m 1 2 * ent m 2 0)
   + ent m 0 2 * (ent m 1 0 * ent m 2 1 - ent m 1 1 * ent m 2 0)).

(** pfc/lattice.go:165-208, CubicUnitCellDensity; None: panic. *)
Definition sort3 (m : miller) : Z * Z * Z :=
  let '(h, k, l) := m in
  let '(a, b) := if (h <=? k)%Z then (h, k) else (k, h) in
  let '(b, c) := if (b <=? l)%Z then (b, l) else (l, b) in
  let '(a, b) := if (a <=? b)%Z then (a, b) else (b, a) in
  (a, b, c).
Definition vec3 := (R * R * R)%type.
Definition vsub (u v : vec3) : vec3 :=
  let '(a, b, c) := u in let '(x, y, z) := v in (a - x, b - y, c - z).
Definition cross_norm (v3 v2 : vec3) : R :=
  let '(x3, y3, z3) := v3 in let '(x2, y2, z2) := v2 in
  let cx := y3 * z2 - z3 * y2 in let cy := z3 * x2 - x3 * z2 in let cz := x3 * y2 - y3 * x2 in
  sqrt (cx * cx + cy * cy + cz * cz).
Definition plane_density (m : miller) : option R :=
  let '(a, b, c) := sort3 m in
  if (a =? 0)%Z && (b =? 0)%Z then Some 1
  else if (a =? 1)%Z then
    let v1 := (1, 0, 0) in
    Some (1 / cross_norm (vsub (0, 0, 1 / IZR c) v1) (vsub (0, 1 / IZR b, 0) v1))
  else if (a =? 0)%Z then
    Some (1 / cross_norm (vsub (0, 0, 1 / IZR c) (0, 1 / IZR b, 0)) (1, 0, 0))
  else None.
