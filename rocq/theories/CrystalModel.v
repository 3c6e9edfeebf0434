(** Model of the crystal initialisation of pfc: corners in scaled coordinates,
    kernels, BuildCrystal and TiltGB.  Coordinates and field values are real
    numbers, indices are integers without overflow, [None] is a panic or a loop
    that does not end. *)
From Verif Require Export GridModel LatticeModel.
Open Scope R_scope.

(** Matrix times vector: MulVec of pfutil/affine.go:22, and Solve with the inverse matrix. *)
Definition mvec (n : nat) (m : matrix) (v : nat -> R) : nat -> R := fun i => rsum n (fun j => m i j * v j).

(** for idx := prod.Next(); idx != nil; idx = prod.Next() with
    prod = NewProduct(e): the values of idx.  The fuel is one more than the
    number of multi-indices.
    Loop over pfutil.NewProduct(e) as in pfc/periodicFieldInit.go: the values of idx. *)
Definition indices (e : list Z) : option (list (list Z)) :=
  drain (S (Z.to_nat (fold_right Z.mul 1%Z e))) (new_product e).

(** pfc/periodicFieldInit.go:51-53: the corner of number idx. *)
Definition corner (dom idx : list Z) : nat -> R := fun i => IZR (nth i dom 0 * nth i idx 0)%Z.
(** pfc/periodicFieldInit.go:35-65, CornersScaledCrd: the columns of the
    returned matrix.  [inv] is the inverse of the cell, so that Solve is the
    multiplication with it; the cell is two- or three-dimensional and so is the
    domain. *)
Definition corners_scaled (dim : nat) (inv : matrix) (dom : list Z) : option (list (nat -> R)) :=
  match indices (repeat 2%Z dim) with
  | None => None
  | Some l => Some (map (fun idx => mvec dim inv (corner dom idx)) l)
  end.

(** pfc/periodicFieldInit.go:70-77, isInsideBox. *)
Definition is_inside_box (dom : list Z) (p : nat -> R) (threshold : R) : bool :=
  forallb (fun i => negb (Rltb (p i) 0 || Rgtb (p i + threshold) (IZR (nth i dom 0%Z)))) (seq 0 (length dom)).

(** pfc/periodicFieldInit.go:22-29, AtomicKernel. *)
Record atomic_kernel := { ak_eval : R -> R; ak_cutoff : R }.
(** pfc/periodicFieldInit.go:81-95, GaussianKernel. *)
Definition gaussian_kernel (w : R) : atomic_kernel :=
  {| ak_eval := fun x => let exponent := (x / w) ^ 2 in exp (- exponent / 2); ak_cutoff := 3 * w |}.
(** pfc/periodicFieldInit.go:98-113, CircleKernel. *)
Definition circle_kernel (r : R) : atomic_kernel :=
  {| ak_eval := fun x => if negb (Rltb x 0) && Rltb x (r + 1) then 1 else 0; ak_cutoff := r |}.
(** pfc/periodicFieldInit.go:116-118, Area. *)
Definition circle_area (r : R) : R := PI * r * r.

(** pfc/periodicFieldInit.go:129-136: the smallest and largest entry. *)
Fixpoint range_loop (data : list R) (mn mx : R) : R * R :=
  match data with
  | [] => (mn, mx)
  | x :: data' => range_loop data' (if Rltb x mn then x else mn) (if Rgtb x mx then x else mx)
  end.
(** RawMatrix().Data of pfc/periodicFieldInit.go: the entries of the corner matrix row by row. *)
Definition raw_data (dim : nat) (cs : list (nat -> R)) : list R := flat_map (fun i => map (fun c => c i) cs) (seq 0 dim).
(** Extent of the corners in pfc/periodicFieldInit.go. *)
Definition corner_range (dim : nat) (cs : list (nat -> R)) : R * R :=
  let d := raw_data dim cs in range_loop d (nth 0 d 0) (nth 0 d 0).
(** pfc/periodicFieldInit.go:125-144: the smallest scaled coordinate and the
    multi-indices of the outer loop. *)
Definition visited_cells (dim : nat) (inv : matrix) (dom : list Z) : option (R * list (list Z)) :=
  match corners_scaled dim inv dom with
  | None => None
  | Some cs =>
      let '(mn, mx) := corner_range dim cs in
      match indices (repeat (trunc (mx - mn) + 1)%Z dim) with
      | None => None
      | Some l => Some (mn, l)
      end
  end.
(** pfc/periodicFieldInit.go:160-163: the position of the cell [idx]. *)
Definition cell_origin (dim : nat) (cell : matrix) (mn : R) (idx : list Z) : nat -> R :=
  mvec dim cell (fun i => IZR (nth i idx 0%Z) + mn).
(** pfc/periodicFieldInit.go:156-157: half of the third root of the volume. *)
Definition half_length (vol : R) : R := Rpower vol (1 / 3) / 2.
(** pfc/periodicFieldInit.go:159-166: the cells that are not skipped. *)
Definition placed_cells (dim : nat) (cell inv : matrix) (vol : R) (dom : list Z) : option (R * list (list Z)) :=
  match visited_cells dim inv dom with
  | None => None
  | Some (mn, l) => Some (mn, filter (fun idx => is_inside_box dom (cell_origin dim cell mn idx) (half_length vol)) l)
  end.

(** pfc/periodicFieldInit.go:175 *)
Definition delta (cutoff : R) (p : list Z) (k : nat) : R := IZR (nth k p 0%Z) - cutoff + 0.5.
(** pfc/periodicFieldInit.go:173-182: the node, before it is wrapped, and the
    value of one offset [p] from the atom at [origin] + [epos]. *)
Definition atom_write (dim : nat) (kern : atomic_kernel) (origin epos : nat -> R) (p : list Z) : list Z * R :=
  let c := ak_cutoff kern in
  (map (fun k => trunc (delta c p k + origin k + epos k)) (seq 0 dim),
   ak_eval kern (sqrt (rsum dim (fun k => delta c p k * delta c p k)))).
(** pfc/periodicFieldInit.go:159-185: all writes in the order of the program;
    the basis is a matrix with one column per atom. *)
Definition crystal_writes (dim : nat) (cell : matrix) (basis : matrix) (nb : nat) (kern : atomic_kernel)
  (mn : R) (cells offs : list (list Z)) : list (list Z * R) :=
  flat_map (fun idx => flat_map (fun j => map (atom_write dim kern (cell_origin dim cell mn idx) (mvec dim cell (fun i => basis i j))) offs) (seq 0 nb)) cells.
(** pfc/periodicFieldInit.go:179-182: Wrap and Grid.Set. *)
Definition grid_write (dom : list Z) (data : list R) (w : list Z * R) : option (list R) :=
  match wrap (fst w) dom with
  | None => None
  | Some q => match node_idx dom q with
              | None => None
              | Some i => match zget data i with Some _ => Some (upd data (Z.to_nat i) (snd w)) | None => None end
              end
  end.
Fixpoint grid_writes (dom : list Z) (data : list R) (ws : list (list Z * R)) : option (list R) :=
  match ws with
  | [] => Some data
  | w :: ws' => match grid_write dom data w with None => None | Some d => grid_writes dom d ws' end
  end.
(** pfc/periodicFieldInit.go:124-186, BuildCrystal: the data of the grid
    afterwards.  [vol] is the determinant of the cell. *)
Definition build_crystal (dim : nat) (cell inv : matrix) (vol : R) (basis : matrix) (nb : nat) (kern : atomic_kernel)
  (dom : list Z) (data : list R) : option (list R) :=
  match placed_cells dim cell inv vol dom with
  | None => None
  | Some (mn, cells) =>
      match indices (repeat (trunc (2 * ak_cutoff kern)) dim) with
      | None => match cells, nb with
                | [], _ | _, O => Some data (* the inner iterator is never used *)
                | _, _ => None
                end
      | Some offs => grid_writes dom data (crystal_writes dim cell basis nb kern mn cells offs)
      end
  end.

(** pfc/periodicFieldInit.go:200-204: the two loops, from the row [ix] on. *)
Fixpoint copy_row (dom : list Z) (dst src : list R) (ix : Z) (iys : list Z) : option (list R) :=
  match iys with
  | [] => Some dst
  | iy :: iys' =>
      match node_idx dom [ix; iy] with
      | None => None
      | Some i => match zget src i, zget dst i with
                  | Some v, Some _ => copy_row dom (upd dst (Z.to_nat i) v) src ix iys'
                  | _, _ => None
                  end
      end
  end.
Fixpoint copy_rows (dom : list Z) (dst src : list R) (ixs iys : list Z) : option (list R) :=
  match ixs with
  | [] => Some dst
  | ix :: ixs' => match copy_row dom dst src ix iys with None => None | Some d => copy_rows dom d src ixs' iys end
  end.
(** pfc/periodicFieldInit.go:190-205, TiltGB: the data of the grid afterwards. *)
Definition tilt_gb (dom : list Z) (data : list R) (angle : R) : option (list R) :=
  match dom with
  | [d0; d1] =>
      match rotate2d dom data (angle / 2), rotate2d dom data (- angle / 2) with
      | Some cpy, Some own => copy_rows dom own cpy (node_range (Z.to_nat (Z.quot d0 2))) (node_range (Z.to_nat d1))
      | _, _ => None
      end
  | _ => None
  end.
