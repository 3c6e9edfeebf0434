(** C41, C54, C55: reciprocal cells, predefined cells, plane densities. *)
From Verif Require Import LatticeModel LatticeSpec LatticeProofs.
Open Scope R_scope.

(** C41.  With any inverse of the matrix of cell vectors (columns), for any
    dimension: the reciprocal vectors are dual to the cell vectors. *)
Theorem C41_reciprocal_is_dual n c ci i j : is_inverse n c ci -> (i < n)%nat -> (j < n)%nat ->
  rsum n (fun x => c x i * reciprocal ci x j) = 2 * PI * (if Nat.eqb i j then 1 else 0).
Proof. exact (duality n c ci i j). Qed.
Print Assumptions C41_reciprocal_is_dual.

(** C41.  The vector of a Miller index has product 2 pi h, 2 pi k, 2 pi l with the cell vectors. *)
Theorem C41_hkl_vector n c ci m j : n = 2%nat \/ n = 3%nat -> is_inverse n c ci -> (j < n)%nat ->
  rsum n (fun x => hkl_vector n (reciprocal ci) m x * c x j) = 2 * PI * IZR (miller_at m j).
Proof. exact (hkl_duality n c ci m j). Qed.
Print Assumptions C41_hkl_vector.

(** C41.  The change of the reciprocal cell is right to first order exactly
    for symmetric changes of the cell. *)
Theorem C41_cell_change_iff_symmetric_partial n c ci d : is_inverse n c ci ->
  (reciprocal_to_first_order n c (reciprocal ci) d (cell_change n (reciprocal ci) d) <-> symmetric_on n d).
Proof. exact (change_first_order n c ci d). Qed.
Print Assumptions C41_cell_change_iff_symmetric_partial.

(** A simple shear of the square cell is not symmetric. *)
Definition shear_change : matrix := mset mzero 0 1 1.
Definition unit_inverse : matrix := mset (mset mzero 0 0 1) 1 1 1.

Example C41_nonvacuous : is_inverse 2 (sc2d 1) unit_inverse /\ symmetric_on 2 (mset mzero 0 0 5) /\
  is_inverse 3 (fcc 2) (mset (mset (mset (mset (mset (mset (mset (mset (mset mzero 0 0 (1/2)) 0 1 (1/2)) 0 2 (-1/2)) 1 0 (-1/2)) 1 1 (1/2)) 1 2 (1/2)) 2 0 (1/2)) 2 1 (-1/2)) 2 2 (1/2)).
Proof.
  split; [|split].
  - split; intros [|[|i]] [|[|j]] Hi Hj; try lia; unfold mmul, unit_inverse, sc2d, mset, mzero, kron; cbn; lra.
  - intros [|[|i]] [|[|j]] Hi Hj; try lia; unfold mset, mzero; cbn; lra.
  - split; intros [|[|[|i]]] [|[|[|j]]] Hi Hj; try lia; unfold mmul, fcc, mset, mzero, kron; cbn; lra.
Qed.

Theorem C41_cell_change_shear_refuted : is_inverse 2 (sc2d 1) unit_inverse /\
  ~ reciprocal_to_first_order 2 (sc2d 1) (reciprocal unit_inverse) shear_change (cell_change 2 (reciprocal unit_inverse) shear_change).
Proof.
  split; [exact (proj1 C41_nonvacuous)|]. intros H. apply (C41_cell_change_iff_symmetric_partial 2 _ _ _ (proj1 C41_nonvacuous)) in H.
  specialize (H 0%nat 1%nat ltac:(lia) ltac:(lia)). unfold shear_change, mset, mzero in H. cbn in H. lra.
Qed.
Print Assumptions C41_cell_change_shear_refuted.

(** C54.  The predefined cells generate the lattices they are named after. *)
Theorem C54_sc_lattice a p : lattice_point 3 (sc3d a) p <->
  exists x y z : Z, p 0%nat = a * IZR x /\ p 1%nat = a * IZR y /\ p 2%nat = a * IZR z.
Proof. exact (sc_lattice a p). Qed.
Print Assumptions C54_sc_lattice.
Theorem C54_fcc_lattice a p : lattice_point 3 (fcc a) p <->
  exists x y z : Z, Z.Even (x + y + z) /\ p 0%nat = a / 2 * IZR x /\ p 1%nat = a / 2 * IZR y /\ p 2%nat = a / 2 * IZR z.
Proof. exact (fcc_lattice a p). Qed.
Print Assumptions C54_fcc_lattice.
Theorem C54_bcc_lattice a p : lattice_point 3 (bcc a) p <->
  exists x y z : Z, (Z.Even (x - y) /\ Z.Even (y - z)) /\ p 0%nat = a / 2 * IZR x /\ p 1%nat = a / 2 * IZR y /\ p 2%nat = a / 2 * IZR z.
Proof. exact (bcc_lattice a p). Qed.
Print Assumptions C54_bcc_lattice.
Theorem C54_volumes_partial a : det3 (fcc a) = a * a * a / 4 /\ det3 (bcc a) = a * a * a / 2 /\ det3 (sc3d a) = a * a * a /\ det2 (sc2d a) = a * a.
Proof. exact (volumes a). Qed.
Print Assumptions C54_volumes_partial.

(** C54.  The cell vectors of a triangular lattice have equal length; those of
    the predefined cell never have. *)
Theorem C54_triangular_refuted a : a <> 0 ->
  rsum 2 (fun x => triangular2d a x 0%nat * triangular2d a x 0%nat) <> rsum 2 (fun x => triangular2d a x 1%nat * triangular2d a x 1%nat).
Proof. intros Ha E. unfold triangular2d, mset, mzero in E. cbn in E. nra. Qed.
Print Assumptions C54_triangular_refuted.

Example C54_nonvacuous : lattice_point 3 (fcc 4) (p3 2 2 4) /\ ~ lattice_point 3 (fcc 4) (p3 2 0 0).
Proof.
  split.
  - apply C54_fcc_lattice. exists 1%Z, 1%Z, 2%Z. split; [exists 2%Z; reflexivity|]. cbn. repeat split; lra.
  - intros H. apply C54_fcc_lattice in H. destruct H as (x & y & z & [s Hs] & A & B & C). cbn in A, B, C.
    assert (x = 1%Z) by (apply eq_IZR; lra). assert (y = 0%Z) by (apply eq_IZR; lra). assert (z = 0%Z) by (apply eq_IZR; lra). lia.
Qed.

(** C55.  Number of points per area in a plane of the simple cubic lattice:
    1 / |hkl| for indices with components 0 and 1. *)
Theorem C55_density_partial h k l : zero_one h -> zero_one k -> zero_one l -> (h, k, l) <> (0, 0, 0)%Z ->
  plane_density (h, k, l) = Some (1 / sqrt (IZR (h * h + k * k + l * l))).
Proof. exact (density_01 h k l). Qed.
Print Assumptions C55_density_partial.
Theorem C55_order_irrelevant h k l : plane_density (h, k, l) = plane_density (k, h, l) /\ plane_density (h, k, l) = plane_density (h, l, k).
Proof. exact (density_perm h k l). Qed.
Print Assumptions C55_order_irrelevant.
Theorem C55_density_right_iff a b c : (0 <= a <= 1)%Z -> (1 <= b <= c)%Z ->
  (plane_density (a, b, c) = Some (1 / sqrt (IZR (a * a + b * b + c * c))) <-> b = 1%Z /\ c = 1%Z).
Proof. exact (density_right_iff a b c). Qed.
Print Assumptions C55_density_right_iff.
Theorem C55_density_012_refuted : plane_density (0, 1, 2)%Z = Some (2 / sqrt 5) /\
  plane_density (0, 1, 2)%Z <> Some (1 / sqrt 5).
Proof.
  split.
  - rewrite density_formula by lia. f_equal. cbn. f_equal; lra.
  - intros E. apply (C55_density_right_iff 0 1 2 ltac:(lia) ltac:(lia)) in E. lia.
Qed.
Print Assumptions C55_density_012_refuted.
Theorem C55_negative_index_panics h k l : (h < 0)%Z -> plane_density (h, k, l) = None.
Proof. exact (density_panics h k l). Qed.
Print Assumptions C55_negative_index_panics.
Example C55_nonvacuous : plane_density (1, 0, 1)%Z = Some (1 / sqrt 2).
Proof. apply (C55_density_partial 1 0 1); unfold zero_one; auto. discriminate. Qed.
