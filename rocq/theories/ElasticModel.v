(** Model of the elasticity package: stiffness tensors, displacements,
    strains, effective forces. *)
From Coq Require Export Reals List Lia Lra PeanoNat.
From Verif Require Export Vec LatticeModel CVec.
Export ListNotations.
Open Scope R_scope.

(** elasticity/rank4.go:10-19, Rank4: 81 numbers, initially 0. *)
Definition rank4 := nat -> R.
Definition rank4_zero : rank4 := fun _ => 0.
(** elasticity/rank4.go:22-24, index. *)
Definition rindex (i j k l : nat) : nat := (i * 27 + j * 9 + k * 3 + l)%nat.
(** elasticity/rank4.go:27-34, At and Set. *)
Definition rat (t : rank4) (i j k l : nat) : R := t (rindex i j k l).
Definition rset (t : rank4) (i j k l : nat) (v : R) : rank4 := fun q => if Nat.eqb q (rindex i j k l) then v else t q.

(** The four nested loops over 0, 1, 2.
    for i := 0; i < 3; i++ of elasticity/rank4.go:39-47,64-65 and elasticity/linearElasticity.go:88-91. *)
Definition loop3 : list nat := [0; 1; 2]%nat.
(** The four nested loops of elasticity/rank4.go:39-42 and elasticity/linearElasticity.go:88-91. *)
Definition quads : list (nat * nat * nat * nat) :=
  flat_map (fun i => flat_map (fun j => flat_map (fun k => map (fun l => (i, j, k, l)) loop3) loop3) loop3) loop3.
(** Their assignments to the elements of a tensor. *)
Definition fill (f : nat -> nat -> nat -> nat -> R) : rank4 :=
  fold_left (fun t q => let '(i, j, k, l) := q in rset t i j k l (f i j k l)) quads rank4_zero.

(** elasticity/rank4.go:37-59, Rotate; the += of the inner loops is a sum. *)
Definition rotate (rot : matrix) (t : rank4) : rank4 :=
  fill (fun i j k l =>
    rsum 3 (fun m => rsum 3 (fun n => rsum 3 (fun p => rsum 3 (fun q =>
      rot i m * rot j n * rot k p * rot l q * rat t m n p q))))).

(** elasticity/rank4.go:62-75, ContractLast. *)
Definition contract_last (t : rank4) (e : matrix) : matrix :=
  fun i j => rsum 3 (fun k => rsum 3 (fun l => rat t i j k l * e k l)).

(** elasticity/rank4.go:79-81, Shear. *)
Definition shear_modulus (bulk poisson : R) : R := 3 * bulk * (1 - 2 * poisson) / (2 * (1 + poisson)).
(** elasticity/rank4.go:84-109, Isotropic. *)
Definition isotropic (bulk poisson : R) : rank4 :=
  let shear := shear_modulus bulk poisson in
  fill (fun i j k l =>
    0 + (if Nat.eqb i j && Nat.eqb k l then bulk - 2 * shear / 3 else 0)
      + (if Nat.eqb i k && Nat.eqb j l then shear else 0)
      + (if Nat.eqb i l && Nat.eqb j k then shear else 0)).
(** elasticity/rank4.go:113-128, CubicMaterial. *)
Definition cubic_pair (c12 c44 : R) (t : rank4) (ij : nat * nat) : rank4 :=
  let '(i, j) := ij in
  rset (rset (rset (rset t i i j j c12) j j i i c12) i j i j c44) j i j i c44.
Definition cubic_material (c11 c12 c44 : R) : rank4 :=
  fold_left (cubic_pair c12 c44) [(0, 1); (0, 2); (1, 2)]%nat
    (fold_left (fun t i => rset t i i i i c11) loop3 rank4_zero).
(** elasticity/rank4.go:131-154, FromFlatVoigt; None: index out of range on a
    missing map entry. *)
Definition voigt_map (q : nat) : option (nat * nat) :=
  match q with
  | 0 => Some (0, 0) | 1 => Some (1, 1) | 2 => Some (2, 2)
  | 3 => Some (1, 2) | 4 => Some (0, 2) | 5 => Some (0, 1)
  | _ => None
  end%nat.
Definition voigt_entry (voigt : list R) (t : option rank4) (i : nat) : option rank4 :=
  match t, voigt_map (Nat.div i 6), voigt_map (Nat.modulo i 6) with
  | Some t, Some (a, b), Some (c, d) =>
    let v := nth i voigt 0 in
    Some (rset (rset (rset (rset t a b c d v) a b d c v) b a c d v) b a d c v)
  | _, _, _ => None
  end.
Definition from_flat_voigt (voigt : list R) : option rank4 :=
  fold_left (voigt_entry voigt) (seq 0 (length voigt)) (Some rank4_zero).

(** elasticity/rank4.go:158-182, RotationMatrix. *)
Definition rotation_matrix (angle : R) (axis : nat) : matrix :=
  let c := cos angle in let s := sin angle in
  match axis with
  | 0 => mset (mset (mset (mset (mset mzero 0 0 1) 1 1 c) 2 2 c) 1 2 s) 2 1 (- s)
  | 1 => mset (mset (mset (mset (mset mzero 1 1 1) 0 0 c) 2 2 c) 0 2 s) 2 0 (- s)
  | 2 => mset (mset (mset (mset (mset mzero 2 2 1) 0 0 c) 1 1 c) 0 1 s) 1 0 (- s)
  | _ => mzero
  end%nat.

(** elasticity/linearElasticity.go:16-24, DisplacementMatrixElement; any
    tensor is given by its At. *)
Definition tensor := nat -> nat -> nat -> nat -> R.
Definition displacement_matrix (c : tensor) (f : nat -> R) : matrix :=
  fun m n => rsum 3 (fun j => rsum 3 (fun l => c m j n l * f j * f l)) * (2 * PI) ^ 2.

(** elasticity/linearElasticity.go:33-63, Displacements, for one node.
    [solve a b] is gonum's solution of a x = b, b and x having two columns. *)
Definition tiny (x : R) : bool := if Rlt_dec (Rabs x) (/ 10 ^ 10) then true else false.
Definition displacement (solve : matrix -> matrix -> matrix) (c : tensor) (f : nat -> R) (force : nat -> C) : nat -> C :=
  if tiny (f 0%nat) && tiny (f 1%nat) && tiny (f 2%nat) then fun _ => C0
  else
    let b := fun i col => match col with O => Re (force i) | _ => Im (force i) end in
    let x := solve (displacement_matrix c f) b in
    fun i => (x i 0%nat, x i 1%nat).

(** elasticity/linearElasticity.go:67-83, Strain, for one node. *)
Definition drop_nyquist (x : R) : R := if tiny (Rabs x - 0.5) then 0 else x.
Definition strain (f : nat -> R) (disp : nat -> C) (m n : nat) : C :=
  let fm := drop_nyquist (f m) in let fn := drop_nyquist (f n) in
  Cadd (Cmul (0, PI * fn) (disp m)) (Cmul (0, PI * fm) (disp n)).

(** elasticity/linearElasticity.go:86-98, EnergyDensity. *)
Definition energy_density (c : tensor) (e : matrix) : R :=
  0.5 * rsum 3 (fun i => rsum 3 (fun j => rsum 3 (fun k => rsum 3 (fun l => c i j k l * e i j * e k l)))).

(** elasticity/effectiveForce.go:17-35, NewEffectiveForceFromMisfit and Get,
    for one node with a frequency of [dim] components. *)
Definition effective_force (t : rank4) (misfit : matrix) (dim : nat) (comp : nat) (k : nat -> R) (indicator : C) : C :=
  let stress := contract_last t misfit in
  csum dim (fun j => Cmul (0, - stress comp j * 2 * PI * k j) indicator).

(** elasticity/perturbation.go:30-65, PerturbedForce.  [fft] and [ifft] act on
    the values at nodes 0..n-1, [freq] is the frequency of a node. *)
Section Perturbed.
  Context (n dim : nat) (fft ifft : (nat -> C) -> nat -> C) (freq : nat -> nat -> R).
  Definition scaled_strain (misfit : matrix) (disp : nat -> nat -> C) (shape : nat -> R) (i j : nat) : nat -> C :=
    let s := ifft (fun k => strain (freq k) (disp k) i j) in
    fft (fun k => ((misfit i j - Re (s k) / INR n) * shape k, 0)).
  Definition pairs_upto : list (nat * nat) := flat_map (fun i => map (fun j => (i, j)) (seq i (dim - i))) (seq 0 dim).
  Definition perturbed_force (misfit : matrix) (disp : nat -> nat -> C) (shape : nat -> R) (c : tensor) (k comp : nat) : C :=
    fold_left (fun acc ij =>
      let '(i, j) := ij in
      let factor := if Nat.eqb i j then 1 else 2 in
      let s := scaled_strain misfit disp shape i j k in
      fold_left (fun acc q => Csub acc (Cmul (0, 2 * PI * factor * c comp q i j * freq k comp) s)) loop3 acc)
      pairs_upto C0.
End Perturbed.
