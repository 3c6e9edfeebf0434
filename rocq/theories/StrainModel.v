(** Model of the elastic energy of inclusions: the phase field term of
    pf/homoLinElast.go, HomogeneousModulusEnergy, ellipsoidal voxels and the
    strain energy tool. *)
From Verif Require Export ElasticModel EnergyModel DftModel.
From Verif Require Export Complex.
Open Scope R_scope.

(** pf/homoLinElast.go:10-17, Indicator and IndicatorDeriv. *)
Definition blend (x : R) : R := 3 * x * x - 2 * x * x * x.
Definition blend_deriv (x : R) : R := 6 * x - 6 * x * x.

(** pf/homoLinElast.go:34-44, HomogeneousModulusLinElast without the name of
    its field; [el_solve] is gonum's solver used by Displacements (Disps). *)
Record elastic := {
  el_dim : nat;
  el_nodes : nat;
  el_field : list R;
  el_misfit : matrix;
  el_mat : rank4;
  el_solve : matrix -> matrix -> matrix;
  el_ft : transform
}.

(** pf/homoLinElast.go:103-111, Freq: three components. *)
Definition el_freq (e : elastic) (k : nat) : nat -> R :=
  fun d => if Nat.eqb (el_dim e) 3 then nth d (tfreq (el_ft e) k) 0
           else if Nat.ltb d (el_dim e) then nth d (tfreq (el_ft e) k) 0 else 0.

(** pf/homoLinElast.go:114-127, Force at node [k]; only the first Dim
    components are filled. *)
Definition el_force (e : elastic) (indicator : data) (k comp : nat) : C :=
  if Nat.ltb comp (el_dim e) then effective_force (el_mat e) (el_misfit e) 3 comp (el_freq e k) (nth k indicator C0) else C0.

(** pf/homoLinElast.go:54-61: the displacements of node [k]. *)
Definition el_disp (e : elastic) (k : nat) : nat -> C :=
  let work := fft (el_ft e) (map (fun x => RtoC (blend x)) (el_field e)) in
  displacement (el_solve e) (rat (el_mat e)) (el_freq e k) (el_force e work k).

(** pf/homoLinElast.go:72-76: the strain of a pair of axes times the
    derivative of the indicator, in Fourier space. *)
Definition el_strain (e : elastic) (i j : nat) : data :=
  to_real (el_ft e) (map (fun k => strain (el_freq e k) (el_disp e k) i j) (seq 0 (el_nodes e))).
Definition el_weighted (e : elastic) (i j : nat) : data :=
  fft (el_ft e) (map2 Cmul (el_strain e i j) (map (fun x => RtoC (blend_deriv x)) (el_field e))).

(** pf/homoLinElast.go:78-85: one pass of the loop over pairs. *)
Definition el_pass (e : elastic) (field : data) (ij : nat * nat) : data :=
  let '(i, j) := ij in
  let factor := if Nat.eqb i j then 1 else 1 * 2 in
  map2 (fun f s => Cadd f (Cmul (RtoC (factor * contract_last (el_mat e) (el_misfit e) i j)) s)) field (el_weighted e i j).

(** pf/homoLinElast.go:48-99, Construct: the term written to [field]. *)
Definition el_construct (e : elastic) (field : data) : data :=
  let zeroed := map (fun _ => C0) field in
  let acc := fold_left (el_pass e) (pairs_upto (el_dim e)) zeroed in
  let e_density := energy_density (rat (el_mat e)) (el_misfit e) in
  let work := fft (el_ft e) (map (fun x => RtoC (blend x * blend_deriv x)) (el_field e)) in
  map2 (fun f w => Csub f (Cmul (RtoC (2 * e_density)) w)) acc work.

(** pf/homoLinElast.go:130-134, OnStepFinished; [brick] are the values of the
    named field. *)
Definition el_finished (e : elastic) (brick : data) : elastic :=
  {| el_dim := el_dim e; el_nodes := el_nodes e;
     el_field := map (fun i => Re (nth i brick C0)) (seq 0 (length (el_field e)));
     el_misfit := el_misfit e; el_mat := el_mat e; el_solve := el_solve e; el_ft := el_ft e |}.

(** pfutil/sliceOperations.go:43-49, ProdInt: the number of nodes. *)
Definition grid_nodes (dom : list Z) : nat := Z.to_nat (fold_left Z.mul dom 1%Z).
(** pf/homoLinElast.go:137-150, NewHomogeneousModolus. *)
Definition el_new (solve : matrix -> matrix -> matrix) (dom : list Z) (mat : rank4) (misfit : matrix) : elastic :=
  {| el_dim := length dom; el_nodes := grid_nodes dom; el_field := repeat 0 (grid_nodes dom);
     el_misfit := misfit; el_mat := mat; el_solve := solve; el_ft := fftw_transform dom |}.

(** elasticity/linearElasticity.go:137-162 and strainEnergyCLI.go:101-120: the
    strain matrices of all nodes with the misfit strain taken off where the
    indicator exceeds one half, and the sum of their energy densities. *)
Section Total.
  Context (n : nat) (ft : transform) (freq : nat -> nat -> R) (disp : nat -> nat -> C) (misfit : matrix) (ind : data).
  Definition strain_entry (i j k : nat) : R :=
    let re := Re (nth k (ifft ft (map (fun q => strain (freq q) (disp q) i j) (seq 0 n))) C0) / INR n in
    if Rlt_dec 0.5 (Re (nth k ind C0)) then re - misfit i j else re.
  Definition strain_matrix (k : nat) : matrix := fun i j => strain_entry (Nat.min i j) (Nat.max i j) k.
  Definition sum_density (c : tensor) (energy : R) : R :=
    fold_left (fun acc k => acc + energy_density c (strain_matrix k)) (seq 0 n) energy.
End Total.

(** elasticity/linearElasticity.go:123-130: the frequency with three components. *)
Definition freq3 (dim : nat) (ft : transform) (k : nat) : nat -> R :=
  fun d => if Nat.eqb dim 3 then nth d (tfreq ft k) 0 else if Nat.ltb d 2 then nth d (tfreq ft k) 0 else 0.

(** elasticity/linearElasticity.go:101-165, HomogeneousModulusEnergy: the
    returned number and what the argument holds afterwards. *)
Definition homogeneous_energy (solve : matrix -> matrix -> matrix) (dom : list Z) (misfit : matrix) (mat : rank4) (indicator : data) : R * data :=
  let n := length indicator in
  let ft := fftw_transform dom in
  let vol := fold_left (fun s z => s + Re z) indicator 0 in
  let amp := fft ft indicator in
  let force := fun k comp => effective_force mat misfit (length (tfreq ft k)) comp (fun d => nth d (tfreq ft k) 0) (nth k amp C0) in
  let freq := freq3 (length dom) ft in
  let disp := fun k => displacement solve (rat mat) (freq k) (force k) in
  let ind := to_real ft amp in
  (sum_density n ft freq disp misfit ind (rat mat) 0 / vol, ind).

(** elasticity/shapes.go:11-27, Ellipsoid, and strainEnergyCLI.go:40-54: the
    value of the voxel with indices i, j, k. *)
Definition ellipsoid_voxel (N : Z) (a b c : R) (ijk : Z * Z * Z) : C :=
  let '(i, j, k) := ijk in
  let x := IZR (i - Z.quot N 2) in let y := IZR (j - Z.quot N 2) in let z := IZR (k - Z.quot N 2) in
  let value := (x / a) ^ 2 + (y / b) ^ 2 + (z / c) ^ 2 in
  if Rle_dec value 1 then C1 else C0.
(** The data of the voxel array; [coords] is the layout of the sfft package:
    the indices of the node at a position of the underlying slice.
    elasticity/shapes.go, the voxels of an ellipsoid. *)
Definition ellipsoid (coords : nat -> Z * Z * Z) (N : Z) (a b c : R) : data :=
  map (fun q => ellipsoid_voxel N a b c (coords q)) (seq 0 (Z.to_nat (N * N * N))).

(** elasticity/strainEnergyCLI.go:12-21, StrainEnergyInput; nil is None. *)
Record strain_input := {
  si_a : R; si_b : R; si_c : R;
  si_misfit : list R;
  si_matrix : option (list R);
  si_inc : option (list R);
  si_size : Z;
  si_perturb : bool
}.
(** elasticity/strainEnergyCLI.go:27-37: the misfit strain of six numbers. *)
Definition misfit_of (m : list R) : matrix :=
  let s q := 0.5 * nth q m 0 in
  mset (mset (mset (mset (mset (mset (mset (mset (mset mzero 0 0 (nth 0 m 0)) 1 1 (nth 1 m 0)) 2 2 (nth 2 m 0))
    0 1 (s 5%nat)) 1 0 (s 5%nat)) 0 2 (s 4%nat)) 2 0 (s 4%nat)) 1 2 (s 3%nat)) 2 1 (s 3%nat).
Definition slice {A} (x : option (list A)) : list A := match x with Some l => l | None => [] end.

(** elasticity/strainEnergyCLI.go:25-128, CalculateStrainEnergy; [ft] and
    [coords] are the sfft transform and layout.  None: index out of range. *)
Definition strain_energy_tool (solve : matrix -> matrix -> matrix) (ft : transform) (coords : nat -> Z * Z * Z) (p : strain_input) : option R :=
  if Nat.ltb (length (si_misfit p)) 6 then None else
  match from_flat_voigt (slice (si_matrix p)), from_flat_voigt (slice (si_inc p)) with
  | Some mat, Some inc =>
    let misfit := misfit_of (si_misfit p) in
    let shape := ellipsoid coords (si_size p) (si_a p) (si_b p) (si_c p) in
    let n := length shape in
    let amp := fft ft shape in
    let freq := fun k d => nth d (tfreq ft k) 0 in
    let force := fun k comp => effective_force mat misfit (length (tfreq ft k)) comp (freq k) (nth k amp C0) in
    let disp0 := fun k => displacement solve (rat mat) (freq k) (force k) in
    let ind := to_real ft amp in
    let diff : rank4 := match si_inc p with Some _ => fun q => inc q - mat q | None => rank4_zero end in
    let disp := match si_inc p with
      | Some _ => if si_perturb p then
          let lift (F : data -> data) (x : nat -> C) (k : nat) : C := nth k (F (map x (seq 0 n))) C0 in
          let corr := perturbed_force n 3 (lift (fft ft)) (lift (ifft ft)) freq misfit disp0 (fun k => Re (nth k ind C0)) (rat diff) in
          fun k comp => Cadd (disp0 k comp) (displacement solve (rat mat) (freq k) (corr k) comp)
        else disp0
      | None => disp0
      end in
    let energy := sum_density n ft freq disp misfit ind (rat mat) 0 in
    let energy := match si_matrix p with Some _ => sum_density n ft freq disp misfit ind (rat diff) energy | None => energy end in
    let vol := 4 * PI * si_a p * si_b p * si_c p / 3 in
    Some (energy / vol)
  | _, _ => None
  end.
