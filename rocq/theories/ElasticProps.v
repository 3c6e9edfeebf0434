(** C45, C46, C56: stiffness tensors, mechanical equilibrium, perturbations. *)
From Verif Require Import ElasticModel ElasticSpec ElasticProofs.
Open Scope R_scope.

(** C45.  Isotropic tensors. *)
Theorem C45_isotropic_symmetries b v :
  sym_first (rat (isotropic b v)) /\ sym_last (rat (isotropic b v)) /\ sym_major (rat (isotropic b v)).
Proof. exact (isotropic_symmetric b v). Qed.
Print Assumptions C45_isotropic_symmetries.
Theorem C45_isotropic_same_in_all_directions r b v i j k l : orthogonal r -> (i < 3 /\ j < 3 /\ k < 3 /\ l < 3)%nat ->
  rat (rotate r (isotropic b v)) i j k l = rat (isotropic b v) i j k l.
Proof. exact (isotropic_invariant r b v i j k l). Qed.
Print Assumptions C45_isotropic_same_in_all_directions.
Theorem C45_isotropic_energy b v e : (forall i j, (i < 3)%nat -> (j < 3)%nat -> e i j = e j i) ->
  energy_density (rat (isotropic b v)) e
  = / 2 * (b - 2 * shear_modulus b v / 3) * (rsum 3 (fun i => e i i)) ^ 2 + shear_modulus b v * rsum 3 (fun i => rsum 3 (fun j => e i j ^ 2)).
Proof. exact (isotropic_energy b v e). Qed.
Print Assumptions C45_isotropic_energy.
Theorem C45_isotropic_energy_positive b v e : 0 < b -> -1 < v < 1 / 2 -> (forall i j, (i < 3)%nat -> (j < 3)%nat -> e i j = e j i) ->
  0 <= energy_density (rat (isotropic b v)) e /\
  (energy_density (rat (isotropic b v)) e = 0 -> forall i j, (i < 3)%nat -> (j < 3)%nat -> e i j = 0).
Proof. exact (isotropic_energy_positive b v e). Qed.
Print Assumptions C45_isotropic_energy_positive.

(** C45.  Tensors built from Voigt's matrix. *)
Theorem C45_voigt_entries voigt : (length voigt <= 36)%nat ->
  exists t, from_flat_voigt voigt = Some t /\
    forall i j k l, (i < 3)%nat -> (j < 3)%nat -> (k < 3)%nat -> (l < 3)%nat ->
      rat t i j k l = nth (6 * voigt_number i j + voigt_number k l) voigt 0.
Proof. exact (voigt_at voigt). Qed.
Print Assumptions C45_voigt_entries.
Theorem C45_voigt_minor_symmetries voigt t : (length voigt <= 36)%nat -> from_flat_voigt voigt = Some t -> sym_first (rat t) /\ sym_last (rat t).
Proof. exact (voigt_minor voigt t). Qed.
Print Assumptions C45_voigt_minor_symmetries.
Theorem C45_voigt_major_symmetry voigt t : (length voigt <= 36)%nat -> from_flat_voigt voigt = Some t ->
  (forall p q, (p < 6)%nat -> (q < 6)%nat -> nth (6 * p + q) voigt 0 = nth (6 * q + p) voigt 0) -> sym_major (rat t).
Proof. exact (voigt_major voigt t). Qed.
Print Assumptions C45_voigt_major_symmetry.
Theorem C45_voigt_too_long_panics voigt : (36 < length voigt)%nat -> from_flat_voigt voigt = None.
Proof. exact (voigt_too_long voigt). Qed.
Print Assumptions C45_voigt_too_long_panics.

(** C45.  Rotation keeps symmetries, composes, and commutes with contraction. *)
Theorem C45_rotation_keeps_symmetries r t :
  (sym_first (rat t) -> sym_first (rat (rotate r t))) /\ (sym_last (rat t) -> sym_last (rat (rotate r t))) /\
  (sym_major (rat t) -> sym_major (rat (rotate r t))).
Proof. exact (conj (rotate_sym_first r t) (conj (rotate_sym_last r t) (rotate_sym_major r t))). Qed.
Print Assumptions C45_rotation_keeps_symmetries.
Theorem C45_rotations_compose a b t i j k l : (i < 3 /\ j < 3 /\ k < 3 /\ l < 3)%nat ->
  rat (rotate a (rotate b t)) i j k l = rat (rotate (mmul 3 a b) t) i j k l.
Proof. exact (rotate_composes a b t i j k l). Qed.
Print Assumptions C45_rotations_compose.
Theorem C45_rotation_commutes_with_contraction r t e i j : orthogonal r -> (i < 3)%nat -> (j < 3)%nat ->
  contract_last (rotate r t) (rotated2 r e) i j = rotated2 r (contract_last t e) i j.
Proof. exact (contraction_covariant r t e i j). Qed.
Print Assumptions C45_rotation_commutes_with_contraction.
Theorem C45_energy_is_invariant r t e : orthogonal r -> energy_density (rat (rotate r t)) (rotated2 r e) = energy_density (rat t) e.
Proof. exact (energy_invariant r t e). Qed.
Print Assumptions C45_energy_is_invariant.
Theorem C45_rotation_matrices angle axis : (axis < 3)%nat ->
  orthogonal (rotation_matrix angle axis) /\ det3 (rotation_matrix angle axis) = 1.
Proof. exact (rotation_orthogonal angle axis). Qed.
Print Assumptions C45_rotation_matrices.
Theorem C45_angles_add a b axis : (axis < 3)%nat ->
  meq_on 3 (mmul 3 (rotation_matrix a axis) (rotation_matrix b axis)) (rotation_matrix (a + b) axis).
Proof. exact (rotation_adds a b axis). Qed.
Print Assumptions C45_angles_add.

(** C45.  Cubic tensors: major symmetry and the documented entries, but no
    minor symmetry: the stress of a shear strain is half of 2 c44. *)
Theorem C45_cubic_partial c11 c12 c44 : sym_major (rat (cubic_material c11 c12 c44)) /\
  forall i j, (i < 3)%nat -> (j < 3)%nat -> i <> j ->
  rat (cubic_material c11 c12 c44) i i i i = c11 /\ rat (cubic_material c11 c12 c44) i i j j = c12 /\
  rat (cubic_material c11 c12 c44) i j i j = c44.
Proof.
  split; [exact (cubic_major c11 c12 c44)|]. intros i j Hi Hj Hne. destruct (cubic_entries c11 c12 c44 i j Hi Hj Hne) as (A & B & D & _).
  exact (conj A (conj B D)).
Qed.
Print Assumptions C45_cubic_partial.
Theorem C45_cubic_minor_symmetry_refuted c11 c12 c44 : c44 <> 0 ->
  ~ sym_last (rat (cubic_material c11 c12 c44)) /\ ~ sym_first (rat (cubic_material c11 c12 c44)) /\
  contract_last (cubic_material c11 c12 c44) (mset (mset mzero 0 1 1) 1 0 1) 0%nat 1%nat = c44.
Proof.
  intros Hc. assert (A : rat (cubic_material c11 c12 c44) 0 1 0 1 = c44) by reflexivity.
  assert (B : rat (cubic_material c11 c12 c44) 0 1 1 0 = 0) by reflexivity. assert (D : rat (cubic_material c11 c12 c44) 1 0 0 1 = 0) by reflexivity.
  split; [|split].
  - intros H. apply Hc. rewrite <- A, (H 0 1 0 1)%nat by lia. exact B.
  - intros H. apply Hc. rewrite <- A, (H 0 1 0 1)%nat by lia. exact D.
  - unfold contract_last. cbn [rsum]. rewrite A, B. unfold mset, mzero. cbn [Nat.eqb andb]. ring.
Qed.
Print Assumptions C45_cubic_minor_symmetry_refuted.

(** C45.  The senses of rotation differ between the axes. *)
Theorem C45_sense_of_rotation_refuted angle : sin angle <> 0 ->
  (forall i j, (i < 3)%nat -> (j < 3)%nat ->
     rotation_matrix angle 2 (Nat.modulo (i + 2) 3) (Nat.modulo (j + 2) 3) = rotation_matrix angle 0 i j) /\
  ~ (forall i j, (i < 3)%nat -> (j < 3)%nat ->
     rotation_matrix angle 1 (Nat.modulo (i + 1) 3) (Nat.modulo (j + 1) 3) = rotation_matrix angle 0 i j).
Proof.
  intros Hs. split.
  - intros [|[|[|i]]] [|[|[|j]]] Hi Hj; try lia; unfold rotation_matrix, mset, mzero; cbn; reflexivity.
  - intros H. specialize (H 1%nat 2%nat ltac:(lia) ltac:(lia)). unfold rotation_matrix, mset, mzero in H. cbn in H. lra.
Qed.
Print Assumptions C45_sense_of_rotation_refuted.

Example C45_nonvacuous : orthogonal (rotation_matrix (PI / 2) 1) /\ -1 < 0.3 < 1 / 2 /\
  (forall i j, (i < 3)%nat -> (j < 3)%nat -> mset (mset mzero 0 1 1) 1 0 1 i j = mset (mset mzero 0 1 1) 1 0 1 j i).
Proof.
  split; [exact (proj1 (C45_rotation_matrices (PI / 2) 1 ltac:(lia)))|]. split; [lra|].
  intros [|[|[|i]]] [|[|[|j]]] Hi Hj; try lia; reflexivity.
Qed.

(** C46.  [solve] is any exact solver of regular systems. *)
Theorem C46_displacement_solves_equilibrium solve c f force m :
  solves solve -> (exists i, (i < 3)%nat /\ / 10 ^ 10 <= Rabs (f i)) ->
  det3 (displacement_matrix c f) <> 0 -> (m < 3)%nat ->
  csum 3 (fun n => csum 3 (fun j => csum 3 (fun l =>
    Cmul (RtoC (c m j n l * (2 * PI * f j) * (2 * PI * f l))) (displacement solve c f force n)))) = force m.
Proof. exact (displacement_solves solve c f force m). Qed.
Print Assumptions C46_displacement_solves_equilibrium.
Theorem C46_zero_frequency solve c force i f : (forall a, (a < 3)%nat -> f a = 0) -> displacement solve c f force i = C0.
Proof. exact (displacement_zero solve c force i f). Qed.
Print Assumptions C46_zero_frequency.
Theorem C46_strain_symmetric f u m n : strain f u m n = strain f u n m.
Proof. exact (strain_symmetric f u m n). Qed.
Print Assumptions C46_strain_symmetric.

(** The stress of the computed strains and the misfit is free of divergence,
    for every mode away from the Nyquist frequency and every tensor with the
    minor symmetry. *)
Theorem C46_stress_in_equilibrium_partial solve (t : rank4) misfit f theta m :
  let c := rat t in
  let u := displacement solve c f (fun a => effective_force t misfit 3 a f theta) in
  solves solve -> sym_last c -> regular_frequency f -> det3 (displacement_matrix c f) <> 0 -> (m < 3)%nat ->
  divergence_mode f (stress_mode c (strain f u) misfit theta) m = C0.
Proof. exact (equilibrium solve t misfit f theta m). Qed.
Print Assumptions C46_stress_in_equilibrium_partial.

(** Isotropic materials always have a displacement. *)
Theorem C46_isotropic_regular b v f : 0 < b -> -1 < v < 1 / 2 -> (exists i, (i < 3)%nat /\ f i <> 0) ->
  det3 (displacement_matrix (rat (isotropic b v)) f) <> 0.
Proof. exact (isotropic_regular b v f). Qed.
Print Assumptions C46_isotropic_regular.

Definition quarter (i : nat) : R := if Nat.eqb i 0 then 1 / 4 else 0.
Example C46_nonvacuous : solves cramer /\ regular_frequency quarter /\
  det3 (displacement_matrix (rat (isotropic 60 0.3)) quarter) <> 0.
Proof.
  assert (T : / 10 ^ 10 <= 1 / 4) by (apply Rle_trans with (/ 4); [apply Rinv_le_contravar; [lra|cbn; lra]|lra]).
  split; [exact cramer_solves|]. split; [split|].
  - exists 0%nat. split; [lia|]. unfold quarter. cbn [Nat.eqb]. rewrite Rabs_pos_eq; lra.
  - intros [|i] Hi; unfold quarter; cbn [Nat.eqb].
    + rewrite (Rabs_pos_eq (1 / 4)) by lra. rewrite Rabs_left by lra. lra.
    + rewrite Rabs_R0. rewrite Rabs_left by lra. lra.
  - apply C46_isotropic_regular; [lra|lra|]. exists 0%nat. split; [lia|]. unfold quarter. cbn. lra.
Qed.

(** Without the symmetry, and CubicMaterial lacks it, half of the force is left. *)
Definition quarter_y (i : nat) : R := if Nat.eqb i 1 then 1 / 4 else 0.
Definition shear_misfit : matrix := mset (mset mzero 0 1 1) 1 0 1.
Theorem C46_cubic_material_refuted solve c11 c12 c44 : solves solve -> c11 <> 0 -> c44 <> 0 ->
  let t := cubic_material c11 c12 c44 in
  let force := fun a => effective_force t shear_misfit 3 a quarter_y C1 in
  let u := displacement solve (rat t) quarter_y force in
  det3 (displacement_matrix (rat t) quarter_y) <> 0 /\ regular_frequency quarter_y /\
  divergence_mode quarter_y (stress_mode (rat t) (strain quarter_y u) shear_misfit C1) 0 = Cmul (RtoC (/ 2)) (force 0%nat) /\
  force 0%nat <> C0.
Proof.
  intros Hs H11 H44 t force u. assert (HP := PI_RGT_0).
  assert (D : det3 (displacement_matrix (rat t) quarter_y) = c11 * c44 * c44 * ((2 * PI) ^ 2 / 16) ^ 3).
  { unfold det3, ent, displacement_matrix, quarter_y, t. cbn [rsum fold_left Nat.eqb Nat.mul Nat.add rat cubic_material rindex rset cubic_pair rank4_zero loop3]. unfold rank4_zero. field. }
  assert (R0 : det3 (displacement_matrix (rat t) quarter_y) <> 0).
  { rewrite D. assert (Q : ((2 * PI) ^ 2 / 16) ^ 3 <> 0) by (apply pow_nonzero, Rgt_not_eq; assert (0 < (2 * PI) ^ 2) by (apply pow_lt; lra); lra).
    apply Rmult_integral_contrapositive_currified; [apply Rmult_integral_contrapositive_currified; [apply Rmult_integral_contrapositive_currified|]|]; assumption. }
  assert (T : / 10 ^ 10 <= 1 / 4) by (apply Rle_trans with (/ 4); [apply Rinv_le_contravar; [lra|cbn; lra]|lra]).
  assert (RF : regular_frequency quarter_y).
  { split.
    - exists 1%nat. split; [lia|]. unfold quarter_y. cbn [Nat.eqb]. rewrite Rabs_pos_eq; lra.
    - intros [|[|i]] Hi; unfold quarter_y; cbn [Nat.eqb].
      + rewrite Rabs_R0. rewrite Rabs_left by lra. lra.
      + rewrite (Rabs_pos_eq (1 / 4)) by lra. rewrite Rabs_left by lra. lra.
      + rewrite Rabs_R0. rewrite Rabs_left by lra. lra. }
  assert (F : force 0%nat = (0, - c44 * 2 * PI * (1 / 4))).
  { unfold force, effective_force, contract_last, quarter_y, shear_misfit, mset, mzero, t.
    cbn [rat cubic_material rindex rset cubic_pair rank4_zero loop3 rsum csum fold_left Nat.eqb Nat.mul Nat.add andb]. unfold rank4_zero. csolve. }
  split; [exact R0|]. split; [exact RF|]. split.
  - assert (E := C46_displacement_solves_equilibrium solve (rat t) quarter_y force 0 Hs (proj1 RF) R0 ltac:(lia)). fold u in E.
    rewrite F in E |- *.
    assert (E' : Cmul (RtoC (c44 * (2 * PI * (1 / 4)) ^ 2)) (u 0%nat) = (0, - c44 * 2 * PI * (1 / 4))).
    { rewrite <- E. unfold t, quarter_y. cbn [rat cubic_material rindex rset cubic_pair rank4_zero loop3 csum fold_left Nat.eqb Nat.mul Nat.add]. unfold rank4_zero.
      apply C_eq; cbn [Re Im Cadd Cmul RtoC C0 fst snd]; ring. }
    unfold divergence_mode, stress_mode. cbn [csum]. rewrite (strain_grad quarter_y u 0 1 RF) by lia.
    unfold grad, t, quarter_y, shear_misfit, mset, mzero. cbn [rat cubic_material rindex rset cubic_pair rank4_zero loop3 fold_left Nat.eqb Nat.mul Nat.add andb]. unfold rank4_zero.
    assert (E1 := f_equal Re E'). assert (E2 := f_equal Im E'). cbn [Re Im Cmul RtoC fst snd] in E1, E2.
    apply C_eq; cbn [Re Im Cadd Csub Cmul RtoC C0 C1 fst snd]; unfold Re, Im in *; lra.
  - rewrite F. intros E. injection E as E. assert (c44 * PI = 0) by lra. apply Rmult_integral in H. lra.
Qed.
Print Assumptions C46_cubic_material_refuted.

(** C56.  The force of a perturbation, exactly. *)
Theorem C56_force_partial n fft ifft freq misfit disp shape c k comp :
  sym_last c -> (forall i j, (i < 3)%nat -> (j < 3)%nat -> misfit i j = misfit j i) -> (comp < 3)%nat ->
  perturbed_force n 3 fft ifft freq misfit disp shape c k comp
  = Copp (csum 3 (fun q => csum 3 (fun i => csum 3 (fun j =>
      Cmul (RtoC (c comp q i j)) (Cmul (0, 2 * PI * freq k comp) (excess_strain n fft ifft misfit (fun q => strain (freq q) (disp q)) shape i j k)))))).
Proof. exact (perturbed_value n fft ifft freq misfit disp shape c k comp). Qed.
Print Assumptions C56_force_partial.

(** C56.  It is not the documented one: a shear misfit gives no force
    normal to the wave vector although the documented force is not zero. *)
Theorem C56_documented_force_refuted n fft ifft freq shape b v k :
  0 < b -> -1 < v < 1 / 2 ->
  ifft (fun _ => C0) = (fun _ => C0) -> fft (fun x => RtoC (shape x)) k <> C0 ->
  freq k 0%nat = 0 -> freq k 1%nat <> 0 -> freq k 2%nat = 0 ->
  let disp := fun _ _ => C0 in
  perturbed_force n 3 fft ifft freq shear_misfit disp shape (rat (isotropic b v)) k 0 = C0 /\
  documented_force (rat (isotropic b v)) (freq k)
    (fun i j => excess_strain n fft ifft shear_misfit (fun q => strain (freq q) (disp q)) shape i j k) 0 <> C0.
Proof.
  intros Hb Hv Hi Hs F0 F1 F2 disp. split; [exact (perturbed_zero n 3 fft ifft freq shear_misfit disp shape (rat (isotropic b v)) k 0 F0)|].
  assert (Hm := shear_pos b v Hb Hv).
  assert (St : forall i j, (fun x => strain (freq x) (disp x) i j) = (fun _ => C0)).
  { intros i j. apply FunctionalExtensionality.functional_extensionality. intros x. unfold strain, disp. csolve. }
  assert (S01 : excess_strain n fft ifft shear_misfit (fun q => strain (freq q) (disp q)) shape 0 1 k = fft (fun x => RtoC (shape x)) k /\
                excess_strain n fft ifft shear_misfit (fun q => strain (freq q) (disp q)) shape 1 0 k = fft (fun x => RtoC (shape x)) k).
  { unfold excess_strain. rewrite !St, Hi. unfold shear_misfit, mset, mzero. cbn [Nat.eqb andb Re fst C0].
    split; f_equal; apply FunctionalExtensionality.functional_extensionality; intros x; unfold RtoC; f_equal; unfold Rdiv; ring. }
  destruct S01 as [S01 S10]. intros E. apply Hs. unfold documented_force in E. cbn [csum] in E. rewrite F0, F2, S01, S10 in E.
  assert (V : forall i j, (i < 3)%nat -> (j < 3)%nat -> rat (isotropic b v) 0 1 i j = shear_modulus b v * (kron 0 i * kron 1 j + kron 0 j * kron 1 i)).
  { intros i j Hi' Hj'. rewrite isotropic_at by (unfold q3; lia). unfold kron. cbn [Nat.eqb]. ring. }
  rewrite !V in E by lia. unfold kron in E. cbn [Nat.eqb] in E.
  set (z := fft (fun x => RtoC (shape x)) k) in *. set (mu := shear_modulus b v) in *.
  assert (P := PI_RGT_0). assert (NZ : 2 * mu * (2 * PI * freq k 1%nat) <> 0) by (apply Rmult_integral_contrapositive_currified; [lra|apply Rmult_integral_contrapositive_currified; [lra|exact F1]]).
  assert (Ere := f_equal Re E). assert (Eim := f_equal Im E). cbn [Re Im Cadd Cmul RtoC Copp C0 fst snd] in Ere, Eim.
  apply C_eq; cbn [Re Im C0 fst snd]; apply Rmult_eq_reg_l with (2 * mu * (2 * PI * freq k 1%nat)); try exact NZ; unfold Re, Im in *; lra.
Qed.
Print Assumptions C56_documented_force_refuted.

(** The hypotheses hold for a transform of two nodes. *)
Example C56_nonvacuous :
  let fft := fun (x : nat -> C) (k : nat) => if Nat.eqb k 0 then Cadd (x 0%nat) (x 1%nat) else Csub (x 0%nat) (x 1%nat) in
  fft (fun x => RtoC (if Nat.eqb x 0 then 1 else 0)) 1%nat <> C0 /\ fft (fun _ => C0) = (fun _ => C0).
Proof.
  split.
  - cbn. intros E. injection E. lra.
  - apply FunctionalExtensionality.functional_extensionality. intros k. destruct (Nat.eqb k 0); csolve.
Qed.
