(** Ellipsoids, misfit strains and the strain energy tool. *)
From Verif Require Import StrainSpec StrainProofs StrainProofs2 StrainProofs3 StrainProofs4 ElasticProofs EnergyProofs3 GradProofs DftProofs IndexProofs StepProofs Vec CVec.
From Verif Require Import Complex.
From Coq Require Import Lra Lia FunctionalExtensionality.
Open Scope R_scope.

Theorem voxel_inside N a b c i j k : (0 <= N)%Z ->
  let inside := in_ellipsoid a b c (IZR (i - N / 2)) (IZR (j - N / 2)) (IZR (k - N / 2)) in
  (inside -> ellipsoid_voxel N a b c (i, j, k) = C1) /\ (~ inside -> ellipsoid_voxel N a b c (i, j, k) = C0).
Proof.
  intros L. cbv zeta. unfold ellipsoid_voxel, in_ellipsoid. rewrite Z.quot_div_nonneg by lia. destruct (Rle_dec _ 1) as [H|H]; split; intros H'; auto; contradiction.
Qed.
Theorem voxel_mirror N a b c i j k : (0 <= N)%Z -> Z.odd N = true -> ellipsoid_voxel N a b c (N - 1 - i, j, k)%Z = ellipsoid_voxel N a b c (i, j, k) /\
  ellipsoid_voxel N a b c (i, N - 1 - j, k)%Z = ellipsoid_voxel N a b c (i, j, k) /\ ellipsoid_voxel N a b c (i, j, N - 1 - k)%Z = ellipsoid_voxel N a b c (i, j, k).
Proof.
  intros H0 Ho. unfold ellipsoid_voxel. rewrite Z.quot_div_nonneg by lia.
  assert (E : (N = 2 * (N / 2) + 1)%Z) by (rewrite Zodd_mod in Ho; apply Zeq_bool_eq in Ho; pose proof (Z.div_mod N 2 ltac:(lia)); lia).
  assert (M : forall q r : Z, forall s : R, ((IZR (N - 1 - q - r) / s) ^ 2 = (IZR (q - r) / s) ^ 2 \/ r <> (N / 2)%Z)).
  { intros q r s. destruct (Z.eq_dec r (N / 2)) as [->|X]; [left|right; exact X]. replace (N - 1 - q - N / 2)%Z with (- (q - N / 2))%Z by lia. rewrite opp_IZR. unfold Rdiv. ring. }
  repeat split; cbv zeta.
  - destruct (M i (N / 2)%Z a) as [->|X]; [reflexivity|congruence].
  - destruct (M j (N / 2)%Z b) as [->|X]; [reflexivity|congruence].
  - destruct (M k (N / 2)%Z c) as [->|X]; [reflexivity|congruence].
Qed.

Lemma misfit_sym m : symmetric3 (misfit_of m).
Proof. intros [|[|[|i]]] [|[|[|j]]] Hi Hj; try lia; unfold misfit_of, mset, mzero; cbn [Nat.eqb andb]; reflexivity. Qed.
Theorem misfit_energy voigt t m : length voigt = 36%nat -> from_flat_voigt voigt = Some t ->
  energy_density (rat t) (misfit_of m) = / 2 * rsum 6 (fun p => rsum 6 (fun q => nth (6 * p + q) voigt 0 * nth p m 0 * nth q m 0)).
Proof.
  intros L E. assert (Hf : 0.5 = / 2) by lra. unfold energy_density. rewrite Hf. f_equal.
  assert (V : forall i j k l, (i < 3)%nat -> (j < 3)%nat -> (k < 3)%nat -> (l < 3)%nat -> rat t i j k l = nth (6 * voigt_number i j + voigt_number k l) voigt 0).
  { destruct (voigt_at voigt) as (t' & E' & V); [lia|]. rewrite E in E'. injection E' as <-. intros i j k l Hi Hj Hk Hl. apply V; assumption. }
  rewrite (rsum4_ext _ (fun i j k l => nth (6 * voigt_number i j + voigt_number k l) voigt 0 * misfit_of m i j * misfit_of m k l)) by (intros; rewrite V by assumption; reflexivity).
  unfold misfit_of, mset, mzero, voigt_number. rewrite Hf. cbn [rsum Nat.eqb andb Nat.sub Nat.mul Nat.add]. field.
Qed.

(** ** The tool *)
Section Tool.
  Variables (N : Z) (coords : nat -> Z * Z * Z) (p : strain_input) (solve : matrix -> matrix -> matrix) (mat : rank4).
  Let dom := [N; N; N].
  Let ft := fftw_transform dom.
  Let n := nodes dom.
  Hypothesis HN : (0 < N <= 5000000000)%Z.
  Hypothesis Ho : Z.odd N = true.
  Hypothesis Hsol : solves solve.
  Hypothesis Hsize : si_size p = N.
  Hypothesis H6 : (6 <= length (si_misfit p))%nat.
  Hypothesis Hmat : from_flat_voigt (slice (si_matrix p)) = Some mat.
  Hypothesis St : stiff (rat mat).
  Let misfit := misfit_of (si_misfit p).
  Let shape := ellipsoid coords N (si_a p) (si_b p) (si_c p).

  Lemma cube_regular : regular_grid dom.
  Proof.
    unfold regular_grid, dom. split; [|split; [|split]].
    - split; [right; reflexivity|]. repeat constructor; lia.
    - right. auto.
    - repeat constructor; lia.
    - repeat constructor; exact Ho.
  Qed.
  Lemma shape_length : length shape = n.
  Proof. unfold shape, ellipsoid. rewrite map_length, seq_length. unfold n, nodes, num_nodes, dom. cbn [fold_right]. f_equal. ring. Qed.
  Lemma shape_binary i : (i < n)%nat -> nth i shape C0 = C0 \/ nth i shape C0 = C1.
  Proof.
    intros Hi. rewrite <- shape_length in Hi. destruct (proj1 (in_map_iff _ _ _) (nth_In shape C0 Hi)) as (q & <- & _).
    unfold ellipsoid_voxel. destruct (coords q) as [[a b] c]. destruct (Rle_dec _ 1); auto.
  Qed.
  Lemma shape_real : real_field shape.
  Proof.
    apply RealProofs.real_field_nth. intros i Hi. rewrite shape_length in Hi. destruct (shape_binary i Hi) as [-> | ->]; reflexivity.
  Qed.
  Lemma shape_solid i : (i < n)%nat -> solid shape i = value shape i.
  Proof. intros L. unfold solid, value. destruct (shape_binary i L) as [-> | ->]; cbn [Re C0 C1 fst]; destruct (Rlt_dec (1 / 2) _); lra. Qed.
  Lemma solid_energy c eps : total_energy n c misfit (solid shape) eps = total_energy n c misfit (value shape) eps.
  Proof. unfold total_energy. apply rsum_ext. intros k Hk. rewrite (shape_solid k Hk). reflexivity. Qed.
  Let F : nat -> nat -> C := fun k comp => effective_force mat misfit (length (tfreq ft k)) comp (fun d => nth d (tfreq ft k) 0) (nth k (fft ft shape) C0).

  Lemma tool_unfold inc : from_flat_voigt (slice (si_inc p)) = Some inc -> (si_inc p = None \/ si_perturb p = false) ->
    let diff : rank4 := match si_inc p with Some _ => fun q => inc q - mat q | None => rank4_zero end in
    let disp := fun k => displacement solve (rat mat) (wave ft k) (F k) in
    strain_energy_tool solve ft coords p =
    Some ((match si_matrix p with Some _ => sum_density n ft (wave ft) disp misfit shape (rat diff) (sum_density n ft (wave ft) disp misfit shape (rat mat) 0)
           | None => sum_density n ft (wave ft) disp misfit shape (rat mat) 0 end) / (4 * PI * si_a p * si_b p * si_c p / 3)).
  Proof.
    intros Hinc Hp diff disp. unfold strain_energy_tool. destruct (Nat.ltb_spec (length (si_misfit p)) 6); [lia|]. rewrite Hmat, Hinc, Hsize. fold shape misfit. cbv zeta.
    rewrite shape_length.
    assert (E : to_real ft (fft ft shape) = shape) by (apply (gt_left _ _ (fftw_good dom (proj1 cube_regular))), shape_length).
    rewrite E. do 2 f_equal.
    assert (D : match si_inc p with
      | Some _ => if si_perturb p then fun k comp => Cadd (displacement solve (rat mat) (fun d => nth d (tfreq ft k) 0) (F k) comp)
          (displacement solve (rat mat) (fun d => nth d (tfreq ft k) 0) (perturbed_force n 3 (fun x k0 => nth k0 (fft ft (map x (seq 0 n))) C0) (fun x k0 => nth k0 (ifft ft (map x (seq 0 n))) C0) (fun k d => nth d (tfreq ft k) 0) misfit disp (fun k0 => Re (nth k0 shape C0)) (rat diff) k) comp)
          else disp
      | None => disp end = disp) by (destruct Hp as [->| ->]; [reflexivity|destruct (si_inc p); reflexivity]).
    unfold disp, wave in D |- *. unfold F in D |- *. fold diff. destruct (si_matrix p); rewrite D; reflexivity.
  Qed.

  Theorem tool_matrix_only : si_inc p = None ->
    exists eps, equilibrium_strain n ft (rat mat) misfit (value shape) eps /\
      strain_energy_tool solve ft coords p = Some (total_energy n (rat mat) misfit (value shape) eps / (4 * PI * si_a p * si_b p * si_c p / 3)).
  Proof.
    intros Hi. exists (sol_strain dom solve mat F).
    split; [exact (tool_equilibrium dom cube_regular solve mat misfit Hsol St shape shape_length shape_real)|].
    rewrite (tool_unfold rank4_zero) by (try (left; exact Hi); rewrite Hi; reflexivity). rewrite Hi. do 2 f_equal.
    assert (T := tool_total dom cube_regular solve mat misfit Hsol St (misfit_sym _) shape shape_length shape_real
      (fun k => displacement solve (rat mat) (wave ft k) (F k)) (wave ft) 0 (fun q _ => eq_refl) (fun q _ => eq_refl)).
    fold ft in T. fold n in T. rewrite T, Rplus_0_l, solid_energy. destruct (si_matrix p); [|reflexivity].
    rewrite sum_density_rsum, (rsum_ext n _ (fun _ => 0)), rsum_0; [apply Rplus_0_r|].
    intros k _. unfold energy_density. rewrite (rsum4_ext _ (fun _ _ _ _ => 0)); [cbn [rsum]; ring|]. intros. unfold rat, rank4_zero. ring.
  Qed.

  (** the tensor of the inclusion is used everywhere *)
  Theorem tool_inclusion inc flat : si_inc p = Some flat -> si_matrix p <> None -> si_perturb p = false -> from_flat_voigt flat = Some inc ->
    exists eps, equilibrium_strain n ft (rat mat) misfit (value shape) eps /\
      strain_energy_tool solve ft coords p = Some (total_energy n (rat inc) misfit (value shape) eps / (4 * PI * si_a p * si_b p * si_c p / 3)).
  Proof.
    intros Hi Hm Hp Hinc. exists (sol_strain dom solve mat F).
    split; [exact (tool_equilibrium dom cube_regular solve mat misfit Hsol St shape shape_length shape_real)|].
    rewrite (tool_unfold inc) by (try (right; exact Hp); rewrite Hi; exact Hinc). rewrite Hi. do 2 f_equal.
    destruct (si_matrix p); [|contradiction]. rewrite !sum_density_rsum, Rplus_0_l, <- rsum_plus. unfold total_energy. apply rsum_ext. intros k Hk.
    set (sm := strain_matrix _ _ _ _ _ _ k).
    transitivity (energy_density (rat inc) sm).
    - rewrite !bil_energy. unfold bil. rewrite <- Rmult_plus_distr_l. f_equal. 
      rewrite <- rsum_plus. apply rsum_ext; intros i _. rewrite <- rsum_plus. apply rsum_ext; intros j _.
      rewrite <- rsum_plus. apply rsum_ext; intros q _. rewrite <- rsum_plus. apply rsum_ext; intros r _. unfold rat. ring.
    - rewrite (energy_density_ext _ sm (fun i j => sol_strain dom solve mat F k i j - misfit i j * solid shape k)).
      + rewrite (shape_solid k Hk). unfold energy_density. lra.
      + intros i j Hi' Hj'. exact (tool_strain dom cube_regular solve mat misfit Hsol St (misfit_sym _) shape shape_length shape_real
          (fun k => displacement solve (rat mat) (wave ft k) (F k)) (wave ft) k Hk (fun q _ => eq_refl) (fun q _ => eq_refl) i j Hi' Hj').
  Qed.
End Tool.

Lemma isotropic_stiff b v : 0 < b -> -1 < v < 1 / 2 -> stiff (rat (isotropic b v)).
Proof.
  intros Hb Hv. destruct (isotropic_symmetric b v) as (S1 & S2 & S3). split; [exact S1|]. split; [exact S2|]. split; [exact S3|].
  intros e Se (i & j & Hi & Hj & Ne). destruct (isotropic_energy_positive b v e Hb Hv Se) as [[P|Z] Q]; [exact P|]. exfalso. apply Ne. apply Q; auto.
Qed.
