(** Elastic energies of inclusions: C73 - C75. *)
From Verif Require Import StrainSpec StrainProofs StrainProofs2 StrainProofs3 StrainProofs4 StrainProofs5 StrainProofs6 StrainProofs7 StrainProofs8 ElasticProofs RealProofs EnergyProofs3 DftProofs Vec.
From Verif Require Import Complex.
From Coq Require Import Lra Lia.
Open Scope R_scope.

Notation after_step solve dom mat misfit x := (el_finished (el_new solve dom mat misfit) x).

(** C73.  Once a step is finished with the field x, the term is minus the
    derivative of the elastic energy of the body in mechanical equilibrium,
    in every direction v.  Missing: even extents, and two-dimensional bodies
    with a stress between the plane and the third axis, for which it is false
    (C73_even_extent_refuted, C73_out_of_plane_refuted). *)
Theorem C73_term_is_energy_derivative_partial dom solve mat misfit x v field :
  regular_grid dom -> solves solve -> stiff (rat mat) -> symmetric3 misfit ->
  (length dom = 3%nat \/ in_plane mat misfit) ->
  length x = nodes dom -> length v = nodes dom -> real_field x -> real_field v -> length field = nodes dom ->
  let ft := fftw_transform dom in
  let h t i := weight (value (perturb x v t) i) in
  exists En,
    (forall t, exists eps, equilibrium_strain (nodes dom) ft (rat mat) misfit (h t) eps /\ En t = total_energy (nodes dom) (rat mat) misfit (h t) eps) /\
    derivable_pt_lim En 0 (- pairing (nodes dom) (to_real ft (el_construct (after_step solve dom mat misfit x) field)) v).
Proof.
  intros Hg Hs St Sm Hd Lx Lv Rx Rv Lf ft h.
  destruct (term_is_derivative dom Hg solve mat misfit Hs St x v field Hd Lx Lv Rx Rv Lf) as (En & H & D).
  exists En. split; [|exact D]. intros t. destruct (H t) as (eps & E & T). exists eps.
  assert (W : (fun i => blend (value (perturb x v t) i)) = h t) by (apply FunctionalExtensionality.functional_extensionality; intros i; apply weight_blend).
  rewrite W in E, T. split; assumption.
Qed.
Print Assumptions C73_term_is_energy_derivative_partial.

(** C73.  The equilibrium strain, and so the energy, is unique. *)
Theorem C73_strain_unique dom c misfit h eps eps' :
  valid_domain dom -> stiff c ->
  equilibrium_strain (nodes dom) (fftw_transform dom) c misfit h eps -> equilibrium_strain (nodes dom) (fftw_transform dom) c misfit h eps' ->
  (forall i a b, (i < nodes dom)%nat -> (a < 3)%nat -> (b < 3)%nat -> eps i a b = eps' i a b) /\
  total_energy (nodes dom) c misfit h eps = total_energy (nodes dom) c misfit h eps'.
Proof.
  intros Hv St H H'.
  assert (Pn : (0 < nodes dom)%nat) by (unfold nodes; pose proof (IndexProofs.num_nodes_pos dom (proj2 Hv)); lia).
  assert (E := equilibrium_unique (nodes dom) (fftw_transform dom) (fftw_unitary dom Hv) Pn c misfit h eps eps' St H H').
  split; [exact E|]. unfold total_energy. apply rsum_ext. intros k Hk. f_equal.
  apply rsum_ext; intros i Hi; apply rsum_ext; intros j Hj; apply rsum_ext; intros p Hp; apply rsum_ext; intros q Hq. rewrite !E by assumption. reflexivity.
Qed.
Print Assumptions C73_strain_unique.

(** C73.  It fails in the first step: the term is zero whatever the initial
    field is, also where the energy has a slope. *)
Theorem C73_first_step_refuted dom solve mat misfit field :
  regular_grid dom -> solves solve -> stiff (rat mat) -> symmetric3 misfit -> (exists i j, (i < 3)%nat /\ (j < 3)%nat /\ misfit i j <> 0) ->
  length field = nodes dom ->
  let ft := fftw_transform dom in
  let h t i := weight (value (perturb (repeat (RtoC (1 / 2)) (nodes dom)) (repeat C1 (nodes dom)) t) i) in
  el_construct (el_new solve dom mat misfit) field = repeat C0 (nodes dom) /\
  exists En slope, (forall t, exists eps, equilibrium_strain (nodes dom) ft (rat mat) misfit (h t) eps /\ En t = total_energy (nodes dom) (rat mat) misfit (h t) eps) /\
    derivable_pt_lim En 0 slope /\ 0 < slope.
Proof.
  intros Hg Hs St Sm Nz L ft h. split; [exact (new_term_zero solve dom mat misfit field (proj1 Hg) L)|].
  destruct (half_force dom solve mat misfit Hg Hs St) as (En & H & D). exists En, (INR (nodes dom) * (3 / 2 * energy_density (rat mat) misfit)).
  split; [exact H|]. split; [exact D|].
  destruct St as (_ & _ & _ & P). pose proof (P misfit Sm Nz). pose proof (lt_0_INR _ (grid_pos dom Hg)). apply Rmult_lt_0_compat; lra.
Qed.
Print Assumptions C73_first_step_refuted.

(** C73.  It fails for two-dimensional bodies with a misfit that tilts the
    third axis: the force against the tilt is dropped. *)
Theorem C73_out_of_plane_refuted solve b v field :
  solves solve -> 0 < b -> -1 < v < 1 / 2 -> length field = 9%nat ->
  let ft := fftw_transform slab in
  let h t i := weight (value (perturb (spot (1 / 2)) (spot 1) t) i) in
  exists En slope, (forall t, exists eps, equilibrium_strain 9 ft (rat (isotropic b v)) tilt (h t) eps /\ En t = total_energy 9 (rat (isotropic b v)) tilt (h t) eps) /\
    derivable_pt_lim En 0 slope /\
    slope <> - pairing 9 (to_real ft (el_construct (after_step solve slab (isotropic b v) tilt (spot (1 / 2))) field)) (spot 1).
Proof.
  intros Hs Hb Hv L ft h. destruct (out_of_plane solve b v field Hs Hb Hv L) as (En & l & H & D & N). exists En, l. split; [exact H|]. split; [exact D|].
  apply Rlt_not_eq. exact N.
Qed.
Print Assumptions C73_out_of_plane_refuted.

(** C73.  It fails for even extents: on a grid of two nodes the only wave is at
    the Nyquist frequency, where the code drops the strain.  The slope of the
    energy is 15/8, the term says 9/4. *)
Theorem C73_even_extent_refuted : valid_domain layers /\ square_layout layers /\ exists mat misfit, stiff (rat mat) /\ symmetric3 misfit /\ in_plane mat misfit /\
  forall solve field, length field = nodes layers ->
  let ft := fftw_transform layers in
  let x := [RtoC (1 / 2); C0] in let v := [C1; C0] in
  let h s i := weight (value (perturb x v s) i) in
  exists En, (forall s, exists eps, equilibrium_strain (nodes layers) ft (rat mat) misfit (h s) eps /\ En s = total_energy (nodes layers) (rat mat) misfit (h s) eps) /\
    derivable_pt_lim En 0 (15 / 8) /\
    - pairing (nodes layers) (to_real ft (el_construct (after_step solve layers mat misfit x) field)) v = 9 / 4.
Proof.
  split; [exact layers_valid|]. split; [exact I|]. destruct (diag36_at 1) as (t & E & _). exists t, swelling.
  split; [exact (diag36_stiff 1 t ltac:(lra) E)|]. split; [exact (misfit_sym [1; 1; 1; 0; 0; 0])|].
  split; [split; rewrite (swelling_contract t _ _ E) by lia; reflexivity|].
  intros solve field L. exact (layers_slope t E solve field L).
Qed.
Print Assumptions C73_even_extent_refuted.

(** C74.  The energy of a set of inclusions (values 0 and 1) per volume of
    inclusion is that of mechanical equilibrium, it is between zero and the
    energy density of the misfit strain, and the argument is restored. *)
Theorem C74_energy_partial dom solve mat misfit ind :
  regular_grid dom -> solves solve -> stiff (rat mat) -> symmetric3 misfit -> length ind = nodes dom ->
  (forall i, (i < nodes dom)%nat -> nth i ind C0 = C0 \/ nth i ind C0 = C1) ->
  (exists i, (i < nodes dom)%nat /\ nth i ind C0 = C1) ->
  let '(energy, after) := homogeneous_energy solve dom misfit mat ind in
  (exists eps, equilibrium_strain (nodes dom) (fftw_transform dom) (rat mat) misfit (value ind) eps /\
     energy * rsum (nodes dom) (value ind) = total_energy (nodes dom) (rat mat) misfit (value ind) eps) /\
  0 <= energy <= energy_density (rat mat) misfit /\ after = ind.
Proof.
  intros Hg Hs St Sm L Bi (i1 & Hi1 & E1). destruct (homogeneous_energy solve dom misfit mat ind) as [energy after] eqn:HE.
  assert (Ri : real_field ind) by (apply real_field_nth; intros i Hi; rewrite L in Hi; destruct (Bi i Hi) as [-> | ->]; reflexivity).
  destruct (homogeneous_energy_value dom Hg solve mat misfit Hs St Sm ind L Ri) as (eps & Eq & V). rewrite HE in V. cbn [fst] in V.
  assert (So : total_energy (nodes dom) (rat mat) misfit (solid ind) eps = total_energy (nodes dom) (rat mat) misfit (value ind) eps).
  { unfold total_energy. apply rsum_ext. intros k Hk. replace (solid ind k) with (value ind k); [reflexivity|].
    unfold solid, value. destruct (Bi k Hk) as [-> | ->]; cbn [Re C0 C1 fst]; destruct (Rlt_dec (1 / 2) _); lra. }
  rewrite So in V.
  assert (Vp : 0 < rsum (nodes dom) (value ind)).
  { assert (NN : forall i, (i < nodes dom)%nat -> 0 <= value ind i) by (intros i Hi; unfold value; destruct (Bi i Hi) as [-> | ->]; cbn; lra).
    destruct (Rle_lt_or_eq_dec _ _ (rsum_nonneg _ _ NN)) as [P|Z]; [exact P|]. exfalso.
    pose proof (rsum_zero_term _ _ NN (eq_sym Z) i1 Hi1) as Z1. unfold value in Z1. rewrite E1 in Z1. cbn in Z1. lra. }
  split; [|split].
  - exists eps. split; [exact Eq|]. rewrite V. field. lra.
  - assert (B := energy_bounds (nodes dom) (fftw_transform dom) (fftw_unitary dom (proj1 Hg)) (grid_pos dom Hg) (rat mat) misfit (value ind) eps St Sm Eq).
    assert (Sq : rsum (nodes dom) (fun i => value ind i * value ind i * energy_density (rat mat) misfit) = energy_density (rat mat) misfit * rsum (nodes dom) (value ind)).
    { rewrite <- rsum_mul_l. apply rsum_ext. intros i Hi. unfold value. destruct (Bi i Hi) as [-> | ->]; cbn; ring. }
    rewrite Sq in B. rewrite V. split.
    + apply Rmult_le_pos; [lra|]. left. apply Rinv_0_lt_compat, Vp.
    + apply (Rmult_le_reg_r (rsum (nodes dom) (value ind))); [exact Vp|]. unfold Rdiv. rewrite Rmult_assoc, Rinv_l by lra. lra.
  - assert (R := homogeneous_energy_restores solve dom misfit mat ind (proj1 Hg) L). rewrite HE in R. exact R.
Qed.
Print Assumptions C74_energy_partial.

(** C74.  A body that is all inclusion has the energy density of the misfit. *)
Theorem C74_uniform dom solve mat misfit :
  regular_grid dom -> solves solve -> stiff (rat mat) -> symmetric3 misfit ->
  fst (homogeneous_energy solve dom misfit mat (repeat C1 (nodes dom))) = energy_density (rat mat) misfit.
Proof.
  intros Hg Hs St Sm. set (n := nodes dom). assert (L : length (repeat C1 n) = n) by apply repeat_length.
  assert (Val : forall i, (i < n)%nat -> value (repeat C1 n) i = 1) by (intros i Hi; exact (value_repeat 1 n i Hi)).
  assert (Ri : real_field (repeat C1 n)) by (apply Forall_forall; intros z Hz; apply repeat_spec in Hz; rewrite Hz; reflexivity).
  destruct (homogeneous_energy_value dom Hg solve mat misfit Hs St Sm (repeat C1 n) L Ri) as (eps & Eq & ->).
  assert (Pn := grid_pos dom Hg). fold n in Pn. fold n in Eq.
  assert (U0 := uniform_equilibrium n (fftw_transform dom) (fftw_unitary dom (proj1 Hg)) Pn (rat mat) misfit 1).
  assert (Eq1 : equilibrium_strain n (fftw_transform dom) (rat mat) misfit (fun _ => 1) eps)
    by exact (equilibrium_ext n _ Pn (rat mat) misfit (value (repeat C1 n)) (fun _ => 1) eps eps Val (fun i a b _ _ _ => eq_refl) Eq).
  fold n. rewrite (rsum_ext n (value (repeat C1 n)) (fun _ => 1)) by exact Val.
  assert (So : total_energy n (rat mat) misfit (solid (repeat C1 n)) eps = total_energy n (rat mat) misfit (fun _ => 1) eps).
  { unfold total_energy. apply rsum_ext. intros k Hk. unfold solid. rewrite Val by exact Hk. destruct (Rlt_dec (1 / 2) 1); [reflexivity|lra]. }
  rewrite So. destruct (C73_strain_unique dom (rat mat) misfit (fun _ => 1) eps (fun _ _ _ => 0) (proj1 Hg) St Eq1 U0) as [_ Eu]. fold n in Eu. rewrite Eu.
  rewrite uniform_energy, rsum_const. assert (INR n <> 0) by (apply not_0_INR; lia). field. assumption.
Qed.
Print Assumptions C74_uniform.

(** C74.  It fails for even extents: one layer of two nodes has the energy 5/4,
    the code returns the energy 3/2 of the misfit, as if the body could not
    relax at all. *)
Theorem C74_even_extent_refuted : valid_domain layers /\ square_layout layers /\ exists mat misfit, stiff (rat mat) /\ symmetric3 misfit /\
  forall solve, let ind := [C1; C0] in
  exists eps, equilibrium_strain (nodes layers) (fftw_transform layers) (rat mat) misfit (value ind) eps /\
    total_energy (nodes layers) (rat mat) misfit (value ind) eps = 5 / 4 /\
    fst (homogeneous_energy solve layers misfit mat ind) * rsum (nodes layers) (value ind) = 3 / 2.
Proof.
  split; [exact layers_valid|]. split; [exact I|]. destruct (diag36_at 1) as (t & E & _). exists t, swelling.
  split; [exact (diag36_stiff 1 t ltac:(lra) E)|]. split; [exact (misfit_sym [1; 1; 1; 0; 0; 0])|].
  intros solve ind. exists (layer_strain (value ind)). split; [exact (layers_equilibrium t E (value ind))|]. split.
  - change (nodes layers) with 2%nat. rewrite (layers_energy t E). unfold ind, value. cbn. lra.
  - unfold ind. rewrite (layers_tool t E). change (nodes layers) with 2%nat. unfold value. cbn. lra.
Qed.
Print Assumptions C74_even_extent_refuted.

(** C74.  For other indicators the strain is that of the indicator, but the
    misfit is taken off in full where the indicator exceeds one half and not
    at all elsewhere: a body filled with the indicator 1/2 has no energy,
    although its equilibrium energy is positive. *)
Theorem C74_fractional_refuted dom solve mat misfit :
  regular_grid dom -> solves solve -> stiff (rat mat) -> symmetric3 misfit -> (exists i j, (i < 3)%nat /\ (j < 3)%nat /\ misfit i j <> 0) ->
  let half := repeat (RtoC (1 / 2)) (nodes dom) in
  fst (homogeneous_energy solve dom misfit mat half) = 0 /\
  forall eps, equilibrium_strain (nodes dom) (fftw_transform dom) (rat mat) misfit (value half) eps -> 0 < total_energy (nodes dom) (rat mat) misfit (value half) eps.
Proof.
  intros Hg Hs St Sm Nz half. set (n := nodes dom) in *. assert (L : length half = n) by apply repeat_length.
  assert (Val : forall i, (i < n)%nat -> value half i = 1 / 2) by (intros i Hi; exact (value_repeat (1 / 2) n i Hi)).
  assert (Pn := grid_pos dom Hg). fold n in Pn.
  assert (U0 := uniform_equilibrium n (fftw_transform dom) (fftw_unitary dom (proj1 Hg)) Pn (rat mat) misfit (1 / 2)).
  assert (Eq1 : forall eps, equilibrium_strain n (fftw_transform dom) (rat mat) misfit (value half) eps -> equilibrium_strain n (fftw_transform dom) (rat mat) misfit (fun _ => 1 / 2) eps)
    by (intros eps Eq; exact (equilibrium_ext n _ Pn (rat mat) misfit (value half) (fun _ => 1 / 2) eps eps Val (fun i a b _ _ _ => eq_refl) Eq)).
  split.
  - assert (Ri : real_field half) by (apply Forall_forall; intros z Hz; apply repeat_spec in Hz; rewrite Hz; reflexivity).
    destruct (homogeneous_energy_value dom Hg solve mat misfit Hs St Sm half L Ri) as (eps & Eq & ->). fold n. fold n in Eq.
    destruct (C73_strain_unique dom (rat mat) misfit (fun _ => 1 / 2) eps (fun _ _ _ => 0) (proj1 Hg) St (Eq1 eps Eq) U0) as [Z _]. fold n in Z.
    replace (total_energy n (rat mat) misfit (solid half) eps) with 0; [unfold Rdiv; ring|].
    unfold total_energy. symmetry. rewrite (rsum_ext n _ (fun _ => 0)), rsum_0; [reflexivity|]. intros k Hk.
    unfold solid. rewrite Val by exact Hk. destruct (Rlt_dec (1 / 2) (1 / 2)) as [B|_]; [lra|].
    rewrite (rsum4_ext _ (fun _ _ _ _ => 0)); [cbn [rsum]; ring|]. intros. rewrite !Z by assumption. ring.
  - intros eps Eq. replace (total_energy n (rat mat) misfit (value half) eps) with (total_energy n (rat mat) misfit (fun _ => 1 / 2) eps)
      by (unfold total_energy; apply rsum_ext; intros k Hk; rewrite (Val k Hk); reflexivity).
    destruct (C73_strain_unique dom (rat mat) misfit (fun _ => 1 / 2) eps (fun _ _ _ => 0) (proj1 Hg) St (Eq1 eps Eq) U0) as [_ Eu]. fold n in Eu. rewrite Eu.
    rewrite uniform_energy. destruct St as (_ & _ & _ & P). pose proof (P misfit Sm Nz). pose proof (lt_0_INR n Pn). apply Rmult_lt_0_compat; lra.
Qed.
Print Assumptions C74_fractional_refuted.

(** C75.  The voxel with indices i, j, k is one inside the ellipsoid around
    the middle of the box and zero outside. *)
Theorem C75_voxels N a b c i j k : (0 <= N)%Z ->
  let inside := in_ellipsoid a b c (IZR (i - N / 2)) (IZR (j - N / 2)) (IZR (k - N / 2)) in
  (inside -> ellipsoid_voxel N a b c (i, j, k) = C1) /\ (~ inside -> ellipsoid_voxel N a b c (i, j, k) = C0).
Proof. exact (voxel_inside N a b c i j k). Qed.
Print Assumptions C75_voxels.

(** C75.  Without an inclusion tensor the tool returns the equilibrium energy
    of the voxels per volume of the ellipsoid. *)
Theorem C75_matrix_only_partial N coords p solve mat :
  (0 < N <= 5000000000)%Z -> Z.odd N = true -> solves solve -> si_size p = N -> (6 <= length (si_misfit p))%nat ->
  from_flat_voigt (slice (si_matrix p)) = Some mat -> stiff (rat mat) -> si_inc p = None ->
  let dom := [N; N; N] in let h := value (ellipsoid coords N (si_a p) (si_b p) (si_c p)) in
  exists eps, equilibrium_strain (nodes dom) (fftw_transform dom) (rat mat) (misfit_of (si_misfit p)) h eps /\
    strain_energy_tool solve (fftw_transform dom) coords p
    = Some (total_energy (nodes dom) (rat mat) (misfit_of (si_misfit p)) h eps / (4 / 3 * PI * si_a p * si_b p * si_c p)).
Proof.
  intros HN Ho Hs Hsz H6 Hm St Hi dom h. replace (4 / 3 * PI * si_a p * si_b p * si_c p) with (4 * PI * si_a p * si_b p * si_c p / 3) by field.
  exact (tool_matrix_only N coords p solve mat HN Ho Hs Hsz H6 Hm St Hi).
Qed.
Print Assumptions C75_matrix_only_partial.

(** C75.  With an inclusion tensor and no perturbation, that tensor is used
    inside and outside of the inclusion. *)
Theorem C75_inclusion_partial N coords p solve mat inc flat :
  (0 < N <= 5000000000)%Z -> Z.odd N = true -> solves solve -> si_size p = N -> (6 <= length (si_misfit p))%nat ->
  from_flat_voigt (slice (si_matrix p)) = Some mat -> stiff (rat mat) ->
  si_inc p = Some flat -> si_matrix p <> None -> si_perturb p = false -> from_flat_voigt flat = Some inc ->
  let dom := [N; N; N] in let h := value (ellipsoid coords N (si_a p) (si_b p) (si_c p)) in
  exists eps, equilibrium_strain (nodes dom) (fftw_transform dom) (rat mat) (misfit_of (si_misfit p)) h eps /\
    strain_energy_tool solve (fftw_transform dom) coords p
    = Some (total_energy (nodes dom) (rat inc) (misfit_of (si_misfit p)) h eps / (4 / 3 * PI * si_a p * si_b p * si_c p)).
Proof.
  intros HN Ho Hs Hsz H6 Hm St Hi Hmn Hp Hf dom h. replace (4 / 3 * PI * si_a p * si_b p * si_c p) with (4 * PI * si_a p * si_b p * si_c p / 3) by field.
  exact (tool_inclusion N coords p solve mat HN Ho Hs Hsz H6 Hm St inc flat Hi Hmn Hp Hf).
Qed.
Print Assumptions C75_inclusion_partial.

(** C75.  A misfit strain of fewer than six numbers panics. *)
Theorem C75_short_misfit solve ft coords p : (length (si_misfit p) < 6)%nat -> strain_energy_tool solve ft coords p = None.
Proof. intros H. unfold strain_energy_tool. destruct (Nat.ltb_spec (length (si_misfit p)) 6); [reflexivity|lia]. Qed.
Print Assumptions C75_short_misfit.

(** C75.  So the stiffness of the inclusion is not confined to it: a swelling
    voxel in a cube of 27, twice as stiff as its surroundings, gets more than
    the energy of the strains with the stiffnesses in their places. *)
Theorem C75_stiffness_in_place_refuted solve : solves solve -> exists mat inc eps r,
  from_flat_voigt (diag36 1) = Some mat /\ from_flat_voigt (diag36 2) = Some inc /\
  equilibrium_strain 27 (fftw_transform cube) (rat mat) swelling (value speck) eps /\
  strain_energy_tool solve (fftw_transform cube) row_major speck_input = Some r /\
  mixed_energy 27 (rat inc) (rat mat) swelling (value speck) eps / (4 / 3 * PI * (1 / 2) * (1 / 2) * (1 / 2)) < r.
Proof. exact (inclusion_everywhere solve). Qed.
Print Assumptions C75_stiffness_in_place_refuted.

(** C75.  The six misfit numbers are the Voigt components (the last three are
    twice the shears), and a symmetric positive definite 6 x 6 matrix resists
    every strain. *)
Theorem C75_voigt_energy voigt t m : length voigt = 36%nat -> from_flat_voigt voigt = Some t ->
  energy_density (rat t) (misfit_of m) = / 2 * rsum 6 (fun p => rsum 6 (fun q => nth (6 * p + q) voigt 0 * nth p m 0 * nth q m 0)).
Proof. exact (misfit_energy voigt t m). Qed.
Print Assumptions C75_voigt_energy.

Theorem C75_positive_definite_resists voigt t : length voigt = 36%nat -> from_flat_voigt voigt = Some t ->
  (forall p q, (p < 6)%nat -> (q < 6)%nat -> nth (6 * p + q) voigt 0 = nth (6 * q + p) voigt 0) ->
  (forall m : nat -> R, (exists p, (p < 6)%nat /\ m p <> 0) -> 0 < rsum 6 (fun p => rsum 6 (fun q => nth (6 * p + q) voigt 0 * m p * m q))) ->
  stiff (rat t).
Proof. exact (voigt_stiff voigt t). Qed.
Print Assumptions C75_positive_definite_resists.

(** The hypotheses hold: a solver, regular grids in two and three dimensions,
    a stiff material and misfits within the plane. *)
Example C73_nonvacuous : solves cramer /\ regular_grid slab /\ regular_grid cube /\ stiff (rat (isotropic 1 (1 / 4))) /\
  symmetric3 swelling /\ in_plane (isotropic 1 (1 / 4)) swelling /\ (exists i j, (i < 3)%nat /\ (j < 3)%nat /\ swelling i j <> 0) /\
  length (spot 1) = nodes slab /\ real_field (spot 1).
Proof.
  split; [exact cramer_solves|]. split; [exact slab_regular|]. split; [exact cube_regular27|]. split; [apply isotropic_stiff; lra|].
  split; [exact (misfit_sym _)|]. split; [|split; [|split; [reflexivity|repeat constructor]]].
  - assert (P : forall a b, (a < 3)%nat -> (b < 3)%nat -> a <> b -> contract_last (isotropic 1 (1 / 4)) swelling a b = 0).
    { intros a b Ha Hb N. unfold contract_last.
      rewrite (rsum_ext 3 _ (fun k => rsum 3 (fun l => ((1 - 2 * shear_modulus 1 (1 / 4) / 3) * (kron a b * kron k l) + shear_modulus 1 (1 / 4) * (kron a k * kron b l + kron a l * kron b k)) * swelling k l)))
        by (intros k Hk; apply rsum_ext; intros l Hl; rewrite isotropic_at by (repeat split; assumption); reflexivity).
      destruct a as [|[|[|a]]]; [| | |lia]; (destruct b as [|[|[|b]]]; [| | |lia]); try contradiction;
        unfold kron, swelling, misfit_of, mset, mzero; cbn [rsum Nat.eqb andb nth]; lra. }
    split; apply P; lia.
  - exists 0%nat, 0%nat. split; [lia|]. split; [lia|]. unfold swelling, misfit_of, mset, mzero. cbn. lra.
Qed.
Example C74_nonvacuous : length speck = nodes cube /\ (forall i, (i < nodes cube)%nat -> nth i speck C0 = C0 \/ nth i speck C0 = C1) /\
  (exists i, (i < nodes cube)%nat /\ nth i speck C0 = C1) /\ nth 0 speck C0 = C0.
Proof.
  split; [reflexivity|]. change (nodes cube) with 27%nat. split; [|split].
  - intros i Hi. rewrite speck_at by exact Hi. destruct (Nat.eqb i 13); auto.
  - exists 13%nat. split; [lia|]. rewrite speck_at by lia. reflexivity.
  - rewrite speck_at by lia. reflexivity.
Qed.
Example C75_nonvacuous : exists mat, from_flat_voigt (slice (si_matrix speck_input)) = Some mat /\ stiff (rat mat) /\ (6 <= length (si_misfit speck_input))%nat.
Proof.
  destruct (diag36_at 1) as (mat & E & _). exists mat. split; [exact E|]. split; [exact (diag36_stiff 1 mat ltac:(lra) E)|]. cbn. lia.
Qed.
