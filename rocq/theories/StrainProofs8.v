(** An even extent: layers of one node, where the only wave is at the Nyquist
    frequency and the strain of the code vanishes. *)
From Verif Require Import StrainSpec StrainProofs StrainProofs2 StrainProofs3 StrainProofs4 StrainProofs5 StrainProofs6 StrainProofs7 GradProofs ElasticProofs RealProofs EnergyProofs EnergyProofs3 DftProofs IndexProofs StepProofs Vec CVec.
From Verif Require Import Complex.
From Coq Require Import Lra Lia FunctionalExtensionality.
Open Scope R_scope.

Definition layers : list Z := [2; 1]%Z.
Lemma layers_valid : valid_domain layers.
Proof. split; [left; reflexivity|repeat constructor; lia]. Qed.
Lemma layers_dft s a b : s = 1 \/ s = -1 -> dft s (fftw_dims layers) [a; b] = [Cadd a b; Csub a b].
Proof.
  intros Hs. unfold dft. change (nprod (fftw_dims layers)) with 2%nat. cbn [seq map].
  assert (P : forall k j, (k < 2)%nat -> (j < 2)%nat -> phase (fftw_dims layers) k j = INR k * INR j / 2).
    intros k j Hk Hj. change (fftw_dims layers) with [2; 1]%nat. destruct k as [|[|k]]; [| |lia]; (destruct j as [|[|j]]; [| |lia]); cbn; field.
  assert (H0 : cis (s * 0) = C1) by (unfold cis; replace (2 * PI * (s * 0)) with 0 by ring; rewrite cos_0, sin_0; reflexivity).
  assert (H1 : cis (s * / 2) = RtoC (-1)).
  { unfold cis. destruct Hs as [-> | ->].
    - replace (2 * PI * (1 * / 2)) with PI by field. rewrite cos_PI, sin_PI. reflexivity.
    - replace (2 * PI * (-1 * / 2)) with (- PI) by field. rewrite cos_neg, sin_neg, cos_PI, sin_PI, Ropp_0. reflexivity. }
  cbn [csum]. rewrite !P by lia. cbn [INR nth].
  replace (0 * 0 / 2) with 0 by field. replace (0 * 1 / 2) with 0 by field. replace (1 * 0 / 2) with 0 by field. replace (1 * 1 / 2) with (/ 2) by field. rewrite H0, H1.
  f_equal; [|f_equal]; csolve.
Qed.
Lemma layers_mode g k : (k < 2)%nat -> mode 2 (fftw_transform layers) g k = RtoC (if Nat.eqb k 0 then g 0%nat + g 1%nat else g 0%nat - g 1%nat).
Proof.
  intros Hk. unfold mode. cbn [seq map]. change (fft (fftw_transform layers)) with (dft (-1) (fftw_dims layers)). rewrite layers_dft by (right; reflexivity).
  destruct k as [|[|k]]; [| |lia]; cbn [nth Nat.eqb]; csolve.
Qed.
Lemma layers_wave k d : (k < 2)%nat -> exists w, (w = 1 / 2 \/ w = - (1 / 2)) /\ wave (fftw_transform layers) k d = (if Nat.eqb k 1 && Nat.eqb d 0 then w else 0).
Proof.
  intros Hk. exists (wave (fftw_transform layers) 1 0). unfold wave, fftw_transform. cbn [tfreq].
  let f := eval vm_compute in (freq layers (Z.of_nat 1)) in change (freq layers (Z.of_nat 1)) with f.
  split; [cbn [map nth]; unfold Q2R; cbn; lra|].
  destruct k as [|[|k]]; [| |lia].
  - let f := eval vm_compute in (freq layers (Z.of_nat 0)) in change (freq layers (Z.of_nat 0)) with f. cbn [Nat.eqb andb].
    destruct d as [|[|[|d]]]; cbn [map nth]; unfold Q2R; cbn; lra.
  - let f := eval vm_compute in (freq layers (Z.of_nat 1)) in change (freq layers (Z.of_nat 1)) with f. cbn [Nat.eqb andb].
    destruct d as [|[|[|d]]]; cbn [map nth Nat.eqb]; unfold Q2R; cbn; lra.
Qed.
Lemma layers_drop k d : (k < 2)%nat -> drop_nyquist (wave (fftw_transform layers) k d) = 0.
Proof.
  intros Hk. destruct (layers_wave k d Hk) as (w & Hw & ->). unfold drop_nyquist, tiny.
  destruct (Nat.eqb k 1 && Nat.eqb d 0); destruct (Rlt_dec _ _) as [L|N]; try reflexivity.
  exfalso. apply N. replace (Rabs w - 0.5) with 0; [rewrite Rabs_R0; apply Rinv_0_lt_compat, pow_lt; lra|].
  destruct Hw as [-> | ->]; [rewrite Rabs_right by lra|rewrite Rabs_left by lra]; lra.
Qed.
Lemma layers_strain k disp i j : (k < 2)%nat -> strain (wave (fftw_transform layers) k) disp i j = C0.
Proof. intros Hk. unfold strain. rewrite !layers_drop by exact Hk. csolve. Qed.

(** The strain of equilibrium with the weights h. *)
Definition layer_strain (h : nat -> R) (i a b : nat) : R :=
  if (Nat.eqb a 0 && Nat.eqb b 0)%bool then (if Nat.eqb i 0 then h 0%nat - h 1%nat else h 1%nat - h 0%nat) / 2 else 0.
Section Layers.
  Variable t : rank4.
  Hypothesis Et : from_flat_voigt (diag36 1) = Some t.
  Lemma layers_stress h i a b : (a < 3)%nat -> (b < 3)%nat ->
    node_stress (rat t) swelling (layer_strain h i) (h i) a b = if Nat.eqb a b then (if Nat.eqb a 0 then layer_strain h i 0 0 - h i else - h i) else 0.
  Proof.
    intros Ha Hb. destruct (diag36_at 1) as (t' & E' & V). rewrite Et in E'. injection E' as E'. unfold node_stress.
    rewrite (rsum_ext 3 _ (fun k => rsum 3 (fun l => nth (6 * voigt_number a b + voigt_number k l) (diag36 1) 0 * (layer_strain h i k l - swelling k l * h i))))
      by (intros k Hk; apply rsum_ext; intros l Hl; rewrite E', V by assumption; reflexivity).
    set (x := layer_strain h i 0 0).
    assert (S : forall k l, layer_strain h i k l = if (Nat.eqb k 0 && Nat.eqb l 0)%bool then x else 0) by (intros [|k] [|l]; reflexivity).
    rewrite (rsum_ext 3 _ (fun k => rsum 3 (fun l => nth (6 * voigt_number a b + voigt_number k l) (diag36 1) 0 * ((if (Nat.eqb k 0 && Nat.eqb l 0)%bool then x else 0) - swelling k l * h i))))
      by (intros k Hk; apply rsum_ext; intros l Hl; rewrite S; reflexivity).
    destruct a as [|[|[|a]]]; [| | |lia]; (destruct b as [|[|[|b]]]; [| | |lia]);
      unfold swelling, misfit_of, mset, mzero; cbn; lra.
  Qed.
  Lemma layers_equilibrium h : equilibrium_strain 2 (fftw_transform layers) (rat t) swelling h (layer_strain h).
  Proof.
    set (ft := fftw_transform layers). destruct (layers_wave 1 0 ltac:(lia)) as (w & Hw & W1). cbn [Nat.eqb andb] in W1.
    assert (W : forall k d, (k < 2)%nat -> wave ft k d = if (Nat.eqb k 1 && Nat.eqb d 0)%bool then w else 0).
    { intros k d Hk. destruct (layers_wave k d Hk) as (w' & _ & E). fold ft in E, W1. rewrite E.
      destruct (Nat.eqb_spec k 1) as [->|]; [|reflexivity]. destruct (Nat.eqb_spec d 0) as [->|]; [|reflexivity]. cbn [Nat.eqb andb] in *. congruence. }
    assert (Pw : PI * w <> 0) by (apply Rmult_integral_contrapositive_currified; [apply PI_neq0|destruct Hw as [-> | ->]; lra]).
    exists (fun k a => if (Nat.eqb k 1 && Nat.eqb a 0)%bool then (0, - (h 0%nat - h 1%nat) / (2 * (PI * w))) else C0). split.
    - intros k a b Hk Ha Hb. unfold ft. rewrite layers_mode by exact Hk. fold ft. rewrite !W by exact Hk. unfold layer_strain.
      destruct k as [|[|k]]; [| |lia]; cbn [Nat.eqb andb].
      + destruct (Nat.eqb a 0 && Nat.eqb b 0)%bool; csolve; field.
      + destruct a as [|a]; destruct b as [|b]; cbn [Nat.eqb andb]; apply C_eq; unfold Cadd, Cmul, RtoC, C0, Re, Im; cbn [fst snd]; field;
          first [apply PI_neq0 | split; [destruct Hw as [-> | ->]; lra|apply PI_neq0] | idtac].
    - intros k m Hk Hm. unfold divergence_mode. cbn [csum]. unfold ft. rewrite !layers_mode by exact Hk. fold ft. rewrite !W by exact Hk. rewrite !layers_stress by lia.
      destruct k as [|[|k]]; [| |lia]; cbn [Nat.eqb andb]; [csolve|]. unfold layer_strain.
      destruct m as [|[|[|m]]]; [| | |lia]; cbn [Nat.eqb andb]; apply C_eq; unfold Cadd, Cmul, RtoC, C0, Re, Im; cbn [fst snd]; field.
  Qed.
  Lemma density_diag x y z : energy_density (rat t) (fun a b => if Nat.eqb a b then (if Nat.eqb a 0 then x else if Nat.eqb a 1 then y else z) else 0) = (x * x + y * y + z * z) / 2.
  Proof.
    destruct (diag36_at 1) as (t' & E' & V). rewrite Et in E'. injection E' as E'. unfold energy_density.
    rewrite (rsum4_ext _ (fun i j k l => nth (6 * voigt_number i j + voigt_number k l) (diag36 1) 0
        * (if Nat.eqb i j then (if Nat.eqb i 0 then x else if Nat.eqb i 1 then y else z) else 0) * (if Nat.eqb k l then (if Nat.eqb k 0 then x else if Nat.eqb k 1 then y else z) else 0)))
      by (intros; rewrite E', V by assumption; reflexivity).
    cbn. lra.
  Qed.
  Lemma swelling_density : energy_density (rat t) swelling = 3 / 2.
  Proof.
    rewrite (energy_density_ext (rat t) _ (fun a b => if Nat.eqb a b then (if Nat.eqb a 0 then 1 else if Nat.eqb a 1 then 1 else 1) else 0)).
    - rewrite density_diag. lra.
    - intros a b Ha Hb. destruct a as [|[|[|a]]]; [| | |lia]; (destruct b as [|[|[|b]]]; [| | |lia]); unfold swelling, misfit_of, mset, mzero; cbn; lra.
  Qed.
  Lemma layers_energy h : total_energy 2 (rat t) swelling h (layer_strain h) = h 0%nat * h 0%nat + h 1%nat * h 1%nat + (h 0%nat + h 1%nat) * (h 0%nat + h 1%nat) / 4.
  Proof.
    transitivity (rsum 2 (fun k => energy_density (rat t) (fun i j => layer_strain h k i j - swelling i j * h k))).
    - unfold total_energy. apply rsum_ext. intros k Hk. unfold energy_density. lra.
    - rewrite (rsum_ext 2 _ (fun k => ((layer_strain h k 0 0 - h k) * (layer_strain h k 0 0 - h k) + (- h k) * (- h k) + (- h k) * (- h k)) / 2)).
      + cbn [rsum]. unfold layer_strain. cbn [Nat.eqb andb]. field.
      + intros k Hk. rewrite <- density_diag. apply energy_density_ext. intros a b Ha Hb.
        destruct a as [|[|[|a]]]; [| | |lia]; (destruct b as [|[|[|b]]]; [| | |lia]); unfold layer_strain, swelling, misfit_of, mset, mzero; cbn; lra.
  Qed.

  (** *** HomogeneousModulusEnergy *)
  Theorem layers_tool solve : fst (homogeneous_energy solve layers swelling t [C1; C0]) = 3 / 2.
  Proof.
    unfold homogeneous_energy. cbn [fst length fold_left]. set (ft := fftw_transform layers).
    rewrite (gt_left _ _ (fftw_good layers layers_valid)) by reflexivity. set (disp := fun k => displacement _ _ _ _).
    rewrite sum_density_rsum. replace (0 + Re C1 + Re C0) with 1 by (cbn; ring).
    assert (Z : forall i j k, (k < 2)%nat -> nth k (ifft ft (map (fun q => strain (freq3 2 ft q) (disp q) i j) (seq 0 2))) C0 = C0).
    { intros i j k Hk. assert (Fz : forall q, (q < 2)%nat -> strain (freq3 2 ft q) (disp q) i j = C0).
      { intros q Hq. replace (freq3 2 ft q) with (wave ft q); [exact (layers_strain q (disp q) i j Hq)|].
        apply functional_extensionality. intros d. unfold freq3, wave. cbn [Nat.eqb]. destruct (Nat.ltb_spec d 2); [reflexivity|]. apply nth_overflow.
        unfold ft. rewrite (tfreq_length layers layers_valid q Hq). cbn. lia. }
      cbn [seq map]. rewrite !Fz by lia. change (ifft ft) with (dft 1 (fftw_dims layers)). rewrite layers_dft by (left; reflexivity).
      destruct k as [|[|k]]; [| |lia]; cbn [nth]; csolve. }
    rewrite (rsum_ext 2 _ (fun k => if Nat.eqb k 0 then energy_density (rat t) (fun i j => - swelling (Nat.min i j) (Nat.max i j)) else 0)).
    - cbn [rsum Nat.eqb]. replace (energy_density (rat t) (fun i j => - swelling (Nat.min i j) (Nat.max i j))) with (3 / 2); [field|].
      rewrite <- swelling_density. unfold energy_density. f_equal.
      assert (S : forall i j, (i < 3)%nat -> (j < 3)%nat -> swelling (Nat.min i j) (Nat.max i j) = swelling i j).
      { intros i j Hi Hj. destruct (Nat.le_ge_cases i j); [rewrite Nat.min_l, Nat.max_r by assumption; reflexivity|]. rewrite Nat.min_r, Nat.max_l by assumption. apply (misfit_sym [1; 1; 1; 0; 0; 0]); assumption. }
      apply rsum_ext; intros i Hi; apply rsum_ext; intros j Hj; apply rsum_ext; intros k Hk; apply rsum_ext; intros l Hl. rewrite !S by assumption. ring.
    - intros k Hk. unfold strain_matrix. rewrite (energy_density_ext (rat t) _ (fun i j => if Nat.eqb k 0 then - swelling (Nat.min i j) (Nat.max i j) else 0)).
      + destruct (Nat.eqb k 0); [reflexivity|]. unfold energy_density. cbn [rsum]. ring.
      + intros i j Hi Hj. unfold strain_entry. rewrite Z by exact Hk. destruct k as [|[|k]]; [| |lia]; cbn [nth Nat.eqb Re C0 C1 fst]; unfold Re, C0, C1; cbn [fst];
          destruct (Rlt_dec _ _); cbn [INR]; lra.
  Qed.

  (** *** The term of the simulation *)
  Lemma layers_term solve x field : length field = 2%nat -> length x = 2%nat ->
    to_real (fftw_transform layers) (el_construct (el_finished (el_new solve layers t swelling) x) field)
    = map (fun i => RtoC (- 3 * (blend (value x i) * blend_deriv (value x i)))) (seq 0 2).
  Proof.
    intros L Lx. set (ft := fftw_transform layers). set (e := el_finished _ x). pose proof (fftw_good layers layers_valid) as G. change (nodes layers) with 2%nat in G. fold ft in G.
    assert (F : el_field e = map (fun i => value x i) (seq 0 2)) by exact (el_field_eq layers solve t swelling x).
    assert (Z2 : forall s, s = 1 \/ s = -1 -> dft s (fftw_dims layers) [C0; C0] = [C0; C0]) by (intros s Hs; rewrite layers_dft by exact Hs; f_equal; [|f_equal]; csolve).
    assert (Sz : forall i j, el_strain e i j = [C0; C0]).
    { intros i j. unfold el_strain. change (el_nodes e) with 2%nat. change (el_ft e) with ft.
      assert (Fz : forall q, (q < 2)%nat -> strain (el_freq e q) (el_disp e q) i j = C0).
      { intros q Hq. replace (el_freq e q) with (wave ft q); [exact (layers_strain q (el_disp e q) i j Hq)|].
        apply functional_extensionality. intros d. unfold el_freq, wave. change (el_dim e) with 2%nat. change (el_ft e) with ft. cbn [Nat.eqb]. destruct (Nat.ltb_spec d 2); [reflexivity|]. apply nth_overflow.
        unfold ft. rewrite (tfreq_length layers layers_valid q Hq). cbn. lia. }
      cbn [seq map]. rewrite !Fz by lia. unfold to_real. change (ifft ft) with (dft 1 (fftw_dims layers)). rewrite Z2 by (left; reflexivity).
      unfold div_real. cbn [map length]. assert (Cdiv C0 (RtoC (INR 2)) = C0) as ->; [|reflexivity]. unfold Cdiv. csolve. }
    assert (Wz : forall i j, el_weighted e i j = [C0; C0]).
    { intros i j. unfold el_weighted. rewrite Sz, F. cbn [seq map map2]. change (el_ft e) with ft. change (fft ft) with (dft (-1) (fftw_dims layers)).
      replace (Cmul C0 (RtoC (blend_deriv (value x 0)))) with C0 by csolve. replace (Cmul C0 (RtoC (blend_deriv (value x 1)))) with C0 by csolve. apply Z2. right. reflexivity. }
    assert (P : forall ij, el_pass e [C0; C0] ij = [C0; C0]).
    { intros [i j]. unfold el_pass. rewrite Wz. cbn [map2]. f_equal; [|f_equal]; csolve. }
    destruct field as [|f0 [|f1 [|f2 field]]]; try discriminate L.
    unfold el_construct. change (el_ft e) with ft. change (el_mat e) with t. change (el_misfit e) with swelling. change (pairs_upto (el_dim e)) with [(0, 0); (0, 1); (1, 1)]%nat. cbn [fold_left map].
    rewrite !P, swelling_density, F.
    set (g := fun i => blend (value x i) * blend_deriv (value x i)).
    replace (map2 _ [C0; C0] _) with (fft ft (map (fun i => RtoC (- 3 * g i)) (seq 0 2))); [apply (gt_left _ _ G); reflexivity|].
    cbn [seq map]. change (fft ft) with (dft (-1) (fftw_dims layers)). rewrite !layers_dft by (right; reflexivity). cbn [map2]. unfold g. f_equal; [|f_equal]; csolve.
  Qed.
  Definition thin (r : R) : data := [RtoC r; C0].
  Theorem layers_slope solve field : length field = 2%nat ->
    exists En, (forall s, exists eps, equilibrium_strain 2 (fftw_transform layers) (rat t) swelling (fun i => weight (value (perturb (thin (1 / 2)) (thin 1) s) i)) eps /\
        En s = total_energy 2 (rat t) swelling (fun i => weight (value (perturb (thin (1 / 2)) (thin 1) s) i)) eps) /\
      derivable_pt_lim En 0 (15 / 8) /\
      - pairing 2 (to_real (fftw_transform layers) (el_construct (el_finished (el_new solve layers t swelling) (thin (1 / 2))) field)) (thin 1) = 9 / 4.
  Proof.
    intros L. exists (fun s => total_energy 2 (rat t) swelling (fun i => weight (value (perturb (thin (1 / 2)) (thin 1) s) i)) (layer_strain (fun i => weight (value (perturb (thin (1 / 2)) (thin 1) s) i)))).
    split; [|split].
    - intros s. eexists. split; [apply layers_equilibrium|reflexivity].
    - pose (q := fun s : R => 1 / 2 + 3 / 2 * s + 0 * s ^ 2 + - 2 * s ^ 3 + 0 * s ^ 4).
      assert (Dq : derivable_pt_lim q 0 (3 / 2)).
      { refine (dlim_ext _ _ _ _ _ (fun y => eq_refl) _ (dlim_poly4 (1 / 2) (3 / 2) 0 (- 2) 0 0)). field. }
      refine (dlim_ext (mult_real_fct (5 / 4) (q * q)%F) _ 0 _ _ _ _ (derivable_pt_lim_scal _ (5 / 4) _ _ (derivable_pt_lim_mult _ _ _ _ _ Dq Dq))).
      + intros s. rewrite layers_energy. unfold mult_real_fct, mult_fct, q, thin, perturb, value, weight. cbn. field.
      + unfold q. field.
    - rewrite (layers_term solve (thin (1 / 2)) field L eq_refl). unfold pairing, thin, value, blend, blend_deriv. cbn. lra.
  Qed.
End Layers.
