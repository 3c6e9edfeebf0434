(** The first step, and stresses that couple the plane to the third axis. *)
From Verif Require Import StrainSpec StrainProofs StrainProofs2 StrainProofs3 StrainProofs4 StrainProofs5 ElasticProofs RealProofs GradProofs EnergyProofs EnergyProofs3 DftProofs IndexProofs StepProofs Vec CVec.
From Verif Require Import Complex.
From Coq Require Import Lra Lia FunctionalExtensionality.
Open Scope R_scope.

Lemma weight_blend x : blend x = weight x.
Proof. unfold blend, weight. ring. Qed.

Section Path.
  Variable dom : list Z.
  Hypothesis Hg : regular_grid dom.
  Let ft := fftw_transform dom.
  Let n := nodes dom.
  Variables (solve : matrix -> matrix -> matrix) (mat : rank4) (misfit : matrix).
  Let c := rat mat.
  Hypothesis Hsol : solves solve.
  Hypothesis St : stiff c.

  Lemma some_equilibrium h : exists eps, equilibrium_strain n ft c misfit h eps.
  Proof.
    exists (sol_strain dom solve mat (fun k comp => effective_force mat misfit 3 comp (wave ft k) (mode n ft h k))).
    apply (sol_equilibrium dom Hg solve mat misfit h); [exact Hsol|exact St|reflexivity].
  Qed.
  Lemma energy_path x v e0 : length x = n -> length v = n -> equilibrium_strain n ft c misfit (fun i => weight (value x i)) e0 ->
    exists En, (forall t, exists eps, equilibrium_strain n ft c misfit (fun i => weight (value (perturb x v t) i)) eps /\
                   En t = total_energy n c misfit (fun i => weight (value (perturb x v t) i)) eps) /\
      derivable_pt_lim En 0 (rsum n (fun i => blend_deriv (value x i) * value v i * (weight (value x i) * bil c misfit misfit - bil c misfit (e0 i)))).
  Proof.
    intros Lx Lv E0. pose proof (fftw_unitary dom (proj1 Hg)) as U. pose proof (grid_pos dom Hg) as Pn.
    pose (h0 := fun i => weight (value x i)).
    pose (h1 := fun i => blend_deriv (value x i) * value v i). pose (h2 := fun i => (3 - 6 * value x i) * value v i ^ 2). pose (h3 := fun i => - 2 * value v i ^ 3).
    destruct (some_equilibrium h1) as [e1 E1]. destruct (some_equilibrium h2) as [e2 E2]. destruct (some_equilibrium h3) as [e3 E3].
    exists (fun t => total_energy n c misfit (path_h h0 h1 h2 h3 t) (path_e e0 e1 e2 e3 t)). split.
    - intros t. exists (path_e e0 e1 e2 e3 t).
      assert (P : forall i, (i < n)%nat -> path_h h0 h1 h2 h3 t i = weight (value (perturb x v t) i)).
      { intros i Hi. unfold path_h, h0, h1, h2, h3. unfold value at 7. rewrite perturb_nth by congruence.
        replace (Re (Cadd (nth i x C0) (Cmul (RtoC t) (nth i v C0)))) with (value x i + t * value v i) by (unfold value; cbn; ring).
        unfold weight, blend_deriv. ring. }
      split.
      + refine (equilibrium_ext n ft Pn c misfit _ _ _ _ P (fun i a b _ _ _ => eq_refl) _).
        apply path_equilibrium; assumption.
      + unfold total_energy. apply rsum_ext. intros i Hi. rewrite (P i Hi). reflexivity.
    - destruct St as (S1 & S2 & S3 & _).
      exact (path_derivative n ft U Pn c misfit S1 S3 h0 h1 h2 h3 e0 e1 e2 e3 E0 E1 E2 E3).
  Qed.
End Path.

(** ** The first step *)
Section First.
  Variables (dom : list Z) (solve : matrix -> matrix -> matrix) (mat : rank4) (misfit : matrix).
  Hypothesis Hg : regular_grid dom.
  Hypothesis Hsol : solves solve.
  Hypothesis St : stiff (rat mat).
  Let n := nodes dom.
  Let half := repeat (RtoC (1 / 2)) n.
  Let one := repeat C1 n.
  Lemma value_repeat r k i : (i < k)%nat -> value (repeat (RtoC r) k) i = r.
  Proof. intros H. unfold value. rewrite (nth_indep _ C0 (RtoC r)) by (rewrite repeat_length; exact H). rewrite nth_repeat. reflexivity. Qed.
  Lemma half_force : exists En, (forall t, exists eps, equilibrium_strain n (fftw_transform dom) (rat mat) misfit (fun i => weight (value (perturb half one t) i)) eps /\
                   En t = total_energy n (rat mat) misfit (fun i => weight (value (perturb half one t) i)) eps) /\
      derivable_pt_lim En 0 (INR n * (3 / 2 * energy_density (rat mat) misfit)).
  Proof.
    assert (E0 : equilibrium_strain n (fftw_transform dom) (rat mat) misfit (fun i => weight (value half i)) (fun _ _ _ => 0)).
    { refine (equilibrium_ext n _ (grid_pos dom Hg) (rat mat) misfit (fun _ => 1 / 2) _ (fun _ _ _ => 0) _ _ (fun i a b _ _ _ => eq_refl) _).
      - intros i Hi. unfold half. rewrite value_repeat by exact Hi. unfold weight. lra.
      - exact (uniform_equilibrium n (fftw_transform dom) (fftw_unitary dom (proj1 Hg)) (grid_pos dom Hg) (rat mat) misfit (1 / 2)). }
    destruct (energy_path dom Hg solve mat misfit Hsol St half one _ (repeat_length _ _) (repeat_length _ _) E0) as (En & H & D).
    exists En. split; [exact H|]. refine (dlim_ext _ _ _ _ _ (fun y => eq_refl) _ D). fold n. rewrite <- rsum_const. apply rsum_ext. intros i Hi.
    unfold half, one. change C1 with (RtoC 1). rewrite !value_repeat by exact Hi. rewrite bil_energy.
    replace (bil (rat mat) misfit (fun _ _ => 0)) with 0.
    - unfold weight, blend_deriv. field.
    - unfold bil. cbn [rsum]. ring.
  Qed.
End First.

(** ** Out of the plane *)
Definition slab : list Z := [3; 3]%Z.
(** The shear that tilts the third axis. *)
Definition tilt : matrix := fun i j => if (Nat.eqb i 0 && Nat.eqb j 2 || Nat.eqb i 2 && Nat.eqb j 0)%bool then 1 else 0.
Definition spot (r : R) : data := map (fun i => RtoC (if Nat.eqb i 0 then r else 0)) (seq 0 9).

Lemma slab_regular : regular_grid slab.
Proof.
  unfold slab. split; [split; [left; reflexivity|repeat constructor; lia]|]. split; [exact I || (left; reflexivity)|].
  split; [repeat constructor; lia|repeat constructor; reflexivity].
Qed.
Lemma slab_nodes : nodes slab = 9%nat. Proof. reflexivity. Qed.
Lemma spot_value r i : (i < 9)%nat -> value (spot r) i = if Nat.eqb i 0 then r else 0.
Proof. intros H. unfold value, spot. rewrite (EnergyProofs3.nth_map_seq (fun i => RtoC (if Nat.eqb i 0 then r else 0)) C0 9 i H). reflexivity. Qed.
Lemma spot_mode r k : (k < 9)%nat -> mode 9 (fftw_transform slab) (fun i => if Nat.eqb i 0 then r else 0) k = RtoC r.
Proof.
  intros Hk. unfold mode, fftw_transform. cbn [fft]. rewrite dft_nth by exact Hk. rewrite (csum_single _ 0%nat).
  - rewrite (EnergyProofs3.nth_map_seq (fun i => RtoC (if Nat.eqb i 0 then r else 0)) C0 9 0) by lia. cbn [Nat.eqb]. rewrite phase_sym, phase_0, Rmult_0_r, cis_0. csolve.
  - cbn. lia.
  - intros i Hi N. change (nprod (fftw_dims slab)) with 9%nat in Hi. rewrite (EnergyProofs3.nth_map_seq (fun i => RtoC (if Nat.eqb i 0 then r else 0)) C0 9 i Hi).
    destruct (Nat.eqb_spec i 0); [contradiction|]. csolve.
Qed.
Lemma slab_wave : exists k, (k < 9)%nat /\ wave (fftw_transform slab) k 0 <> 0.
Proof.
  destruct (Req_dec (wave (fftw_transform slab) 3 0) 0) as [E|E]; [|exists 3%nat; split; [lia|exact E]].
  exists 1%nat. split; [lia|]. exfalso. revert E. unfold wave, fftw_transform. cbn [tfreq].
  let f := eval vm_compute in (freq slab (Z.of_nat 3)) in change (freq slab (Z.of_nat 3)) with f. cbn [map nth]. unfold Q2R. cbn. lra.
Qed.

Lemma tilt_contract b v i j : (i < 3)%nat -> (j < 3)%nat -> contract_last (isotropic b v) tilt i j = 2 * shear_modulus b v * tilt i j.
Proof.
  intros Hi Hj. unfold contract_last.
  rewrite (rsum_ext 3 _ (fun k => rsum 3 (fun l => ((b - 2 * shear_modulus b v / 3) * (kron i j * kron k l) + shear_modulus b v * (kron i k * kron j l + kron i l * kron j k)) * tilt k l)))
    by (intros k Hk; apply rsum_ext; intros l Hl; rewrite isotropic_at by (repeat split; assumption); reflexivity).
  destruct i as [|[|[|i]]]; [| | |lia]; (destruct j as [|[|[|j]]]; [| | |lia]); unfold kron, tilt; cbn [rsum Nat.eqb andb orb]; ring.
Qed.
Lemma tilt_sym : symmetric3 tilt.
Proof. intros i j Hi Hj. destruct i as [|[|[|i]]]; [| | |lia]; (destruct j as [|[|[|j]]]; [| | |lia]); reflexivity. Qed.

Lemma tilt_term solve b v x field : length field = 9%nat ->
  to_real (fftw_transform slab) (el_construct (el_finished (el_new solve slab (isotropic b v) tilt) x) field)
  = map (fun i => RtoC (- (2 * energy_density (rat (isotropic b v)) tilt) * (blend (value x i) * blend_deriv (value x i)))) (seq 0 9).
Proof.
  intros L. set (ft := fftw_transform slab). set (e := el_finished _ x). set (D := energy_density _ tilt).
  assert (Hv := proj1 slab_regular). pose proof (fftw_unitary slab Hv : unitary_transform 9 ft) as U. pose proof (fftw_good slab Hv : good_transform 9 ft) as G.
  assert (F : el_field e = map (fun i => value x i) (seq 0 9)) by exact (el_field_eq slab solve (isotropic b v) tilt x).
  assert (W : forall i j, length (el_weighted e i j) = 9%nat).
  { intros i j. unfold el_weighted. apply (gt_fft_len _ _ G). apply StepProofs.map2_length.
    - unfold el_strain, to_real, div_real. rewrite map_length. apply (gt_ifft_len _ _ G). rewrite map_length. reflexivity.
    - rewrite map_length, F. reflexivity. }
  assert (P : forall acc i j, length acc = 9%nat -> contract_last (isotropic b v) tilt i j = 0 -> el_pass e acc (i, j) = acc).
  { intros acc i j La Z. unfold el_pass. change (el_mat e) with (isotropic b v). change (el_misfit e) with tilt. rewrite Z, Rmult_0_r. specialize (W i j). rewrite <- La in W. revert W.
    generalize (el_weighted e i j). clear. induction acc as [|a acc IH]; intros [|w l] Hl; try discriminate; [reflexivity|]. cbn [map2]. f_equal; [csolve|]. apply IH. injection Hl; auto. }
  unfold el_construct. change (el_ft e) with ft. change (el_mat e) with (isotropic b v). change (el_misfit e) with tilt. change (pairs_upto (el_dim e)) with [(0, 0); (0, 1); (1, 1)]%nat. cbn [fold_left].
  assert (Lz : length (map (fun _ : C => C0) field) = 9%nat) by (rewrite map_length; exact L).
  rewrite (P _ 0 0)%nat, (P _ 0 1)%nat, (P _ 1 1)%nat by (try exact Lz; rewrite tilt_contract by lia; unfold tilt; cbn [Nat.eqb andb orb]; ring).
  fold D. rewrite F, map_map.
  set (g := fun i => blend (value x i) * blend_deriv (value x i)).
  transitivity (to_real ft (fft ft (map (fun i => RtoC (- (2 * D) * g i)) (seq 0 9)))).
  2:{ apply (gt_left _ _ G). rewrite map_length. reflexivity. }
  f_equal. change (map (fun i => RtoC (blend (value x i) * blend_deriv (value x i))) (seq 0 9)) with (map (fun i => RtoC (g i)) (seq 0 9)).
  apply (nth_ext _ _ C0 C0).
  - rewrite (StepProofs.map2_length _ _ _ 9); [symmetry; apply (gt_fft_len _ _ G); rewrite map_length; reflexivity|exact Lz|apply (gt_fft_len _ _ G); rewrite map_length; reflexivity].
  - intros i Hi. rewrite (StepProofs.map2_length _ _ _ 9) in Hi; [|exact Lz|apply (gt_fft_len _ _ G); rewrite map_length; reflexivity].
    rewrite nth_map2 by (rewrite ?Lz, ?(gt_fft_len _ _ G) by (rewrite map_length; reflexivity); solve [exact Hi|reflexivity]).
    rewrite (nth_map_data (fun _ => C0) C0 field i) by lia.
    change (Csub C0 (Cmul (RtoC (2 * D)) (mode 9 ft g i)) = mode 9 ft (fun i => - (2 * D) * g i) i).
    rewrite (mode_ext 9 ft ltac:(lia) (fun i => - (2 * D) * g i) (fun i => 0 + (- (2 * D)) * g i)) by (intros; ring).
    rewrite (mode_lin 9 ft U ltac:(lia) (fun _ => 0) g) by exact Hi. rewrite (mode_zero 9 ft U ltac:(lia)) by exact Hi. csolve.
Qed.

Theorem out_of_plane solve b v field : solves solve -> 0 < b -> -1 < v < 1 / 2 -> length field = 9%nat ->
  exists En l, (forall t, exists eps, equilibrium_strain 9 (fftw_transform slab) (rat (isotropic b v)) tilt (fun i => weight (value (perturb (spot (1 / 2)) (spot 1) t) i)) eps /\
      En t = total_energy 9 (rat (isotropic b v)) tilt (fun i => weight (value (perturb (spot (1 / 2)) (spot 1) t) i)) eps) /\
    derivable_pt_lim En 0 l /\
    l < - pairing 9 (to_real (fftw_transform slab) (el_construct (el_finished (el_new solve slab (isotropic b v) tilt) (spot (1 / 2))) field)) (spot 1).
Proof.
  intros Hsol Hb Hv L. set (ft := fftw_transform slab). set (c := rat (isotropic b v)).
  pose proof (isotropic_stiff b v Hb Hv) as St. fold c in St. pose proof St as (S1 & S2 & S3 & Pos).
  assert (Hgv := proj1 slab_regular). pose proof (fftw_unitary slab Hgv : unitary_transform 9 ft) as U.
  assert (N9 : (0 < 9)%nat) by lia.
  destruct (some_equilibrium slab slab_regular solve (isotropic b v) tilt Hsol St (fun i => weight (value (spot (1 / 2)) i))) as [e0 E0].
  change (equilibrium_strain 9 ft c tilt (fun i => weight (value (spot (1 / 2)) i)) e0) in E0.
  destruct (energy_path slab slab_regular solve (isotropic b v) tilt Hsol St (spot (1 / 2)) (spot 1) e0 eq_refl eq_refl E0) as (En & H & D).
  exists En, (rsum 9 (fun i => blend_deriv (value (spot (1 / 2)) i) * value (spot 1) i * (weight (value (spot (1 / 2)) i) * bil c tilt tilt - bil c tilt (e0 i)))).
  split; [exact H|]. split; [exact D|].
  assert (HE : equilibrium_strain 9 ft c tilt (fun i => if Nat.eqb i 0 then 1 / 2 else 0) e0).
  { refine (equilibrium_ext 9 ft N9 c tilt _ _ _ _ _ (fun i a b _ _ _ => eq_refl) E0). intros i Hi. cbv beta. rewrite spot_value by exact Hi. destruct (Nat.eqb i 0); unfold weight; lra. }
  assert (W := work 9 ft U N9 c tilt S1 S3 _ e0 _ e0 HE HE). cbv beta in W.
  assert (Pw : 0 < bil c tilt (e0 0%nat)).
  { rewrite (rsum_head 9 (fun i => (if Nat.eqb i 0 then 1 / 2 else 0) * bil c tilt (e0 i))) in W by lia. cbn [Nat.eqb] in W.
    rewrite (rsum_ext (9 - 1) _ (fun _ => 0)), rsum_0 in W by (intros; cbn [Nat.eqb]; ring).
    assert (NN : forall i, (i < 9)%nat -> 0 <= bil c (e0 i) (e0 i)).
    { intros i Hi. pose proof (energy_nonneg c (e0 i) St (equilibrium_symmetric 9 ft U N9 c tilt _ e0 HE i Hi)) as E. rewrite bil_energy in E. lra. }
    assert (Sge : 0 <= rsum 9 (fun i => bil c (e0 i) (e0 i))) by (apply rsum_nonneg; exact NN).
    destruct (Rle_lt_or_eq_dec _ _ Sge) as [Gt|Eq]; [rewrite W in Gt; lra|]. exfalso.
    assert (Z : forall i a b, (i < 9)%nat -> (a < 3)%nat -> (b < 3)%nat -> e0 i a b = 0).
    { intros i a b' Hi Ha Hb'. pose proof (rsum_zero_term 9 _ NN (eq_sym Eq) i Hi) as Zi. cbv beta in Zi.
      destruct (nine_zero (e0 i)) as [E|E]; [exact (E a b' Ha Hb')|].
      apply (Pos _ (equilibrium_symmetric 9 ft U N9 c tilt _ e0 HE i Hi)) in E. rewrite bil_energy, Zi in E. lra. }
    destruct slab_wave as (k & Hk & Wk). destruct HE as (u & _ & Hd). specialize (Hd k 2%nat Hk ltac:(lia)).
    assert (M : forall j, (j < 3)%nat -> mode 9 ft (fun i => node_stress c tilt (e0 i) (if Nat.eqb i 0 then 1 / 2 else 0) 2 j) k = RtoC (- shear_modulus b v * tilt 2%nat j)).
    { intros j Hj. rewrite <- (spot_mode (- shear_modulus b v * tilt 2%nat j) k Hk). apply (mode_ext 9 ft N9). intros i Hi.
      transitivity (- (if Nat.eqb i 0 then 1 / 2 else 0) * contract_last (isotropic b v) tilt 2%nat j).
      - unfold node_stress, contract_last. rewrite <- rsum_mul_l. apply rsum_ext. intros p Hp. rewrite <- rsum_mul_l. apply rsum_ext. intros q Hq. rewrite Z by assumption. fold c. ring.
      - rewrite tilt_contract by lia. destruct (Nat.eqb i 0); field. }
    unfold divergence_mode in Hd. rewrite (csum_ext 3 _ (fun j => Cmul (0, 2 * PI * wave ft k j) (RtoC (- shear_modulus b v * tilt 2%nat j)))) in Hd by (intros j Hj; rewrite M by exact Hj; reflexivity).
    cbn [csum] in Hd. unfold tilt in Hd. cbn [Nat.eqb andb orb] in Hd. apply (f_equal Im) in Hd. cbn [Im Cadd Cmul RtoC C0 fst snd] in Hd.
    assert (Sh := shear_pos b v Hb Hv). assert (Pp := PI_RGT_0).
    assert (NZ : 2 * PI * shear_modulus b v * wave ft k 0 <> 0) by (apply Rmult_integral_contrapositive_currified; [nra|exact Wk]).
    apply NZ. fold ft in Wk |- *. unfold Re, Im, RtoC in Hd. cbn [fst snd] in Hd. lra. }
  unfold ft. rewrite (tilt_term solve b v (spot (1 / 2)) field L). fold c. unfold pairing.
  rewrite (rsum_head 9 (fun i => blend_deriv _ * _ * _)) by lia. rewrite (rsum_ext (9 - 1) _ (fun _ => 0)), rsum_0.
  2:{ intros i Hi. rewrite !spot_value by lia. cbn [Nat.eqb]. ring. }
  rewrite !spot_value by lia. cbn [Nat.eqb].
  rewrite (rsum_head 9) by lia. rewrite (rsum_ext (9 - 1) _ (fun _ => 0)), rsum_0.
  2:{ intros i Hi. fold (value (spot 1) (S i)). rewrite spot_value by lia. cbn [Nat.eqb]. ring. }
  fold (value (spot 1) 0). rewrite (EnergyProofs3.nth_map_seq (fun i => RtoC (- (2 * energy_density c tilt) * (blend (value (spot (1 / 2)) i) * blend_deriv (value (spot (1 / 2)) i)))) C0 9 0) by lia.
  rewrite !spot_value by lia. cbn [Nat.eqb Re RtoC fst]. rewrite bil_energy. unfold weight, blend, blend_deriv. lra.
Qed.
