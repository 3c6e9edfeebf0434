(** Voigt matrices, and the stiffness the strain energy tool uses outside of
    the inclusion. *)
From Verif Require Import StrainSpec StrainProofs StrainProofs2 StrainProofs3 StrainProofs4 StrainProofs5 StrainProofs6 ElasticProofs RealProofs GradProofs EnergyProofs EnergyProofs3 DftProofs IndexProofs StepProofs Vec CVec.
From Verif Require Import Complex.
From Coq Require Import Lra Lia FunctionalExtensionality.
Open Scope R_scope.

Theorem voigt_stiff voigt t : length voigt = 36%nat -> from_flat_voigt voigt = Some t ->
  (forall p q, (p < 6)%nat -> (q < 6)%nat -> nth (6 * p + q) voigt 0 = nth (6 * q + p) voigt 0) ->
  (forall m : nat -> R, (exists p, (p < 6)%nat /\ m p <> 0) -> 0 < rsum 6 (fun p => rsum 6 (fun q => nth (6 * p + q) voigt 0 * m p * m q))) ->
  stiff (rat t).
Proof.
  intros L E Sym Pos. destruct (voigt_minor voigt t ltac:(lia) E) as [S1 S2].
  split; [exact S1|]. split; [exact S2|]. split; [apply (voigt_major voigt t ltac:(lia) E); exact Sym|].
  intros e Se (i & j & Hi & Hj & Ne).
  pose (m := [e 0%nat 0%nat; e 1%nat 1%nat; e 2%nat 2%nat; 2 * e 1%nat 2%nat; 2 * e 0%nat 2%nat; 2 * e 0%nat 1%nat]).
  assert (M : forall a b, (a < 3)%nat -> (b < 3)%nat -> e a b = misfit_of m a b).
  { intros a b Ha Hb. destruct a as [|[|[|a]]]; [| | |lia]; (destruct b as [|[|[|b]]]; [| | |lia]);
      unfold misfit_of, mset, mzero, m; cbn [Nat.eqb andb nth]; try reflexivity; try lra; rewrite Se by lia; lra. }
  rewrite (energy_density_ext _ e (misfit_of m) M), (misfit_energy voigt t m L E). apply Rmult_lt_0_compat; [lra|].
  apply (Pos (fun p => nth p m 0)).
  destruct i as [|[|[|i]]]; [| | |lia]; (destruct j as [|[|[|j]]]; [| | |lia]);
    [exists 0%nat|exists 5%nat|exists 4%nat|exists 5%nat|exists 1%nat|exists 3%nat|exists 4%nat|exists 3%nat|exists 2%nat];
    (split; [lia|]); unfold m; cbn [nth]; try exact Ne; intros Z; apply Ne; try lra; rewrite Se by lia; lra.
Qed.

Definition diag36 (d : R) : list R := map (fun k => if Nat.eqb (k / 6) (k mod 6) then d else 0) (seq 0 36).
Lemma diag36_at d : exists t, from_flat_voigt (diag36 d) = Some t /\
  forall i j k l, (i < 3)%nat -> (j < 3)%nat -> (k < 3)%nat -> (l < 3)%nat -> rat t i j k l = nth (6 * voigt_number i j + voigt_number k l) (diag36 d) 0.
Proof. destruct (voigt_at (diag36 d)) as (t & E & V); [unfold diag36; rewrite map_length, seq_length; lia|]. exists t. split; [exact E|exact V]. Qed.
Lemma diag36_stiff d t : 0 < d -> from_flat_voigt (diag36 d) = Some t -> stiff (rat t).
Proof.
  intros Hd E. apply (voigt_stiff (diag36 d) t); [reflexivity|exact E| |].
  - intros p q Hp Hq. do 6 (destruct p as [|p]; [do 6 (destruct q as [|q]; [reflexivity|]); lia|]). lia.
  - intros m (p & Hp & N). unfold diag36. cbn [rsum seq map nth Nat.mul Nat.add Nat.div Nat.modulo Nat.divmod Nat.eqb fst snd Nat.sub].
    assert (Q : 0 < d * (m 0%nat * m 0%nat + m 1%nat * m 1%nat + m 2%nat * m 2%nat + m 3%nat * m 3%nat + m 4%nat * m 4%nat + m 5%nat * m 5%nat)).
    { apply Rmult_lt_0_compat; [exact Hd|].
      assert (S : forall x : R, 0 <= x * x) by (intros; nra). pose proof (S (m 0%nat)). pose proof (S (m 1%nat)). pose proof (S (m 2%nat)). pose proof (S (m 3%nat)). pose proof (S (m 4%nat)). pose proof (S (m 5%nat)).
      assert (Sp : 0 < m p * m p) by (destruct (Rtotal_order (m p) 0) as [G|[G|G]]; [nra|contradiction|nra]).
      do 6 (destruct p as [|p]; [lra|]). lia. }
    lra.
Qed.

(** ** One voxel in a cube of 27 *)
Definition row_major (q : nat) : Z * Z * Z := (Z.of_nat (q / 9), Z.of_nat ((q / 3) mod 3), Z.of_nat (q mod 3)).
Definition cube : list Z := [3; 3; 3]%Z.
Definition speck_input : strain_input :=
  {| si_a := 1 / 2; si_b := 1 / 2; si_c := 1 / 2; si_misfit := [1; 1; 1; 0; 0; 0];
     si_matrix := Some (diag36 1); si_inc := Some (diag36 2); si_size := 3; si_perturb := false |}.
Definition speck : data := ellipsoid row_major 3 (1 / 2) (1 / 2) (1 / 2).
Definition swelling : matrix := misfit_of [1; 1; 1; 0; 0; 0].

Lemma sq_int z : (z <> 0)%Z -> 4 <= (IZR z / (1 / 2)) ^ 2.
Proof.
  intros N. replace ((IZR z / (1 / 2)) ^ 2) with (4 * IZR (z * z)) by (rewrite mult_IZR; field). assert (1 <= IZR (z * z)); [|lra]. apply IZR_le. nia.
Qed.
Lemma speck_at k : (k < 27)%nat -> nth k speck C0 = if Nat.eqb k 13 then C1 else C0.
Proof.
  intros Hk. unfold speck, ellipsoid. change (Z.to_nat (3 * 3 * 3)) with 27%nat.
  rewrite (EnergyProofs3.nth_map_seq (fun q => ellipsoid_voxel 3 (1 / 2) (1 / 2) (1 / 2) (row_major q)) C0 27 k Hk).
  unfold row_major, ellipsoid_voxel. change (Z.quot 3 2) with 1%Z.
  assert (P : forall x : R, 0 <= (x / (1 / 2)) ^ 2) by (intros; apply pow2_ge_0).
  destruct (Nat.eqb_spec k 13) as [->|N].
  - destruct (Rle_dec _ 1) as [_|B]; [reflexivity|]. exfalso. apply B. cbn. lra.
  - destruct (Rle_dec _ 1) as [B|_]; [|reflexivity]. exfalso.
    assert (Q : (Z.of_nat (k / 9) - 1 <> 0 \/ Z.of_nat ((k / 3) mod 3) - 1 <> 0 \/ Z.of_nat (k mod 3) - 1 <> 0)%Z).
    { pose proof (Nat.div_mod k 3 ltac:(lia)). pose proof (Nat.div_mod (k / 3) 3 ltac:(lia)). rewrite Nat.div_div in H0 by lia. change (3 * 3)%nat with 9%nat in H0. lia. }
    destruct Q as [Q|[Q|Q]]; apply sq_int in Q; pose proof (P (IZR (Z.of_nat (k / 9) - 1))); pose proof (P (IZR (Z.of_nat ((k / 3) mod 3) - 1))); pose proof (P (IZR (Z.of_nat (k mod 3) - 1))); lra.
Qed.
Lemma speck_value k : (k < 27)%nat -> value speck k = if Nat.eqb k 13 then 1 else 0.
Proof. intros Hk. unfold value. rewrite speck_at by exact Hk. destruct (Nat.eqb k 13); reflexivity. Qed.
Lemma cube_regular27 : regular_grid cube.
Proof.
  unfold cube. split; [split; [right; reflexivity|repeat constructor; lia]|]. split; [right; auto|].
  split; [repeat constructor; lia|repeat constructor; reflexivity].
Qed.
Lemma cube_wave : exists k, (k < 27)%nat /\ wave (fftw_transform cube) k 0 <> 0.
Proof.
  destruct (Req_dec (wave (fftw_transform cube) 3 0) 0) as [E|E]; [|exists 3%nat; split; [lia|exact E]].
  destruct (Req_dec (wave (fftw_transform cube) 9 0) 0) as [E'|E']; [|exists 9%nat; split; [lia|exact E']].
  exists 1%nat. split; [lia|]. exfalso. revert E E'. unfold wave, fftw_transform. cbn [tfreq].
  let f := eval vm_compute in (freq cube (Z.of_nat 3)) in change (freq cube (Z.of_nat 3)) with f.
  let f := eval vm_compute in (freq cube (Z.of_nat 9)) in change (freq cube (Z.of_nat 9)) with f. cbn [map nth]. unfold Q2R. cbn. intros. lra.
Qed.
Lemma speck_mode s k : (k < 27)%nat -> exists z, z <> C0 /\ mode 27 (fftw_transform cube) (fun i => s * value speck i) k = Cmul (RtoC s) z.
Proof.
  intros Hk. exists (cis (-1 * phase (fftw_dims cube) k 13)). split; [apply cis_neq0|].
  unfold mode, fftw_transform. cbn [fft]. rewrite dft_nth by exact Hk. change (nprod (fftw_dims cube)) with 27%nat. rewrite (csum_single _ 13%nat).
  - rewrite (EnergyProofs3.nth_map_seq (fun i => RtoC (s * value speck i)) C0 27 13) by lia. rewrite speck_value by lia. cbn [Nat.eqb]. rewrite Rmult_1_r. reflexivity.
  - lia.
  - intros i Hi N. rewrite (EnergyProofs3.nth_map_seq (fun i => RtoC (s * value speck i)) C0 27 i Hi). rewrite speck_value by exact Hi.
    destruct (Nat.eqb_spec i 13); [contradiction|]. rewrite Rmult_0_r. csolve.
Qed.
Lemma swelling_contract t a b : from_flat_voigt (diag36 1) = Some t -> (a < 3)%nat -> (b < 3)%nat -> contract_last t swelling a b = if Nat.eqb a b then 1 else 0.
Proof.
  intros E Ha Hb. destruct (diag36_at 1) as (t' & E' & V). rewrite E in E'. injection E' as <-. unfold contract_last.
  rewrite (rsum_ext 3 _ (fun k => rsum 3 (fun l => nth (6 * voigt_number a b + voigt_number k l) (diag36 1) 0 * swelling k l)))
    by (intros k Hk; apply rsum_ext; intros l Hl; rewrite V by assumption; reflexivity).
  destruct a as [|[|[|a]]]; [| | |lia]; (destruct b as [|[|[|b]]]; [| | |lia]);
    unfold swelling, misfit_of, mset, mzero; cbn; lra.
Qed.

(** the strain reaches beyond the speck *)
Lemma strain_outside t eps : from_flat_voigt (diag36 1) = Some t -> equilibrium_strain 27 (fftw_transform cube) (rat t) swelling (value speck) eps ->
  exists k, (k < 27)%nat /\ k <> 13%nat /\ exists i j, (i < 3)%nat /\ (j < 3)%nat /\ eps k i j <> 0.
Proof.
  intros Et Eq. set (ft := fftw_transform cube) in *. assert (Hv := proj1 cube_regular27).
  pose proof (fftw_good cube Hv : good_transform 27 ft) as G.
  assert (Dec : (forall k, (k < 27)%nat -> k <> 13%nat -> forall i j, (i < 3)%nat -> (j < 3)%nat -> eps k i j = 0) \/
    exists k, (k < 27)%nat /\ k <> 13%nat /\ exists i j, (i < 3)%nat /\ (j < 3)%nat /\ eps k i j <> 0).
  { assert (Gn : forall m, (forall k, (k < m)%nat -> k <> 13%nat -> forall i j, (i < 3)%nat -> (j < 3)%nat -> eps k i j = 0) \/
      exists k, (k < m)%nat /\ k <> 13%nat /\ exists i j, (i < 3)%nat /\ (j < 3)%nat /\ eps k i j <> 0).
    { induction m as [|m [IH|(k & Hk & R)]].
      - left. intros; lia.
      - destruct (Nat.eq_dec m 13) as [->|N].
        + left. intros k Hk Nk. apply IH; lia.
        + destruct (nine_zero (eps m)) as [Z|Z].
          * left. intros k Hk Nk. destruct (Nat.eq_dec k m) as [->|]; [exact Z|apply IH; lia].
          * right. exists m. split; [lia|]. split; [exact N|exact Z].
      - right. exists k. split; [lia|exact R]. }
    apply Gn. }
  destruct Dec as [Z|X]; [|exact X]. exfalso. pose proof Eq as (u & Hc & Hd).
  assert (Z13 : forall i j, (i < 3)%nat -> (j < 3)%nat -> eps 13%nat i j = 0).
  { intros i j Hi Hj. specialize (Hc 0%nat i j ltac:(lia) Hi Hj).
    assert (W0 : forall d, wave ft 0 d = 0) by exact (wave_zero 27 ft (fftw_unitary cube Hv)). rewrite !W0 in Hc.
    unfold mode in Hc. rewrite (gt_zero _ _ G) in Hc by (rewrite map_length; reflexivity). rewrite Csum_seq, map_length, seq_length in Hc.
    rewrite (csum_single 27 13%nat) in Hc.
    - rewrite (EnergyProofs3.nth_map_seq (fun q => RtoC (eps q i j)) C0 27 13) in Hc by lia. apply (f_equal Re) in Hc. cbn in Hc. lra.
    - lia.
    - intros q Hq N. rewrite (EnergyProofs3.nth_map_seq (fun q => RtoC (eps q i j)) C0 27 q) by exact Hq. rewrite Z by assumption. reflexivity. }
  assert (Za : forall k i j, (k < 27)%nat -> (i < 3)%nat -> (j < 3)%nat -> eps k i j = 0).
  { intros k i j Hk Hi Hj. destruct (Nat.eq_dec k 13) as [->|N]; [apply Z13|apply Z]; assumption. }
  destruct cube_wave as (k & Hk & Wk). specialize (Hd k 0%nat Hk ltac:(lia)).
  destruct (speck_mode (-1) k Hk) as (z & Nz & M1). 
  assert (M : forall j, (j < 3)%nat -> mode 27 ft (fun i => node_stress (rat t) swelling (eps i) (value speck i) 0 j) k = if Nat.eqb 0 j then Cmul (RtoC (-1)) z else C0).
  { intros j Hj.
    assert (N : forall i, (i < 27)%nat -> node_stress (rat t) swelling (eps i) (value speck i) 0 j = (if Nat.eqb 0 j then -1 else 0) * value speck i).
    { intros i Hi. transitivity (- value speck i * contract_last t swelling 0%nat j).
      - unfold node_stress, contract_last. rewrite <- rsum_mul_l. apply rsum_ext. intros p Hp. rewrite <- rsum_mul_l. apply rsum_ext. intros q Hq. rewrite Za by assumption. ring.
      - rewrite (swelling_contract t 0 j Et) by lia. destruct (Nat.eqb 0 j); ring. }
    rewrite (mode_ext 27 ft ltac:(lia) _ _ k N). destruct (Nat.eqb 0 j); [exact M1|]. destruct (speck_mode 0 k Hk) as (z0 & _ & M0). transitivity (Cmul (RtoC 0) z0); [exact M0|csolve]. }
  unfold divergence_mode in Hd. rewrite (csum_ext 3 _ (fun j => Cmul (0, 2 * PI * wave ft k j) (if Nat.eqb 0 j then Cmul (RtoC (-1)) z else C0))) in Hd by (intros j Hj; rewrite M by exact Hj; reflexivity).
  cbn [csum Nat.eqb] in Hd. fold ft in Wk. assert (Pp := PI_RGT_0).
  assert (NZ : 2 * PI * wave ft k 0 <> 0) by (apply Rmult_integral_contrapositive_currified; [lra|exact Wk]).
  apply Nz. assert (H1 := f_equal Re Hd). assert (H2 := f_equal Im Hd). cbn [Re Im Cadd Cmul RtoC C0 fst snd] in H1, H2. unfold Re, Im, RtoC in H1, H2. cbn [fst snd] in H1, H2.
  destruct z as [zr zi]. cbn [Re Im fst snd] in H1, H2. apply C_eq; cbn [Re Im C0 fst snd]; apply Rmult_eq_reg_l with (2 * PI * wave ft k 0); try exact NZ; lra.
Qed.

Theorem inclusion_everywhere solve : solves solve -> exists mat inc eps r,
  from_flat_voigt (diag36 1) = Some mat /\ from_flat_voigt (diag36 2) = Some inc /\
  equilibrium_strain 27 (fftw_transform cube) (rat mat) swelling (value speck) eps /\
  strain_energy_tool solve (fftw_transform cube) row_major speck_input = Some r /\
  mixed_energy 27 (rat inc) (rat mat) swelling (value speck) eps / (4 / 3 * PI * (1 / 2) * (1 / 2) * (1 / 2)) < r.
Proof.
  intros Hs. destruct (diag36_at 1) as (mat & Em & Vm). destruct (diag36_at 2) as (inc & Ei & Vi).
  pose proof (diag36_stiff 1 mat ltac:(lra) Em) as St.
  destruct (tool_inclusion 3 row_major speck_input solve mat ltac:(lia) eq_refl Hs eq_refl ltac:(cbn; lia) Em St inc (diag36 2) eq_refl ltac:(discriminate) eq_refl Ei) as (eps & Eq & T).
  change (equilibrium_strain 27 (fftw_transform cube) (rat mat) swelling (value speck) eps) in Eq.
  exists mat, inc, eps. eexists. split; [exact Em|]. split; [exact Ei|]. split; [exact Eq|]. split; [exact T|].
  change (misfit_of (si_misfit speck_input)) with swelling. change (ellipsoid row_major 3 (si_a speck_input) (si_b speck_input) (si_c speck_input)) with speck. change (nodes [3; 3; 3]%Z) with 27%nat.
  cbn [speck_input si_a si_b si_c].
  assert (Vp : 0 < / (4 * PI * (1 / 2) * (1 / 2) * (1 / 2) / 3)) by (apply Rinv_0_lt_compat; pose proof PI_RGT_0; lra).
  replace (4 / 3 * PI * (1 / 2) * (1 / 2) * (1 / 2)) with (4 * PI * (1 / 2) * (1 / 2) * (1 / 2) / 3) by field.
  unfold Rdiv at 1 6. apply Rmult_lt_compat_r; [exact Vp|].
  set (el := fun k => (fun i j => eps k i j - swelling i j * value speck k) : matrix).
  assert (Tot : total_energy 27 (rat inc) swelling (value speck) eps = rsum 27 (fun k => energy_density (rat inc) (el k))).
  { unfold total_energy. apply rsum_ext. intros k _. unfold energy_density, el. lra. }
  rewrite Tot. unfold mixed_energy. apply Rminus_gt_0_lt. rewrite <- rsum_minus.
  assert (Dbl : forall e, energy_density (rat inc) e = 2 * energy_density (rat mat) e).
  { intros e. unfold energy_density. rewrite (rsum4_ext (fun i j k l => rat inc i j k l * e i j * e k l) (fun i j k l => 2 * (rat mat i j k l * e i j * e k l))).
    - rewrite (rsum4_ext _ (fun i j k l => rat mat i j k l * e i j * e k l + rat mat i j k l * e i j * e k l)) by (intros; ring). 
      assert (A : forall f : nat -> nat -> nat -> nat -> R, rsum 3 (fun i => rsum 3 (fun j => rsum 3 (fun k => rsum 3 (fun l => f i j k l + f i j k l)))) = 2 * rsum 3 (fun i => rsum 3 (fun j => rsum 3 (fun k => rsum 3 (fun l => f i j k l))))) by (intros f; cbn [rsum]; ring).
      rewrite A. ring.
    - intros i j k l Hi Hj Hk Hl. rewrite Vm, Vi by assumption.
      assert (B : forall q, nth q (diag36 2) 0 = 2 * nth q (diag36 1) 0).
      { intros q. destruct (Nat.lt_ge_cases q 36) as [Lq|Lq]; [|rewrite !nth_overflow by (unfold diag36; rewrite map_length, seq_length; exact Lq); ring].
        unfold diag36. rewrite !(EnergyProofs3.nth_map_seq (fun k => if Nat.eqb (k / 6) (k mod 6) then _ else 0) 0 36 q Lq). destruct (Nat.eqb (q / 6) (q mod 6)); ring. }
      rewrite B. ring. }
  destruct (strain_outside mat eps Em Eq) as (k & Hk & Nk & i & j & Hi & Hj & Ne).
  set (f := fun k : nat => _). assert (F : forall q, (q < 27)%nat -> f q = if Nat.eqb q 13 then 0 else energy_density (rat mat) (el q)).
  { intros q Hq. unfold f. rewrite speck_value by exact Hq. destruct (Nat.eqb q 13) eqn:E13.
    - destruct (Rlt_dec (1 / 2) 1); [|lra]. unfold el. rewrite speck_value, E13 by exact Hq. ring.
    - destruct (Rlt_dec (1 / 2) 0); [lra|]. rewrite Dbl. unfold el. rewrite speck_value, E13 by exact Hq. ring. }
  assert (Sy : forall q, (q < 27)%nat -> symmetric3 (el q)).
  { intros q Hq a b Ha Hb. unfold el. rewrite (equilibrium_symmetric 27 (fftw_transform cube) (fftw_unitary cube (proj1 cube_regular27)) ltac:(lia) (rat mat) swelling _ eps Eq q Hq a b Ha Hb).
    rewrite (misfit_sym [1; 1; 1; 0; 0; 0] a b Ha Hb : swelling a b = swelling b a). reflexivity. }
  assert (NN : forall q, (q < 27)%nat -> 0 <= f q).
  { intros q Hq. rewrite F by exact Hq. destruct (Nat.eqb q 13); [lra|]. apply (energy_nonneg (rat mat) (el q) St (Sy q Hq)). }
  destruct (Rle_lt_or_eq_dec _ _ (rsum_nonneg 27 f NN)) as [P|Zs]; [exact P|]. exfalso.
  pose proof (rsum_zero_term 27 f NN (eq_sym Zs) k Hk) as Z. rewrite F in Z by exact Hk. destruct (Nat.eqb_spec k 13) as [|_]; [contradiction|].
  destruct St as (_ & _ & _ & Pos). assert (0 < energy_density (rat mat) (el k)); [|lra]. apply Pos; [apply Sy, Hk|]. exists i, j. split; [exact Hi|]. split; [exact Hj|].
  unfold el. rewrite speck_value by exact Hk. destruct (Nat.eqb_spec k 13) as [|_]; [contradiction|]. rewrite Rmult_0_r, Rminus_0_r. exact Ne.
Qed.
