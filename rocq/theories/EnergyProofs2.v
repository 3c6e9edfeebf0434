From Verif Require Import EnergySpec EnergyProofs StepProofs Vec CVec Complex.
From Coq Require Import Lra Lia.
Open Scope R_scope.

(** ** Vandeven *)
Lemma weight_nonneg order x : 0 <= x <= 1 -> 0 <= vandeven_weight order x.
Proof. intros H. apply pow_le. nra. Qed.

Lemma vprefactor_pos order : 0 < vandeven_prefactor order.
Proof.
  unfold vandeven_prefactor. apply Rdiv_lt_0_compat; [|apply Rmult_lt_0_compat]; apply lt_0_INR; apply lt_O_fact.
Qed.

Lemma vdata_step order i : (i < 999)%nat -> vandeven_data order (S i) <= vandeven_data order i.
Proof.
  intros H. change (vandeven_data order (S i)) with
    (vandeven_data order i - vandeven_prefactor order * (1 / 2) * (vandeven_weight order (INR (S i) * vandeven_dx - vandeven_dx) + vandeven_weight order (INR (S i) * vandeven_dx)) * vandeven_dx).
  assert (A : 0 <= INR i <= 998).
  { split; [apply pos_INR|]. replace 998 with (INR 998) by (rewrite INR_IZR_INZ; reflexivity). apply le_INR. lia. }
  pose proof (weight_nonneg order (INR (S i) * vandeven_dx - vandeven_dx)) as W1.
  pose proof (weight_nonneg order (INR (S i) * vandeven_dx)) as W2.
  rewrite S_INR in *. unfold vandeven_dx in *. pose proof (vprefactor_pos order).
  assert (0 <= vandeven_prefactor order * (1 / 2) * (vandeven_weight order ((INR i + 1) * (1 / 999) - 1 / 999) + vandeven_weight order ((INR i + 1) * (1 / 999))) * (1 / 999)).
  { apply Rmult_le_pos; [|lra]. apply Rmult_le_pos; [lra|].
    pose proof (W1 ltac:(lra)). pose proof (W2 ltac:(lra)). lra. }
  lra.
Qed.

Lemma vdata_mono order i j : (i <= j <= 999)%nat -> vandeven_data order j <= vandeven_data order i.
Proof.
  intros [H1 H2]. induction H1 as [|j H1 IH]; [lra|].
  pose proof (vdata_step order j ltac:(lia)). pose proof (IH ltac:(lia)). lra.
Qed.

Lemma to_int_spec x : 0 <= x -> (0 <= to_int x)%Z /\ IZR (to_int x) <= x < IZR (to_int x) + 1.
Proof.
  intros H. unfold to_int. destruct (Rle_dec 0 x); [|lra]. destruct (base_Int_part x) as [A B]. split; [|lra].
  assert (-1 < IZR (Int_part x)) by lra. apply lt_IZR in H0. lia.
Qed.

Lemma Some_inj {A} (x y : A) : Some x = Some y -> x = y.
Proof. intros H. injection H as H. exact H. Qed.

(** Where the value of the filter comes from. *)
Lemma vandeven_eval_cases order x : 0 <= x ->
  (1 <= x /\ vandeven_eval order x = Some (vandeven_data order 999)) \/
  (exists i : nat, (i < 999)%nat /\ INR i <= x * 999 < INR i + 1 /\
     vandeven_eval order x = Some (vandeven_data order i + (x * 999 - INR i) * (vandeven_data order (S i) - vandeven_data order i))).
Proof.
  intros Hx. destruct (to_int_spec (x * 999)) as [P [A B]]; [lra|].
  unfold vandeven_eval. destruct (Z.leb_spec 999 (to_int (x * 999))) as [L|L].
  - left. split; [|reflexivity]. apply IZR_le in L. lra.
  - right. exists (Z.to_nat (to_int (x * 999))).
    assert (E : INR (Z.to_nat (to_int (x * 999))) = IZR (to_int (x * 999))) by (rewrite INR_IZR_INZ, Z2Nat.id by lia; reflexivity).
    rewrite E. split; [lia|]. split; [lra|]. destruct (Z.ltb_spec (to_int (x * 999)) 0); [lia|]. f_equal. field.
Qed.

Lemma vandeven_eval_total order x : 0 <= x -> exists y, vandeven_eval order x = Some y.
Proof. intros H. destruct (vandeven_eval_cases order x H) as [[_ E]|[i [_ [_ E]]]]; rewrite E; eexists; reflexivity. Qed.

Lemma vandeven_eval_zero order : vandeven_eval order 0 = Some 1.
Proof.
  destruct (vandeven_eval_cases order 0 ltac:(lra)) as [[H _]|[i [_ [H E]]]]; [lra|].
  destruct i as [|i].
  - rewrite E. f_equal. cbn [vandeven_data INR]. ring.
  - rewrite S_INR in H. pose proof (pos_INR i). lra.
Qed.

Lemma cell_bounds order i s : (i < 999)%nat -> 0 <= s <= 1 ->
  vandeven_data order (S i) <= vandeven_data order i + s * (vandeven_data order (S i) - vandeven_data order i) <= vandeven_data order i.
Proof. intros Hi Hs. pose proof (vdata_step order i Hi). split; nra. Qed.

Lemma vandeven_eval_mono order x y a b : 0 <= x <= y ->
  vandeven_eval order x = Some a -> vandeven_eval order y = Some b -> b <= a.
Proof.
  intros H Ea Eb.
  destruct (vandeven_eval_cases order x ltac:(lra)) as [[H1 E]|[i [Hi [Ri E]]]];
  destruct (vandeven_eval_cases order y ltac:(lra)) as [[H2 E']|[j [Hj [Rj E']]]];
  rewrite Ea in E; rewrite Eb in E'; apply Some_inj in E; apply Some_inj in E'; rewrite E, E'.
  - lra.
  - assert (INR j <= 998). { replace 998 with (INR 998) by (rewrite INR_IZR_INZ; reflexivity). apply le_INR. lia. } lra.
  - pose proof (cell_bounds order i (x * 999 - INR i) Hi ltac:(lra)).
    pose proof (vdata_mono order (S i) 999 ltac:(lia)). lra.
  - destruct (Nat.lt_trichotomy i j) as [L|[Eij|L]].
    + pose proof (cell_bounds order i (x * 999 - INR i) Hi ltac:(lra)).
      pose proof (cell_bounds order j (y * 999 - INR j) Hj ltac:(lra)).
      pose proof (vdata_mono order (S i) j ltac:(lia)). lra.
    + rewrite <- Eij in *. pose proof (vdata_step order i Hi). nra.
    + assert (INR j + 1 <= INR i) by (rewrite <- S_INR; apply le_INR; lia). lra.
Qed.

Lemma vandeven_eval_le_1 order x a : 0 <= x -> vandeven_eval order x = Some a -> a <= 1.
Proof. intros H E. exact (vandeven_eval_mono order 0 x 1 a ltac:(lra) (vandeven_eval_zero order) E). Qed.

Lemma vandeven_eval_ge_last order x a : 0 <= x -> vandeven_eval order x = Some a -> vandeven_data order 999 <= a.
Proof.
  intros H E. assert (E1 : vandeven_eval order (Rmax x 1) = Some (vandeven_data order 999)).
  { destruct (vandeven_eval_cases order (Rmax x 1)) as [[_ Ex]|[i [Hi [R _]]]]; [pose proof (Rmax_r x 1); lra|exact Ex|].
    assert (INR i <= 998). { replace 998 with (INR 998) by (rewrite INR_IZR_INZ; reflexivity). apply le_INR. lia. }
    pose proof (Rmax_r x 1). lra. }
  exact (vandeven_eval_mono order x (Rmax x 1) a _ (conj H (Rmax_l x 1)) E E1).
Qed.

(** The last entry through whole numbers. *)
Fixpoint zweights (q i : nat) : Z :=
  match i with
  | O => 0%Z
  | S i' => (zweights q i' + (Z.of_nat i' * (999 - Z.of_nat i')) ^ Z.of_nat q + (Z.of_nat i * (999 - Z.of_nat i)) ^ Z.of_nat q)%Z
  end.

Lemma weight_whole order i : vandeven_weight order (INR i * vandeven_dx) = IZR ((Z.of_nat i * (999 - Z.of_nat i)) ^ Z.of_nat (order - 1)) / 999 ^ (2 * (order - 1)).
Proof.
  unfold vandeven_weight, vandeven_dx. rewrite <- pow_IZR, mult_IZR, minus_IZR, <- INR_IZR_INZ, pow_mult.
  unfold Rdiv. rewrite <- pow_inv. rewrite <- Rpow_mult_distr. f_equal. field.
Qed.

Lemma vdata_whole order i : vandeven_data order i = 1 - vandeven_prefactor order * (1 / 2) * (IZR (zweights (order - 1) i) / 999 ^ (2 * (order - 1))) * vandeven_dx.
Proof.
  induction i as [|i IH].
  - cbn [vandeven_data zweights]. unfold Rdiv. ring.
  - cbn [zweights]. change (vandeven_data order (S i)) with
    (vandeven_data order i - vandeven_prefactor order * (1 / 2) * (vandeven_weight order (INR (S i) * vandeven_dx - vandeven_dx) + vandeven_weight order (INR (S i) * vandeven_dx)) * vandeven_dx).
    replace (INR (S i) * vandeven_dx - vandeven_dx) with (INR i * vandeven_dx) by (rewrite S_INR; ring).
    rewrite IH, !weight_whole, !plus_IZR. unfold Rdiv. ring.
Qed.


Lemma pref_whole order a b : fact (2 * order - 1) = Z.to_nat a -> fact (order - 1) = Z.to_nat b -> (0 <= a)%Z -> (0 <= b)%Z ->
  vandeven_prefactor order = IZR a / (IZR b * IZR b).
Proof. intros A B Ha Hb. unfold vandeven_prefactor. rewrite A, B, !INR_IZR_INZ, !Z2Nat.id by assumption. reflexivity. Qed.

Lemma last_1 : vandeven_data 1 999 = 0.
Proof.
  rewrite vdata_whole. replace (zweights (1 - 1) 999) with 1998%Z by (vm_compute; reflexivity).
  rewrite (pref_whole 1 1 1) by (try lia; reflexivity). unfold vandeven_dx. cbn [Nat.mul Nat.add Nat.sub pow]. field.
Qed.
Lemma last_2 : vandeven_data 2 999 = 1 / 999 ^ 2.
Proof.
  rewrite vdata_whole. replace (zweights (2 - 1) 999) with 332334000%Z by (vm_compute; reflexivity).
  rewrite (pref_whole 2 6 1) by (try lia; reflexivity). unfold vandeven_dx. cbn [Nat.mul Nat.add Nat.sub pow]. field.
Qed.
Lemma last_3 : vandeven_data 3 999 = 1 / 999 ^ 4.
Proof.
  rewrite vdata_whole. replace (zweights (3 - 1) 999) with 66333999333600%Z by (vm_compute; reflexivity).
  rewrite (pref_whole 3 120 2) by (try lia; reflexivity). unfold vandeven_dx. cbn [Nat.mul Nat.add Nat.sub pow]. field.
Qed.
Lemma last_4 : vandeven_data 4 999 < 0.
Proof.
  rewrite vdata_whole. replace (zweights (4 - 1) 999) with 14186013786247219200%Z by (vm_compute; reflexivity).
  rewrite (pref_whole 4 5040 6) by (try lia; reflexivity). unfold vandeven_dx. cbn [Nat.mul Nat.add Nat.sub pow]. lra.
Qed.

Lemma last_nonneg order : (1 <= order <= 3)%nat -> 0 <= vandeven_data order 999.
Proof.
  intros H. destruct order as [|[|[|[|order]]]]; [lia| | | |lia].
  - rewrite last_1. lra.
  - rewrite last_2. lra.
  - rewrite last_3. lra.
Qed.

(** Order one is the straight line 1 - x. *)
Lemma vdata_1 i : vandeven_data 1 i = 1 - INR i / 999.
Proof.
  induction i as [|i IH]; [cbn [vandeven_data INR]; field|].
  change (vandeven_data 1 (S i)) with
    (vandeven_data 1 i - vandeven_prefactor 1 * (1 / 2) * (vandeven_weight 1 (INR (S i) * vandeven_dx - vandeven_dx) + vandeven_weight 1 (INR (S i) * vandeven_dx)) * vandeven_dx).
  rewrite IH, S_INR. rewrite (pref_whole 1 1 1) by (try lia; reflexivity). unfold vandeven_weight, vandeven_dx. cbn [Nat.sub pow]. field.
Qed.
Lemma vandeven_1 x : 0 <= x <= 1 -> vandeven_eval 1 x = Some (1 - x).
Proof.
  intros H. destruct (vandeven_eval_cases 1 x ltac:(lra)) as [[H1 E]|[i [Hi [Ri E]]]]; rewrite E.
  - apply f_equal. rewrite last_1. lra.
  - apply f_equal. rewrite !vdata_1, S_INR. field.
Qed.

(** ** The argument passed to the filter *)
Lemma filter_argument_nonneg f : 0 <= filter_argument f.
Proof.
  unfold filter_argument, norm. pose proof (sqrt_pos (norm_sq f)). pose proof PI_RGT_0.
  apply Rmult_le_pos; [lra|]. left. apply Rinv_0_lt_compat. lra.
Qed.
Lemma norm_sq_bound f : Forall (fun x => Rabs x <= 1 / 2) f -> norm_sq f <= INR (length f) / 4.
Proof.
  induction 1 as [|x f Hx Hf IH]; [cbn [norm_sq length INR]; lra|].
  cbn [norm_sq length]. rewrite S_INR. assert (x * x <= 1 / 4); [|lra].
  replace (x * x) with (Rabs x * Rabs x) by (rewrite <- Rabs_mult; apply Rabs_right; apply Rle_ge; apply Rle_0_sqr).
  pose proof (Rabs_pos x). nra.
Qed.
Lemma filter_argument_bound f : (length f <= 3)%nat -> Forall (fun x => Rabs x <= 1 / 2) f -> filter_argument f < 3 / 5.
Proof.
  intros Hl Hf. pose proof (norm_sq_bound f Hf) as B. apply le_INR in Hl. cbn [INR] in Hl.
  unfold filter_argument. pose proof PI2_3_2 as P.
  assert (N : norm f <= 9 / 10).
  { unfold norm. rewrite <- (sqrt_square (9 / 10)) by lra. apply sqrt_le_1_alt. lra. }
  apply (Rmult_lt_reg_r PI); [lra|]. unfold Rdiv. rewrite Rmult_assoc, Rinv_l by lra. lra.
Qed.

(** ** Filters and the mean *)
Lemma apply_filter_node0 g ft d : g 0 = 1 -> norm_sq (tfreq ft 0) = 0 -> nth 0 (apply_filter (Some g) ft d) C0 = nth 0 d C0.
Proof.
  intros G Z. destruct d as [|z d]; [reflexivity|]. cbn [apply_filter mapi_from nth]. rewrite Z, sqrt_0.
  replace (0 * 2 / PI) with 0 by (unfold Rdiv; ring). rewrite G. apply C_eq; cbn; ring.
Qed.
Lemma filter_keeps_mean n g ft x : good_transform n ft -> g 0 = 1 -> length x = n ->
  mean (to_real ft (apply_filter (Some g) ft (fft ft x))) = mean x.
Proof.
  intros G Hg Hx. unfold mean.
  assert (L : length (apply_filter (Some g) ft (fft ft x)) = n) by (rewrite apply_filter_length; exact (gt_fft_len n ft G x Hx)).
  assert (L2 : length (to_real ft (apply_filter (Some g) ft (fft ft x))) = n).
  { unfold to_real. rewrite div_real_length. exact (gt_ifft_len n ft G _ L). }
  rewrite L2, Hx. f_equal.
  rewrite <- (gt_zero n ft G _ L2), (gt_inverse n ft G _ L), (apply_filter_node0 g ft _ Hg (gt_freq0 n ft G)).
  exact (gt_zero n ft G x Hx).
Qed.

(** ** Spectral viscosity *)
Lemma interpolant_x f m : 0 < m -> m / 3 <= f <= m ->
  exists x, x = 3 / 2 * f / m - 1 / 2 /\ 0 <= x <= 1 /\ interpolant f m = 2 * x ^ 2 - 3 * x ^ 3.
Proof.
  intros Hm Hf. exists (3 / 2 * f / m - 1 / 2). split; [reflexivity|]. split.
  - assert (1 / 3 <= f / m <= 1).
    { split; apply (Rmult_le_reg_r m); try lra; replace (f / m * m) with f by (field; lra); lra. }
    unfold Rdiv in *. lra.
  - unfold interpolant. destruct (Rlt_dec f (1 / 3 * m)); [lra|]. destruct (Rlt_dec m f); [lra|]. field. lra.
Qed.

Lemma interpolant_low f m : f < m / 3 -> interpolant f m = 0.
Proof. intros H. unfold interpolant. destruct (Rlt_dec f (1 / 3 * m)); [reflexivity|lra]. Qed.
Lemma interpolant_high f m : 0 < m -> m < f -> interpolant f m = 1.
Proof. intros Hm H. unfold interpolant. destruct (Rlt_dec f (1 / 3 * m)); [lra|]. destruct (Rlt_dec m f); [reflexivity|lra]. Qed.

Lemma interpolant_damps f m : 0 < m -> f <= 7 / 9 * m \/ m < f -> 0 <= interpolant f m <= 1.
Proof.
  intros Hm H. destruct (Rlt_dec m f) as [L|L]; [rewrite interpolant_high by assumption; lra|].
  destruct (Rlt_dec f (m / 3)) as [L2|L2]; [rewrite interpolant_low by assumption; lra|].
  destruct (interpolant_x f m Hm ltac:(lra)) as [x [E [Hx ->]]].
  assert (x <= 2 / 3).
  { rewrite E. assert (f / m <= 7 / 9); [|unfold Rdiv in *; lra].
    apply (Rmult_le_reg_r m); [lra|]. replace (f / m * m) with f by (field; lra). lra. }
  assert (0 <= x * x) by nra. split; [|]; nra.
Qed.

Lemma interpolant_grows f m : 0 < m -> 7 / 9 * m < f <= m -> interpolant f m < 0.
Proof.
  intros Hm H. destruct (interpolant_x f m Hm ltac:(lra)) as [x [E [Hx ->]]].
  assert (2 / 3 < x).
  { rewrite E. assert (7 / 9 < f / m); [|unfold Rdiv in *; lra].
    apply (Rmult_lt_reg_r m); [lra|]. replace (f / m * m) with f by (field; lra). lra. }
  assert (0 < x * x) by nra. nra.
Qed.

(** One Euler step y / (1 - dt a) with the viscosity as implicit term. *)
Lemma viscosity_factor dt eps m power f y : 1 + dt * (eps * interpolant (norm f) m * norm f ^ power) <> 0 ->
  semi_implicit dt y C0 (viscosity eps m power f) = Cmul (RtoC (/ (1 + dt * (eps * interpolant (norm f) m * norm f ^ power)))) y.
Proof.
  intros H. unfold semi_implicit, viscosity.
  set (q := eps * interpolant (norm f) m * norm f ^ power) in *.
  replace (- eps * interpolant (norm f) m * norm f ^ power) with (- q) by (unfold q; ring).
  replace (Csub C1 (Cmul (RtoC dt) (RtoC (- q)))) with (RtoC (1 + dt * q)) by (apply C_eq; cbn; ring).
  unfold Cdiv. rewrite <- RtoC_inv by exact H. destruct y as [a b]. apply C_eq; cbn; ring.
Qed.
Lemma Cnorm2_scale r y : Cnorm2 (Cmul (RtoC r) y) = r * r * Cnorm2 y.
Proof. destruct y. unfold Cnorm2. cbn. ring. Qed.
Lemma Cnorm2_nonneg y : 0 <= Cnorm2 y.
Proof. unfold Cnorm2. nra. Qed.

Lemma viscosity_damps dt eps m power f y : 0 < m -> 0 <= eps -> 0 <= dt -> norm f <= 7 / 9 * m \/ m < norm f ->
  Cnorm2 (semi_implicit dt y C0 (viscosity eps m power f)) <= Cnorm2 y.
Proof.
  intros Hm He Hd Hf. pose proof (interpolant_damps (norm f) m Hm Hf) as [I _].
  assert (P : 0 <= norm f ^ power) by (apply pow_le; apply sqrt_pos).
  assert (Hq : 0 <= dt * (eps * interpolant (norm f) m * norm f ^ power)) by (apply Rmult_le_pos; [lra|]; apply Rmult_le_pos; [apply Rmult_le_pos|]; assumption).
  rewrite viscosity_factor by lra. rewrite Cnorm2_scale. set (q := dt * _) in *.
  assert (0 < / (1 + q) <= 1).
  { split; [apply Rinv_0_lt_compat; lra|]. rewrite <- Rinv_1. apply Rinv_le_contravar; lra. }
  pose proof (Cnorm2_nonneg y). assert (/ (1 + q) * / (1 + q) <= 1) by nra. nra.
Qed.

Lemma viscosity_untouched dt eps m power f y : 0 < m -> norm f < m / 3 -> semi_implicit dt y C0 (viscosity eps m power f) = y.
Proof.
  intros Hm Hf. rewrite viscosity_factor; rewrite (interpolant_low _ _ Hf).
  - replace (1 + dt * (eps * 0 * norm f ^ power)) with 1 by ring. rewrite Rinv_1. destruct y. apply C_eq; cbn; ring.
  - replace (1 + dt * (eps * 0 * norm f ^ power)) with 1 by ring. lra.
Qed.

Lemma viscosity_amplifies dt eps m power f y : 0 < m -> 0 < eps -> 0 < dt -> 7 / 9 * m < norm f <= m ->
  0 < 1 + dt * (eps * interpolant (norm f) m * norm f ^ power) -> y <> C0 ->
  Cnorm2 y < Cnorm2 (semi_implicit dt y C0 (viscosity eps m power f)).
Proof.
  intros Hm He Hd Hf H1 Hy. pose proof (interpolant_grows (norm f) m Hm Hf) as I.
  assert (P : 0 < norm f ^ power) by (apply pow_lt; lra).
  rewrite viscosity_factor by lra. rewrite Cnorm2_scale. set (q := dt * _) in *.
  assert (q < 0).
  { unfold q. assert (0 < dt * (eps * (- interpolant (norm f) m) * norm f ^ power)); [|lra].
    apply Rmult_lt_0_compat; [lra|]. apply Rmult_lt_0_compat; [apply Rmult_lt_0_compat|]; lra. }
  assert (1 < / (1 + q)).
  { rewrite <- Rinv_1. apply Rinv_lt_contravar; lra. }
  pose proof (Cnorm2_pos y Hy). assert (1 < / (1 + q) * / (1 + q)) by nra. nra.
Qed.
