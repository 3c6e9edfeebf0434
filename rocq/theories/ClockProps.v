(** C118: the clocks of the steppers in binary64 arithmetic. *)
From Verif Require Import ClockModel PixelSpec PixelProofs.
From Verif Require StepModel.
From Coq Require Import Lia Lra Psatz.
Open Scope R_scope.

(** A time step: a positive normal float64. *)
Definition good_dt (dt : f64) : Prop := is_finite dt = true /\ b2 (-1022) <= B2R dt.

Lemma clock_val dt k : good_dt dt -> (0 <= k < 2 ^ 53)%Z -> IZR k * B2R dt <= b2 1023 ->
  B2R (clock dt k) = rnd (IZR k * B2R dt) /\ is_finite (clock dt k) = true
  /\ B2R (ie_clock dt k) = rnd (IZR k * B2R dt) /\ is_finite (ie_clock dt k) = true.
Proof.
  intros (F & D) Hk H. destruct (f_of_val k 0 ltac:(lia) ltac:(lia)) as (V & Fk). change (b2 0) with 1 in V. rewrite Rmult_1_r in V.
  assert (P := bpow_gt_0 radix2 (-1022)). assert (K : 0 <= IZR k) by (apply IZR_le; lia).
  assert (A : Rabs (IZR k * B2R dt) <= b2 1023) by (rewrite Rabs_pos_eq by nra; exact H).
  unfold clock, ie_clock, float_of_int. split; [|split; [|split]].
  - rewrite <- V. apply (fmul_val (f_of k 0) dt 1023 Fk F ltac:(lia)). rewrite V. exact A.
  - apply (fmul_val (f_of k 0) dt 1023 Fk F ltac:(lia)). rewrite V. exact A.
  - rewrite <- V, Rmult_comm. apply (fmul_val dt (f_of k 0) 1023 F Fk ltac:(lia)). rewrite V, Rmult_comm. exact A.
  - apply (fmul_val dt (f_of k 0) 1023 F Fk ltac:(lia)). rewrite V, Rmult_comm. exact A.
Qed.
Lemma rnd_clock x k : b2 (-1022) <= x -> (0 <= k)%Z -> Rabs (rnd (IZR k * x) - IZR k * x) <= / 2 * b2 (-52) * (IZR k * x).
Proof.
  intros D Hk. assert (P := bpow_gt_0 radix2 (-1022)). destruct (Z.eq_dec k 0) as [->|Hz].
  - rewrite Rmult_0_l, rnd_0, Rminus_0_r, Rabs_R0. lra.
  - assert (K : 1 <= IZR k) by (apply IZR_le; lia). assert (B : b2 (-1022) <= IZR k * x) by nra.
    assert (R := rnd_rel (IZR k * x)). rewrite (Rabs_pos_eq (IZR k * x)) in R by nra. apply R, B.
Qed.

(** The time after any number of steps is the number times dt up to one
    rounding: errors do not accumulate.  The four steppers agree. *)
Theorem C118_no_accumulation : forall dt step, good_dt dt -> (Z.of_nat step < 2 ^ 53)%Z -> INR step * B2R dt <= b2 1023 ->
  is_finite (clock dt (Z.of_nat step)) = true
  /\ Rabs (B2R (clock dt (Z.of_nat step)) - StepModel.time_of (B2R dt) step) <= b2 (-53) * StepModel.time_of (B2R dt) step
  /\ is_finite (ie_clock dt (Z.of_nat step)) = true /\ B2R (ie_clock dt (Z.of_nat step)) = B2R (clock dt (Z.of_nat step)).
Proof.
  intros dt step G Hs H. unfold StepModel.time_of. rewrite INR_IZR_INZ in *.
  destruct (clock_val dt (Z.of_nat step) G ltac:(lia) H) as (V & F & Vi & Fi). split; [exact F|]. split; [|split; [exact Fi|rewrite V; exact Vi]].
  rewrite V. assert (R := rnd_clock (B2R dt) (Z.of_nat step) (proj2 G) ltac:(lia)).
  replace (b2 (-53)) with (/ 2 * b2 (-52)); [exact R|]. change (-53)%Z with (-1 + -52)%Z. rewrite bpow_plus. reflexivity.
Qed.
Print Assumptions C118_no_accumulation.

(** Time moves forward with every step. *)
Theorem C118_forward : forall dt j k, good_dt dt -> (0 <= j < k)%Z -> (k <= 2 ^ 52)%Z -> IZR k * B2R dt <= b2 1023 ->
  B2R (clock dt j) < B2R (clock dt k).
Proof.
  intros dt j k G Hj Hk H. assert (P := bpow_gt_0 radix2 (-1022)). assert (D := proj2 G). assert (D0 : 0 < B2R dt) by lra.
  assert (J1 : IZR j + 1 <= IZR k) by (rewrite <- plus_IZR; apply IZR_le; lia). assert (J0 : 0 <= IZR j) by (apply IZR_le; lia).
  assert (K52 : IZR k <= b2 52) by (change (b2 52) with (IZR (2 ^ 52)); apply IZR_le; exact Hk).
  destruct (clock_val dt j G ltac:(lia) ltac:(nra)) as (Vj & _). destruct (clock_val dt k G ltac:(lia) H) as (Vk & _). rewrite Vj, Vk.
  assert (Rj := rnd_clock (B2R dt) j D ltac:(lia)). assert (Rk := rnd_clock (B2R dt) k D ltac:(lia)).
  apply Rabs_le_inv in Rj. apply Rabs_le_inv in Rk. set (u := / 2 * b2 (-52)) in *.
  assert (U : u * b2 52 = / 2) by (unfold u; rewrite Rmult_assoc, <- bpow_plus; cbn; lra).
  assert (Up : 0 < u) by (unfold u; assert (X := bpow_gt_0 radix2 (-52)); lra).
  apply Rle_lt_trans with (IZR j * B2R dt + u * (IZR j * B2R dt)); [lra|]. apply Rlt_le_trans with (IZR k * B2R dt - u * (IZR k * B2R dt)); [|lra].
  assert (Y : u * IZR k <= / 2) by (rewrite <- U; apply Rmult_le_compat_l; lra). assert (Y2 : u * IZR j < / 2) by nra.
  nra.
Qed.
Print Assumptions C118_forward.

(** The time is exact when it fits in 53 bits, for example for a dt that is a
    power of two. *)
Theorem C118_exact : forall dt m e k, good_dt dt -> B2R dt = IZR m * b2 e -> (-1074 <= e)%Z -> (0 <= k)%Z -> (0 < m)%Z -> (k * m < 2 ^ 53)%Z -> IZR k * B2R dt <= b2 1023 ->
  B2R (clock dt k) = IZR k * B2R dt.
Proof.
  intros dt m e k G E He Hk Hm Hkm H. destruct (clock_val dt k G) as (V & _); [nia|exact H|]. rewrite V. apply rnd_id.
  rewrite E, <- Rmult_assoc, <- mult_IZR. apply gf_F2R; [|exact He]. rewrite Z.abs_eq; nia.
Qed.
Print Assumptions C118_exact.

(** N steps of size T/N end at T up to two roundings. *)
Theorem C118_end_time_partial : forall T N, is_finite T = true -> (0 < N < 2 ^ 53)%Z -> b2 (-1021) * IZR N <= B2R T <= b2 1022 ->
  Rabs (B2R (clock (fdiv T (float_of_int N)) N) - B2R T) <= b2 (-51) * B2R T.
Proof.
  intros T N F HN (T0 & T1). destruct (f_of_val N 0 ltac:(lia) ltac:(lia)) as (V & Fk). change (b2 0) with 1 in V. rewrite Rmult_1_r in V. fold (float_of_int N) in V, Fk.
  assert (N1 : 1 <= IZR N) by (apply IZR_le; lia). assert (P := bpow_gt_0 radix2 (-1021)). assert (Tp : 0 < B2R T) by nra.
  assert (Q0 : b2 (-1021) <= B2R T / IZR N). { apply Rmult_le_reg_r with (IZR N); [lra|]. unfold Rdiv. rewrite Rmult_assoc, Rinv_l by lra. lra. }
  assert (Q1 : B2R T / IZR N <= B2R T). { apply Rmult_le_reg_r with (IZR N); [lra|]. unfold Rdiv. rewrite Rmult_assoc, Rinv_l by lra. nra. }
  assert (W : B2R (fdiv T (float_of_int N)) = rnd (B2R T / IZR N) /\ is_finite (fdiv T (float_of_int N)) = true).
  { rewrite <- V. apply (fdiv_val T (float_of_int N) 1023 F); [rewrite V; lra|lia|]. rewrite V, Rabs_pos_eq by lra. apply Rle_trans with (B2R T); [exact Q1|].
    apply Rle_trans with (1 := T1). apply bpow_le. lia. }
  destruct W as (W & Fd). set (q := B2R T / IZR N) in *.
  assert (E1 : b2 (-1021) = 2 * b2 (-1022)) by (change (-1021)%Z with (1 + -1022)%Z; rewrite bpow_plus; reflexivity).
  assert (E2 : b2 1023 = 2 * b2 1022) by (change 1023%Z with (1 + 1022)%Z; rewrite bpow_plus; reflexivity).
  assert (E3 : b2 (-51) = 2 * b2 (-52)) by (change (-51)%Z with (1 + -52)%Z; rewrite bpow_plus; reflexivity).
  set (u := / 2 * b2 (-52)) in *.
  assert (Up : 0 < u) by (unfold u; assert (X := bpow_gt_0 radix2 (-52)); lra).
  assert (Us : u <= / 4). { unfold u. assert (X : b2 (-52) <= b2 (-1)) by (apply bpow_le; lia). change (b2 (-1)) with (/ 2) in X. lra. }
  assert (P2 := bpow_gt_0 radix2 (-1022)).
  assert (R1 := rnd_rel q). rewrite (Rabs_pos_eq q) in R1 by lra. specialize (R1 ltac:(lra)). fold u in R1. apply Rabs_le_inv in R1.
  set (d := rnd q) in *. assert (Nq : IZR N * q = B2R T) by (unfold q; field; lra).
  assert (Dlo : b2 (-1022) <= d) by nra. assert (G : good_dt (fdiv T (float_of_int N))) by (split; [exact Fd|rewrite W; exact Dlo]).
  assert (Nd : Rabs (IZR N * d - B2R T) <= u * B2R T). { apply Rabs_le. rewrite <- Nq. nra. }
  apply Rabs_le_inv in Nd.
  destruct (clock_val _ N G ltac:(lia)) as (Vc & _); [rewrite W; nra|]. rewrite Vc, W.
  assert (R2 := rnd_clock d N Dlo ltac:(lia)). fold u in R2. apply Rabs_le_inv in R2.
  assert (Hb : b2 (-51) = 4 * u) by (unfold u; lra). rewrite Hb. apply Rabs_le. nra.
Qed.
Print Assumptions C118_end_time_partial.

(** Not exactly: 49 steps of size 1/49 end before 1. *)
Theorem C118_end_time_refuted : Bltb (clock (fdiv (float_of_int 1) (float_of_int 49)) 49) (float_of_int 1) = true.
Proof. vm_compute. reflexivity. Qed.
Print Assumptions C118_end_time_refuted.

(** From 2^53 steps on there are steps that do not move the clock. *)
Theorem C118_forward_limit : forall dt, clock dt (2 ^ 53 + 1) = clock dt (2 ^ 53).
Proof. intros dt. unfold clock. f_equal. apply B2SF_inj. vm_compute. reflexivity. Qed.
Print Assumptions C118_forward_limit.

Example C118_nonvacuous : good_dt (f_of 1 (-10)) /\ IZR (2 ^ 40) * B2R (f_of 1 (-10)) <= b2 1023 /\ B2R (clock (f_of 1 (-10)) (2 ^ 40)) = IZR (2 ^ 30)
  /\ is_finite (float_of_int 1) = true /\ b2 (-1021) * IZR 49 <= B2R (float_of_int 1) <= b2 1022.
Proof.
  destruct (f_of_val 1 (-10) ltac:(lia) ltac:(lia)) as (V & F). destruct (f_of_val 1 0 ltac:(lia) ltac:(lia)) as (V1 & F1). change (b2 0) with 1 in V1.
  assert (G : good_dt (f_of 1 (-10))). { split; [exact F|]. rewrite V, Rmult_1_l. apply bpow_le. lia. }
  assert (E : IZR (2 ^ 40) * B2R (f_of 1 (-10)) = IZR (2 ^ 30)).
  { rewrite V, Rmult_1_l. change (IZR (2 ^ 40)) with (b2 40). rewrite <- bpow_plus. reflexivity. }
  assert (B : IZR (2 ^ 30) <= b2 1023) by (change (IZR (2 ^ 30)) with (b2 30); apply bpow_le; lia).
  split; [exact G|]. split; [rewrite E; exact B|]. split; [rewrite (C118_exact (f_of 1 (-10)) 1 (-10) (2 ^ 40) G V); [exact E|lia|lia|lia|lia|rewrite E; exact B]|].
  split; [exact F1|]. unfold float_of_int. rewrite V1, !Rmult_1_l. split; [|change 1 with (b2 0); apply bpow_le; lia].
  apply Rle_trans with (b2 (-1021) * b2 6); [apply Rmult_le_compat_l; [apply bpow_ge_0|change (b2 6) with (IZR (2 ^ 6)); apply IZR_le; lia]|].
  rewrite <- bpow_plus. change 1 with (b2 0). apply bpow_le. lia.
Qed.
