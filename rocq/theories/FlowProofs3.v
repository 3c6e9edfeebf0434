From Verif Require Import ListAux FileModel StepProofs SplitProofs4 SimProofs SimProofs2 EnergyProofs3 FlowSpec FlowProofs FlowProofs2 Vec CVec Complex.
From Coq Require Import Lia Lra.
Open Scope R_scope.

Lemma rsum_term n f j : (forall i, (i < n)%nat -> 0 <= f i) -> (j < n)%nat -> f j <= rsum n f.
Proof.
  induction n as [|n IH]; intros H Hj; [lia|]. cbn [rsum]. destruct (Nat.eq_dec j n) as [->|].
  - assert (0 <= rsum n f) by (apply rsum_nonneg; intros; apply H; lia). lra.
  - assert (f j <= rsum n f) by (apply IH; [intros; apply H; lia|lia]). assert (0 <= f n) by (apply H; lia). lra.
Qed.
Lemma rsum_const n c : rsum n (fun _ => c) = INR n * c.
Proof. induction n as [|n IH]; [cbn; ring|]. cbn [rsum]. rewrite IH, S_INR. ring. Qed.
Lemma norm_nonneg z : 0 <= Cnorm2 z.
Proof. destruct z as [a b]. unfold Cnorm2. cbn [Re Im fst snd]. nra. Qed.

Section Well.
  Variables (n : nat) (ft : transform).
  Hypothesis U : unitary_transform n ft.
  Hypothesis Hn : (0 < n)%nat.
  Variable kap : R.
  Hypothesis Hkap : 0 <= kap.

  Lemma parseval_norm d : length d = n -> rsum n (fun k => Cnorm2 (nth k (fft ft d) C0)) = INR n * rsum n (fun j => Cnorm2 (nth j d C0)).
  Proof.
    intros H. assert (P := parseval_re n ft d d U H H).
    assert (N2 : forall z, Re (Cmul z (Cconj z)) = Cnorm2 z) by (intros [a b]; unfold Cmul, Cconj, Cnorm2; cbn [Re Im fst snd]; ring).
    rewrite (rsum_ext n (fun k => Re (Cmul (nth k (fft ft d) C0) (Cconj (nth k (fft ft d) C0)))) (fun k => Cnorm2 (nth k (fft ft d) C0))) in P by (intros; apply N2).
    rewrite (rsum_ext n (fun j => Re (Cmul (nth j d C0) (Cconj (nth j d C0)))) (fun j => Cnorm2 (nth j d C0))) in P by (intros; apply N2). exact P.
  Qed.
  Lemma real_norm d j : real_field d -> Cnorm2 (nth j d C0) = Re (nth j d C0) ^ 2.
  Proof.
    intros H. destruct (Nat.lt_ge_cases j (length d)) as [Hj|Hj].
    - unfold real_field in H. rewrite Forall_forall in H. specialize (H _ (nth_In d C0 Hj)). destruct (nth j d C0) as [a b]. unfold Cnorm2. cbn [Re Im fst snd] in *. subst b. ring.
    - rewrite nth_overflow by exact Hj. unfold Cnorm2, C0. cbn [Re Im fst snd]. ring.
  Qed.

  (** The double well as an energy of a flow. *)
  Lemma well_flow d : length d = n -> real_field d ->
    flow_energy 1 n ft (fun u => u 0%nat ^ 4 / 4) (fun _ k => kap * - lap_symbol (tfreq ft k) - 1) [d] = double_well_energy n ft kap d.
  Proof.
    intros Hl Hr. assert (Np : 0 < INR n) by (apply lt_0_INR, Hn). unfold flow_energy, double_well_energy. cbn [rsum]. rewrite Rplus_0_l. cbn [nth].
    assert (P := parseval_norm d Hl).
    rewrite (rsum_ext n (fun j => Cnorm2 (nth j d C0)) (fun j => Re (nth j d C0) ^ 2)) in P by (intros; apply real_norm, Hr).
    rewrite (rsum_ext n (fun k => (kap * - lap_symbol (tfreq ft k) - 1) * Cnorm2 (nth k (fft ft d) C0))
      (fun k => kap * (- lap_symbol (tfreq ft k) * Cnorm2 (nth k (fft ft d) C0)) - Cnorm2 (nth k (fft ft d) C0))) by (intros; ring).
    rewrite rsum_minus, rsum_mul_l, P.
    rewrite (rsum_ext n (fun j => Re (nth j d C0) ^ 4 / 4 - Re (nth j d C0) ^ 2 / 2) (fun j => Re (nth j d C0) ^ 4 / 4 - (/ 2) * Re (nth j d C0) ^ 2)) by (intros; field).
    rewrite rsum_minus, rsum_mul_l.
    rewrite (rsum_ext n (fun j => node [d] j 0%nat ^ 4 / 4) (fun j => Re (nth j d C0) ^ 4 / 4)) by (intros; reflexivity).
    field. lra.
  Qed.

  (** A bounded energy bounds the values. *)
  Definition value_bound (E0 : R) : R := 1 + 2 * sqrt (Rabs (E0 + INR n / 4)).
  Lemma value_bound_pos E0 : 1 <= value_bound E0.
  Proof. unfold value_bound. assert (H := sqrt_pos (Rabs (E0 + INR n / 4))). lra. Qed.
  Lemma well_bound d E0 : double_well_energy n ft kap d <= E0 -> forall j, (j < n)%nat -> Re (nth j d C0) ^ 2 <= value_bound E0.
  Proof.
    intros HE j Hj. unfold double_well_energy in HE. assert (Np : 0 < INR n) by (apply lt_0_INR, Hn).
    assert (HQ : 0 <= kap / 2 * (rsum n (fun k => - lap_symbol (tfreq ft k) * Cnorm2 (nth k (fft ft d) C0)) / INR n)).
    { apply Rmult_le_pos; [lra|]. apply Rmult_le_pos; [|left; apply Rinv_0_lt_compat, Np]. apply rsum_nonneg. intros k _. apply Rmult_le_pos; [apply lap_nonpos|apply norm_nonneg]. }
    assert (HT := rsum_term n (fun j => (Re (nth j d C0) ^ 2 - 1) ^ 2 / 4) j). cbv beta in HT.
    assert (HS : rsum n (fun j => (Re (nth j d C0) ^ 2 - 1) ^ 2 / 4) = rsum n (fun j => Re (nth j d C0) ^ 4 / 4 - Re (nth j d C0) ^ 2 / 2) + INR n / 4).
    { rewrite (rsum_ext n _ (fun j => (Re (nth j d C0) ^ 4 / 4 - Re (nth j d C0) ^ 2 / 2) + / 4)) by (intros; field). rewrite rsum_plus, rsum_const. field. }
    assert (HT' : (Re (nth j d C0) ^ 2 - 1) ^ 2 / 4 <= E0 + INR n / 4).
    { eapply Rle_trans; [apply HT; [intros i _; assert (0 <= (Re (nth i d C0) ^ 2 - 1) ^ 2) by apply pow2_ge_0; lra|exact Hj]|]. rewrite HS. lra. }
    set (x := Re (nth j d C0) ^ 2) in *. unfold value_bound.
    assert (HA := Rle_abs (E0 + INR n / 4)). set (a := Rabs (E0 + INR n / 4)) in *.
    assert (Hs : sqrt ((x - 1) ^ 2) <= sqrt (4 * a)) by (apply sqrt_le_1_alt; lra).
    assert (Ha : 0 <= a) by apply Rabs_pos.
    assert (E4 : sqrt (4 * a) = 2 * sqrt a).
    { rewrite sqrt_mult by lra. f_equal. replace 4 with (2 * 2) by ring. apply sqrt_square. lra. }
    rewrite E4 in Hs. replace ((x - 1) ^ 2) with (Rsqr (x - 1)) in Hs by (unfold Rsqr; ring). rewrite sqrt_Rsqr_abs in Hs.
    assert (H1 := Rle_abs (x - 1)). lra.
  Qed.

  (** Values after a step. *)
  Lemma next_bound (dt Mx R0 : R) (M w : nat -> R) (d d' : data) : 0 < dt <= 1 -> length d = n -> length d' = n -> real_field d -> real_field d' -> 0 <= R0 ->
    (forall k, (k < n)%nat -> 0 <= M k <= Mx /\ / 2 <= 1 + dt * M k * w k) ->
    (forall k, (k < n)%nat -> nth k (fft ft d') C0 =
       Cdiv (Cadd (nth k (fft ft d) C0) (Cmul (RtoC dt) (Cmul (RtoC (- M k)) (amplitude_at n ft k (fun j => RtoC (Re (nth j d C0) ^ 3))))))
            (Csub C1 (Cmul (RtoC dt) (RtoC (- M k * w k))))) ->
    (forall j, (j < n)%nat -> Re (nth j d C0) ^ 2 <= R0) ->
    forall j, (j < n)%nat -> Re (nth j d' C0) ^ 2 <= 8 * INR n * (R0 + Mx ^ 2 * R0 ^ 3).
  Proof.
    intros Hdt Ld Ld' Rd Rd' HR0 HM HY HB j Hj. assert (Np : 0 < INR n) by (apply lt_0_INR, Hn).
    set (gd := map (fun j => RtoC (Re (nth j d C0) ^ 3)) (seq 0 n)).
    assert (Lg : length gd = n) by (unfold gd; rewrite map_length; apply seq_length).
    assert (HMx : 0 <= Mx) by (destruct (HM j Hj) as [[A1 A2] _]; lra).
    assert (P := parseval_norm d Ld). assert (P' := parseval_norm d' Ld'). assert (Pg := parseval_norm gd Lg).
    assert (HK : rsum n (fun k => Cnorm2 (nth k (fft ft d') C0)) <= 8 * rsum n (fun k => Cnorm2 (nth k (fft ft d) C0)) + 8 * Mx ^ 2 * rsum n (fun k => Cnorm2 (nth k (fft ft gd) C0))).
    { rewrite <- !rsum_mul_l, <- rsum_plus. apply rsum_le. intros k Hk. destruct (HM k Hk) as [[M1 M2] M3]. specialize (HY k Hk).
      change (amplitude_at n ft k (fun j => RtoC (Re (nth j d C0) ^ 3))) with (nth k (fft ft gd) C0) in HY.
      assert (Ed : Csub C1 (Cmul (RtoC dt) (RtoC (- M k * w k))) = RtoC (1 + dt * M k * w k)) by csolve.
      assert (Nz : RtoC (1 + dt * M k * w k) <> C0) by (apply RtoC_neq0; lra). rewrite Ed in HY.
      assert (E2 : Cmul (RtoC (1 + dt * M k * w k)) (nth k (fft ft d') C0) = Cadd (nth k (fft ft d) C0) (Cmul (RtoC dt) (Cmul (RtoC (- M k)) (nth k (fft ft gd) C0)))).
      { rewrite HY. field. exact Nz. }
      destruct (nth k (fft ft d') C0) as [a' b'], (nth k (fft ft d) C0) as [a b], (nth k (fft ft gd) C0) as [c e].
      unfold Cmul, Cadd, RtoC in E2. cbn [Re Im fst snd] in E2. injection E2 as E1 E2. unfold Cnorm2. cbn [Re Im fst snd].
      set (D := 1 + dt * M k * w k) in *.
      assert (Q1 : D * a' = a - dt * M k * c) by lra. assert (Q2 : D * b' = b - dt * M k * e) by lra.
      assert (HD2 : / 4 <= D * D) by nra.
      assert (T1 : (D * a') * (D * a') <= 2 * (a * a) + 2 * ((dt * M k) * (dt * M k)) * (c * c)) by (rewrite Q1; assert (HZ := Rle_0_sqr (a + dt * M k * c)); unfold Rsqr in HZ; lra).
      assert (T2 : (D * b') * (D * b') <= 2 * (b * b) + 2 * ((dt * M k) * (dt * M k)) * (e * e)) by (rewrite Q2; assert (HZ := Rle_0_sqr (b + dt * M k * e)); unfold Rsqr in HZ; lra).
      assert (HmM : 0 <= dt * M k <= Mx) by (split; [apply Rmult_le_pos; lra|apply Rle_trans with (1 * M k); [apply Rmult_le_compat_r; lra|lra]]).
      assert (Hsq : (dt * M k) * (dt * M k) <= Mx * Mx) by (apply Rmult_le_compat; lra).
      assert (0 <= a' * a') by nra. assert (0 <= b' * b') by nra. assert (0 <= c * c) by nra. assert (0 <= e * e) by nra.
      assert (T3 : / 4 * (a' * a') <= (D * a') * (D * a')) by (replace ((D * a') * (D * a')) with ((D * D) * (a' * a')) by ring; apply Rmult_le_compat_r; assumption).
      assert (T4 : / 4 * (b' * b') <= (D * b') * (D * b')) by (replace ((D * b') * (D * b')) with ((D * D) * (b' * b')) by ring; apply Rmult_le_compat_r; assumption).
      assert (T5 : (dt * M k) * (dt * M k) * (c * c) <= Mx * Mx * (c * c)) by (apply Rmult_le_compat_r; assumption).
      assert (T6 : (dt * M k) * (dt * M k) * (e * e) <= Mx * Mx * (e * e)) by (apply Rmult_le_compat_r; assumption).
      cbn [pow]. rewrite Rmult_1_r. lra. }
    rewrite P, P', Pg in HK.
    assert (HK2 : rsum n (fun j => Cnorm2 (nth j d' C0)) <= 8 * rsum n (fun j => Cnorm2 (nth j d C0)) + 8 * Mx ^ 2 * rsum n (fun j => Cnorm2 (nth j gd C0))).
    { apply (Rmult_le_reg_l (INR n)); [exact Np|]. lra. }
    assert (B1 : rsum n (fun j => Cnorm2 (nth j d C0)) <= INR n * R0).
    { rewrite <- rsum_const. apply rsum_le. intros i Hi. rewrite (real_norm d i Rd). apply HB, Hi. }
    assert (B2 : rsum n (fun j => Cnorm2 (nth j gd C0)) <= INR n * R0 ^ 3).
    { rewrite <- rsum_const. apply rsum_le. intros i Hi. unfold gd. rewrite (nth_map_seq (fun j => RtoC (Re (nth j d C0) ^ 3)) C0 n i Hi).
      unfold Cnorm2, RtoC. cbn [Re Im fst snd]. replace (Re (nth i d C0) ^ 3 * Re (nth i d C0) ^ 3 + 0 * 0) with ((Re (nth i d C0) ^ 2) ^ 3) by ring.
      apply pow_incr. split; [apply pow2_ge_0|apply HB, Hi]. }
    assert (T := rsum_term n (fun j => Cnorm2 (nth j d' C0)) j (fun i _ => norm_nonneg _) Hj). cbv beta in T. rewrite (real_norm d' j Rd') in T.
    assert (0 <= Mx ^ 2) by apply pow2_ge_0.
    assert (Mx ^ 2 * rsum n (fun j => Cnorm2 (nth j gd C0)) <= Mx ^ 2 * (INR n * R0 ^ 3)) by (apply Rmult_le_compat_l; assumption). lra.
  Qed.
End Well.

(** The curvature of c^4/4. *)
Lemma quartic B : 0 <= B -> descends 1 (fun u => u 0%nat ^ 4 / 4) (fun _ u => u 0%nat ^ 3) (3 * B) (fun u => u 0%nat ^ 2 <= B).
Proof.
  intros HB u v Hu Hv. cbn [rsum]. set (a := u 0%nat) in *. set (b := v 0%nat) in *. cbv beta in Hu, Hv.
  assert (H : b ^ 4 / 4 - a ^ 4 / 4 - a ^ 3 * (b - a) = (b - a) ^ 2 * (b ^ 2 + 2 * a * b + 3 * a ^ 2) / 4) by field.
  assert (H2 : b ^ 2 + 2 * a * b + 3 * a ^ 2 <= 6 * B) by (assert (0 <= (a - b) ^ 2) by apply pow2_ge_0; nra).
  assert (H3 : 0 <= (b - a) ^ 2) by apply pow2_ge_0.
  assert ((b - a) ^ 2 * (b ^ 2 + 2 * a * b + 3 * a ^ 2) <= (b - a) ^ 2 * (6 * B)) by (apply Rmult_le_compat_l; assumption). lra.
Qed.
