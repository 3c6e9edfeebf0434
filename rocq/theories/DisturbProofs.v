(** Lemmas for C111: schemes with disturbances. *)
From Verif Require Import ListAux Vec LimitSpec ConvergeSpec SplitSpec LimitProofs.
From Coq Require Import Reals Lia Lra.
From Verif Require Import Complex.
Open Scope R_scope.

Lemma rsum_nonneg (dl : nat -> R) : (forall j, 0 <= dl j) -> forall m, 0 <= Vec.rsum m dl.
Proof. intros H. induction m as [|m IH]; cbn [Vec.rsum]; [lra|]. pose proof (H m). lra. Qed.
Lemma rsum_mono (dl : nat -> R) : (forall j, 0 <= dl j) -> forall m N, (m <= N)%nat -> Vec.rsum m dl <= Vec.rsum N dl.
Proof. intros H m N HmN. induction HmN as [|N HmN IH]; [lra|]. cbn [Vec.rsum]. pose proof (H N). lra. Qed.

Lemma many_disturbed nf n (Y : R -> grid) T Co (sm : R -> Prop) (step : R -> R -> grid -> grid -> Prop) B :
  0 <= Co -> (forall t, 0 <= t <= T -> within nf n B (Y t)) ->
  (forall h t x x' E, sm h -> 0 <= t -> t + h <= T -> 0 <= E <= / 4 -> step h t x x' -> near nf n E x (Y t) -> near nf n ((1 + Co * h) * E + Co * h * h) x' (Y (t + h))) ->
  (forall h E, sm h -> 0 <= E -> (1 + Co * h) * E + Co * h * h <= 2 * E + h) ->
  forall h N (x y : nat -> grid) dl, sm h -> 0 < h <= / 2 -> (forall m, 0 <= dl m) -> exp (Co * T) * (h + Vec.rsum (S N) dl) <= / 4 -> INR N * h <= T ->
  near nf n (dl 0%nat) (x 0%nat) (Y 0) ->
  (forall m, (m < N)%nat -> step h (INR m * h) (x m) (y m) /\ (within nf n (B + 1) (y m) -> near nf n (dl (S m)) (x (S m)) (y m))) ->
  forall m, (m <= N)%nat -> near nf n (exp (Co * T) * (h + Vec.rsum (S m) dl)) (x m) (Y (INR m * h)).
Proof.
  intros HC HB One Crude h N x y dl Sm Hh Hdl HD HN H0 HS.
  set (E := fun m => (1 + Co * h) ^ m * (h + Vec.rsum (S m) dl) - h).
  assert (G1 : forall m, 1 <= (1 + Co * h) ^ m) by (intros m; apply pow_R1_Rle; nra).
  assert (P : forall m, (m <= N)%nat -> 0 <= E m <= exp (Co * T) * (h + Vec.rsum (S m) dl)).
  { intros m Hm. assert (HmN : INR m * h <= T). { apply Rle_trans with (2 := HN). apply Rmult_le_compat_r; [lra|]. apply le_INR. exact Hm. }
    assert (G2 := growth Co h m HC ltac:(lra)). assert (G3 : exp (Co * (INR m * h)) <= exp (Co * T)).
    { destruct (Rle_lt_or_eq_dec _ _ (Rmult_le_compat_l Co _ _ HC HmN)) as [Q| ->]; [left; apply exp_increasing, Q|lra]. }
    assert (S0 := rsum_nonneg dl Hdl (S m)). specialize (G1 m). unfold E. split; [nra|].
    assert ((1 + Co * h) ^ m * (h + Vec.rsum (S m) dl) <= exp (Co * T) * (h + Vec.rsum (S m) dl)) by (apply Rmult_le_compat_r; lra). lra. }
  assert (Q4 : forall m, (m <= N)%nat -> E m <= / 4).
  { intros m Hm. apply Rle_trans with (1 := proj2 (P m Hm)). apply Rle_trans with (2 := HD). apply Rmult_le_compat_l; [left; apply exp_pos|].
    pose proof (rsum_mono dl Hdl (S m) (S N) ltac:(lia)). lra. }
  assert (Q : forall m, (m <= N)%nat -> near nf n (E m) (x m) (Y (INR m * h))).
  { induction m as [|m IH]; intros Hm.
    - cbn [INR]. rewrite Rmult_0_l. replace (E 0%nat) with (dl 0%nat) by (unfold E; cbn [pow Vec.rsum]; ring). exact H0.
    - assert (Hm' : (m <= N)%nat) by lia. assert (Em := P m Hm'). assert (E4 := Q4 m Hm'). destruct (HS m ltac:(lia)) as (HSt & Hd).
      assert (Hmh : 0 <= INR m * h) by (apply Rmult_le_pos; [apply pos_INR|lra]).
      assert (Hm1 : INR m * h + h <= T). { apply Rle_trans with (2 := HN). replace (INR m * h + h) with (INR (S m) * h) by (rewrite S_INR; ring). apply Rmult_le_compat_r; [lra|]. apply le_INR. exact Hm. }
      assert (Ny := One h (INR m * h) (x m) (y m) (E m) Sm Hmh Hm1 ltac:(lra) HSt (IH Hm')). assert (Cr := Crude h (E m) Sm (proj1 Em)).
      rewrite S_INR. replace ((INR m + 1) * h) with (INR m * h + h) by ring.
      assert (Wy : within nf n (B + 1) (y m)).
      { intros i k Hi Hk. pose proof (size_of_sub (y m i k) (Y (INR m * h + h) i k)). pose proof (Ny i k Hi Hk). pose proof (HB (INR m * h + h) ltac:(lra) i k Hi Hk). lra. }
      intros i k Hi Hk. pose proof (Hd Wy i k Hi Hk) as D1. pose proof (Ny i k Hi Hk) as D2. pose proof (size_tri (x (S m) i k) (y m i k) (Y (INR m * h + h) i k)) as D3.
      assert (X : E (S m) = (1 + Co * h) * E m + Co * h * h + (1 + Co * h) ^ S m * dl (S m)).
      { unfold E. change (Vec.rsum (S (S m)) dl) with (Vec.rsum (S m) dl + dl (S m)). cbn [pow]. ring. }
      specialize (G1 (S m)). pose proof (Hdl (S m)). rewrite X. nra. }
  intros m Hm i k Hi Hk. apply Rle_trans with (1 := Q m Hm i k Hi Hk). apply P, Hm.
Qed.

Section Scheme.
  Variables (nf n : nat).
  Variable A : nat -> nat -> C.
  Variable F : nat -> nat -> R -> grid -> grid -> C.
  Variable Y : R -> grid.
  Variable T : R.
  Hypothesis HT : 0 <= T.
  Hypothesis HF : forall r, exists K, 0 <= K /\ forall t t' x y s u e, 0 <= t <= T -> 0 <= t' <= T -> within nf n r x -> within nf n r y -> within nf n r s -> within nf n r u ->
    near nf n e x y -> near nf n e s u -> Rabs (t - t') <= e -> forall i k, (i < nf)%nat -> (k < n)%nat -> size (Csub (F i k t x s) (F i k t' y u)) <= K * e.
  Hypothesis HY : forall i k t, (i < nf)%nat -> (k < n)%nat -> 0 <= t <= T -> changes (fun s => Y s i k) t (G A F Y i k t).

  Theorem scheme_disturbed : exists D B h0, 0 < D /\ 0 <= B /\ 0 < h0 /\ (forall h i k, 0 < h <= h0 -> (i < nf)%nat -> (k < n)%nat -> Csub C1 (Cmul (RtoC h) (A i k)) <> C0) /\
    forall step, step = scheme nf n A F \/ step = rk_scheme nf n A F ->
    forall h N x y dl, 0 < h <= h0 -> INR N * h <= T -> (forall m, 0 <= dl m) -> D * Vec.rsum (S N) dl <= / 8 -> near nf n (dl 0%nat) (x 0%nat) (Y 0) ->
    (forall m, (m < N)%nat -> step h (INR m * h) (x m) (y m) /\ (within nf n B (y m) -> near nf n (dl (S m)) (x (S m)) (y m))) ->
    forall m, (m <= N)%nat -> near nf n (D * (h + Vec.rsum (S m) dl)) (x m) (Y (INR m * h)).
  Proof.
    destruct (solution_bounded nf n A F Y T HT HY) as (B & HB & HYB). destruct (HF (B + 1)) as (K & HK & HKF).
    destruct (bound_over2 nf n (fun i k b => size (A i k) <= b)) as (a & Ha & HaA); [intros; lra|intros i k _ _; exists (size (A i k)); lra|].
    destruct (bound_over2 nf n (fun i k b => size (F i k 0 (Y 0) (Y 0)) <= b)) as (f & Hf & HfF); [intros; lra|intros i k _ _; exists (size (F i k 0 (Y 0) (Y 0))); lra|].
    set (M := f + K * (2 * B + T) + a * B).
    assert (HM : 0 <= M). { assert (0 <= K * (2 * B + T)) by (apply Rmult_le_pos; lra). assert (0 <= a * B) by (apply Rmult_le_pos; lra). unfold M. lra. }
    assert (HGM : forall i k t, (i < nf)%nat -> (k < n)%nat -> 0 <= t <= T -> size (G A F Y i k t) <= M).
    { intros i k t Hi Hk Ht. unfold G. eapply Rle_trans; [apply size_add|]. unfold M. apply Rplus_le_compat.
      - eapply Rle_trans; [apply (size_of_sub _ (F i k 0 (Y 0) (Y 0)))|]. apply Rplus_le_compat; [exact (HfF i k Hi Hk)|].
        assert (Nr : near nf n (2 * B + T) (Y t) (Y 0)).
        { intros j q Hj Hq. eapply Rle_trans; [apply size_sub|]. pose proof (HYB t Ht j q Hj Hq). pose proof (HYB 0 ltac:(lra) j q Hj Hq). lra. }
        assert (Wt : forall s, 0 <= s <= T -> within nf n (B + 1) (Y s)) by (intros s Hs j q Hj Hq; pose proof (HYB s Hs j q Hj Hq); lra).
        apply (HKF t 0 (Y t) (Y 0) (Y t) (Y 0)); try assumption; try lra; try (apply Wt; lra). rewrite Rminus_0_r, Rabs_right by lra. lra.
      - eapply Rle_trans; [apply size_mul|]. apply Rmult_le_compat; [apply size_pos|apply size_pos|exact (HaA i k Hi Hk)|exact (HYB t Ht i k Hi Hk)]. }
    set (c := 1 + 2 * M). set (Co := 2 * a + 4 * K + 2 * (K * c + a * (2 * M) + 2 * (K * (2 * M + 1) + a * (2 * M)))).
    assert (HC : 0 <= Co) by (exact (Co_nonneg K a M HK Ha HM)).
    set (D := exp (Co * T)). assert (HD : 0 < D) by apply exp_pos.
    assert (Hc : 0 < c) by (unfold c; lra). assert (HKc : 0 <= K * c) by (apply Rmult_le_pos; lra).
    set (S := 2 + 8 * a + 4 * K + 2 * (K * c) + 2 * c + Co + 8 * D). assert (HS : 0 < S) by (unfold S; lra).
    assert (Small : forall h, 0 < h <= / S -> small K a M h /\ D * h <= / 8 /\ h <= / 2).
    { intros h Hh. assert (Q : S * h <= 1). { apply Rle_trans with (S * / S); [apply Rmult_le_compat_l; lra|right; field; lra]. } unfold S in Q.
      assert (0 <= a * h) by nra. assert (0 <= Co * h) by nra. assert (0 <= D * h) by nra. assert (0 <= K * h) by nra. assert (0 <= K * c * h) by nra. assert (0 <= c * h) by nra.
      split; [|split; lra]. unfold small. fold c. fold Co. repeat split; lra. }
    exists D, (B + 1), (/ S). split; [exact HD|]. split; [lra|]. split; [apply Rinv_0_lt_compat, HS|]. split.
    - intros h i k Hh Hi Hk E. destruct (Small h Hh) as ((_ & _ & Q & _) & _). pose proof (HaA i k Hi Hk).
      assert (E1 : C1 = Cmul (RtoC h) (A i k)). { transitivity (Cadd (Csub C1 (Cmul (RtoC h) (A i k))) (Cmul (RtoC h) (A i k))); [csolve|rewrite E; csolve]. }
      assert (Z : size C1 = 1) by (unfold size; cbn; rewrite Rabs_R1, Rabs_R0; ring). rewrite E1, size_real, Rabs_right in Z by lra.
      assert (h * size (A i k) <= h * a) by (apply Rmult_le_compat_l; lra). lra.
    - intros step Hst h N x y dl Hh HN Hdl Hsum H0 Hs. destruct (Small h Hh) as (S1 & S2 & S3).
      refine (many_disturbed nf n Y T Co (small K a M) step B HC HYB _ _ h N x y dl S1 ltac:(lra) Hdl _ HN H0 Hs).
      + destruct Hst as [-> | ->]; [exact (euler_one nf n A F Y T HY B K a M HYB HK HKF Ha HaA HM HGM)|exact (rk_one nf n A F Y T HY B K a M HYB HK HKF Ha HaA HM HGM)].
      + exact (crude K a M HK Ha HM).
      + fold D. lra.
  Qed.
End Scheme.
