(** Lemmas for C109: convergence of the scheme of ImplicitEuler for equations
    whose explicit part is Lipschitz on bounded sets (analysis only, no model). *)
From Coq Require Import Reals Lra Lia List.
From Verif Require Import ConvergeSpec LimitProofs SddModel SddProofs.
From Verif Require Import Complex.
Open Scope R_scope.

(** ** The exponential and the integral of the explicit part *)
Lemma size_one : size C1 = 1.
Proof. unfold size. cbn. rewrite Rabs_R1, Rabs_R0. ring. Qed.
Lemma exp_size a h : 0 <= h <= 1 -> size (Cexp (Cmul a (RtoC h))) <= 2 * exp (Rabs (Re a)).
Proof.
  intros Hh. set (x := Re a * h). set (y := Im a * h). assert (Hx : x = fst a * h) by reflexivity.
  assert (E : Cexp (Cmul a (RtoC h)) = (exp x * cos y, exp x * sin y)).
  { unfold Cexp. replace (Re (Cmul a (RtoC h))) with x by (unfold x; cbn; ring). replace (Im (Cmul a (RtoC h))) with y by (unfold y; cbn; ring). reflexivity. }
  rewrite E. unfold size, Re, Im. cbn [fst snd]. rewrite !Rabs_mult.
  assert (Q : Rabs (exp x) <= exp (Rabs (fst a))).
  { rewrite Rabs_right by (left; apply exp_pos). assert (H : x <= Rabs (fst a)).
    { rewrite Hx. pose proof (Rle_abs (fst a)). pose proof (Rabs_pos (fst a)). destruct (Rle_dec 0 (fst a)); nra. }
    destruct (Rle_lt_or_eq_dec _ _ H) as [H1| ->]; [left; apply exp_increasing, H1|lra]. }
  assert (C : Rabs (cos y) <= 1) by (apply Rabs_le; apply COS_bound). assert (S : Rabs (sin y) <= 1) by (apply Rabs_le; apply SIN_bound).
  pose proof (Rabs_pos (exp x)). pose proof (Rabs_pos (cos y)). pose proof (Rabs_pos (sin y)).
  assert (Rabs (exp x) * Rabs (cos y) <= exp (Rabs (fst a)) * 1) by (apply Rmult_le_compat; lra).
  assert (Rabs (exp x) * Rabs (sin y) <= exp (Rabs (fst a)) * 1) by (apply Rmult_le_compat; lra). unfold Re in *. lra.
Qed.
Lemma exp_near a : exists b, 0 <= b /\ forall h, 0 <= h <= 1 ->
  size (Csub (Cexp (Cmul a (RtoC h))) C1) <= b * h /\ size (Csub (Csub (Cexp (Cmul a (RtoC h))) (Cmul a (RtoC h))) C1) <= b * h * h.
Proof.
  set (M := size a * (2 * exp (Rabs (Re a)))). assert (Ps := size_pos a). assert (Pe := exp_pos (Rabs (Re a))).
  assert (HM : 0 <= M) by (apply Rmult_le_pos; lra).
  assert (E0 : Cexp (Cmul a (RtoC 0)) = C1).
  { unfold Cexp, Cmul, RtoC, Re, Im. cbn [fst snd]. rewrite !Rmult_0_r, Rminus_0_r, Rplus_0_r, exp_0, cos_0, sin_0. unfold C1, RtoC. f_equal; ring. }
  assert (D : forall s, changes (fun s => Cexp (Cmul a (RtoC s))) s (Cmul a (Cexp (Cmul a (RtoC s))))).
  { intros s. destruct (Cderiv_exp a s) as [D1 D2]. split; [exact D1|exact D2]. }
  assert (First : forall h, 0 <= h <= 1 -> size (Csub (Cexp (Cmul a (RtoC h))) C1) <= 2 * M * h).
  { intros h Hh. pose proof (mean_value (fun s => Cexp (Cmul a (RtoC s))) (fun s => Cmul a (Cexp (Cmul a (RtoC s)))) 0 h M C0 ltac:(lra) (fun c _ => D c)) as Q. cbv beta in Q.
    rewrite Rminus_0_r, E0 in Q. replace (Csub (Csub (Cexp (Cmul a (RtoC h))) C1) (Cmul (RtoC h) C0)) with (Csub (Cexp (Cmul a (RtoC h))) C1) in Q by csolve. apply Q.
    intros c Hc. replace (Csub (Cmul a (Cexp (Cmul a (RtoC c)))) C0) with (Cmul a (Cexp (Cmul a (RtoC c)))) by csolve.
    eapply Rle_trans; [apply size_mul|]. apply Rmult_le_compat_l; [exact Ps|]. apply exp_size. lra. }
  assert (PaM : 0 <= size a * M) by (apply Rmult_le_pos; assumption).
  exists (2 * M + 4 * (size a * M)). split; [lra|]. intros h Hh. split.
  - eapply Rle_trans; [apply First, Hh|]. apply Rmult_le_compat_r; lra.
  - pose proof (mean_value (fun s => Cexp (Cmul a (RtoC s))) (fun s => Cmul a (Cexp (Cmul a (RtoC s)))) 0 h (size a * (2 * M * h)) a ltac:(lra) (fun c _ => D c)) as Q. cbv beta in Q.
    rewrite Rminus_0_r, E0 in Q. replace (Csub (Csub (Cexp (Cmul a (RtoC h))) C1) (Cmul (RtoC h) a)) with (Csub (Csub (Cexp (Cmul a (RtoC h))) (Cmul a (RtoC h))) C1) in Q by csolve.
    apply Rle_trans with (2 * (size a * (2 * M * h)) * h).
    + apply Q. intros c Hc. replace (Csub (Cmul a (Cexp (Cmul a (RtoC c)))) a) with (Cmul a (Csub (Cexp (Cmul a (RtoC c))) C1)) by csolve.
      eapply Rle_trans; [apply size_mul|]. apply Rmult_le_compat_l; [exact Ps|]. eapply Rle_trans; [apply First; lra|]. apply Rmult_le_compat_l; lra.
    + replace (2 * (size a * (2 * M * h)) * h) with (4 * (size a * M) * (h * h)) by ring. rewrite (Rmult_assoc _ h h). apply Rmult_le_compat_r; [nra|lra].
Qed.

(** What the integral of the explicit part is for small steps. *)
Lemma integral_near a : exists b, 0 <= b /\ forall h r r1 r0, 0 < h <= 1 ->
  size (Csub (nonlinear_integral h a r r0) (nonlinear_integral h a r1 r0)) <= b * h * size (Csub r r1)
  /\ size (Csub (nonlinear_integral h a r0 r0) (Cmul (RtoC h) r0)) <= b * h * h * size r0.
Proof.
  destruct (exp_near a) as (b & Hb & HE). unfold nonlinear_integral. destruct (Rlt_dec (Cabs a) (/ 10 ^ 5)) as [Ha|Ha].
  - exists (1 + b). split; [lra|]. intros h r r1 r0 Hh. destruct (HE h ltac:(lra)) as [E1 _]. set (f := Cexp (Cmul a (RtoC h))) in *. split.
    + replace (Csub _ _) with (Cmul (RtoC (/ 2 * h)) (Csub r r1)) by csolve. rewrite size_real, Rabs_right by lra.
      apply Rmult_le_compat_r; [apply size_pos|]. nra.
    + replace (Csub _ _) with (Cmul (RtoC (/ 2 * h)) (Cmul r0 (Csub f C1))) by (csolve; field). rewrite size_real, Rabs_right by lra.
      pose proof (size_pos r0). assert (Q : size (Cmul r0 (Csub f C1)) <= size r0 * (b * h)).
      { eapply Rle_trans; [apply size_mul|]. apply Rmult_le_compat_l; assumption. }
      apply Rle_trans with (/ 2 * h * (size r0 * (b * h))); [apply Rmult_le_compat_l; lra|].
      replace ((1 + b) * h * h * size r0) with (/ 2 * h * (size r0 * (b * h)) + (1 + / 2 * b) * (h * h * size r0)) by field.
      assert (0 <= h * h * size r0) by (apply Rmult_le_pos; nra). nra.
  - assert (Na : a <> C0).
    { intros ->. apply Ha. unfold Cabs. replace (Cnorm2 C0) with 0 by (unfold Cnorm2; cbn; ring). rewrite sqrt_0. apply Rinv_0_lt_compat. apply pow_lt. lra. }
    set (ia := Cdiv C1 a). assert (Pia := size_pos ia).
    exists (size ia * size ia * b + size ia * b). assert (P1 : 0 <= size ia * size ia * b) by (apply Rmult_le_pos; [apply Rmult_le_pos|]; assumption).
    assert (P2 : 0 <= size ia * b) by (apply Rmult_le_pos; assumption). split; [lra|].
    intros h r r1 r0 Hh. destruct (HE h ltac:(lra)) as [_ E2]. set (f := Cexp (Cmul a (RtoC h))) in *.
    assert (Nh : RtoC h <> C0) by (intros E; apply (f_equal Re) in E; cbn in E; lra). set (g := Csub (Csub f (Cmul a (RtoC h))) C1) in *. split.
    + replace (Csub _ _) with (Cmul (RtoC (/ h)) (Cmul (Csub r r1) (Cmul (Cmul ia ia) g))).
      2:{ assert (E : Cmul (RtoC h) (RtoC (/ h)) = C1) by (rewrite <- RtoC_mul, Rinv_r by lra; reflexivity).
          unfold ia. replace (RtoC (/ h)) with (Cdiv C1 (RtoC h)) by (transitivity (Cdiv (Cmul (RtoC h) (RtoC (/ h))) (RtoC h)); [rewrite E; reflexivity|field; exact Nh]).
          field. split; assumption. }
      rewrite size_real, Rabs_right by (left; apply Rinv_0_lt_compat; lra).
      assert (Q : size (Cmul (Csub r r1) (Cmul (Cmul ia ia) g)) <= size (Csub r r1) * (size ia * size ia * (b * h * h))).
      { eapply Rle_trans; [apply size_mul|]. apply Rmult_le_compat_l; [apply size_pos|]. eapply Rle_trans; [apply size_mul|].
        apply Rmult_le_compat; [apply size_pos|apply size_pos|apply size_mul|exact E2]. }
      apply Rle_trans with (/ h * (size (Csub r r1) * (size ia * size ia * (b * h * h)))); [apply Rmult_le_compat_l; [left; apply Rinv_0_lt_compat; lra|exact Q]|].
      replace (/ h * (size (Csub r r1) * (size ia * size ia * (b * h * h)))) with (size ia * size ia * b * h * size (Csub r r1)) by (field; lra).
      apply Rmult_le_compat_r; [apply size_pos|]. apply Rmult_le_compat_r; lra.
    + replace (Csub _ _) with (Cmul r0 (Cmul ia g)) by (unfold ia, g; field; split; assumption).
      assert (Q : size (Cmul r0 (Cmul ia g)) <= size r0 * (size ia * (b * h * h))).
      { eapply Rle_trans; [apply size_mul|]. apply Rmult_le_compat_l; [apply size_pos|]. eapply Rle_trans; [apply size_mul|]. apply Rmult_le_compat_l; assumption. }
      eapply Rle_trans; [exact Q|]. replace (size r0 * (size ia * (b * h * h))) with (size ia * b * (h * h * size r0)) by ring.
      rewrite !Rmult_assoc. replace (h * (h * size r0)) with (h * h * size r0) by ring. assert (0 <= h * h * size r0) by (apply Rmult_le_pos; [nra|apply size_pos]). nra.
Qed.

Lemma ie_bounds a : exists b, 0 <= b /\ forall h o r r1 r0, 0 < h <= 1 ->
  size (Csub (ie_update h o a r r0) (ie_update h o a r1 r0)) <= b * h * size (Csub r r1)
  /\ size (Csub (ie_update h o a r0 r0) (Cadd o (Cmul (RtoC h) (Cadd r0 (Cmul a o))))) <= b * h * h * (size o + size r0)
  /\ size (Csub (ie_update h o a r0 r0) o) <= b * h * (size o + size r0).
Proof.
  destruct (exp_near a) as (b1 & Hb1 & HE). destruct (integral_near a) as (b2 & Hb2 & HI). exists (1 + b1 + b2). split; [lra|].
  intros h o r r1 r0 Hh. destruct (HE h ltac:(lra)) as [E1 E2]. destruct (HI h r r1 r0 Hh) as [I1 I2]. unfold ie_update. set (f := Cexp (Cmul a (RtoC h))) in *.
  set (N0 := nonlinear_integral h a r0 r0) in *. pose proof (size_pos o) as Po. pose proof (size_pos r0) as Pr.
  assert (Q1 : 0 <= h * size o) by (apply Rmult_le_pos; lra). assert (Q2 : 0 <= h * size r0) by (apply Rmult_le_pos; lra).
  assert (Q3 : h * (h * size o) <= 1 * (h * size o)) by (apply Rmult_le_compat_r; lra). assert (Q4 : h * (h * size r0) <= 1 * (h * size r0)) by (apply Rmult_le_compat_r; lra).
  assert (Q5 : 0 <= h * (h * size o)) by (apply Rmult_le_pos; lra). assert (Q6 : 0 <= h * (h * size r0)) by (apply Rmult_le_pos; lra).
  split; [|split].
  - replace (Csub _ _) with (Csub (nonlinear_integral h a r r0) (nonlinear_integral h a r1 r0)) by csolve. eapply Rle_trans; [exact I1|].
    apply Rmult_le_compat_r; [apply size_pos|]. apply Rmult_le_compat_r; lra.
  - replace (Csub _ _) with (Cadd (Cmul o (Csub (Csub f (Cmul a (RtoC h))) C1)) (Csub N0 (Cmul (RtoC h) r0))) by csolve.
    eapply Rle_trans; [apply size_add|].
    assert (size (Cmul o (Csub (Csub f (Cmul a (RtoC h))) C1)) <= size o * (b1 * h * h)) by (eapply Rle_trans; [apply size_mul|]; apply Rmult_le_compat_l; assumption).
    replace ((1 + b1 + b2) * h * h * (size o + size r0)) with (size o * (b1 * h * h) + b2 * h * h * size r0 + (1 + b2) * (h * (h * size o)) + (1 + b1) * (h * (h * size r0))) by ring.
    assert (0 <= (1 + b2) * (h * (h * size o))) by (apply Rmult_le_pos; lra). assert (0 <= (1 + b1) * (h * (h * size r0))) by (apply Rmult_le_pos; lra). lra.
  - replace (Csub _ _) with (Cadd (Cmul o (Csub f C1)) (Cadd (Csub N0 (Cmul (RtoC h) r0)) (Cmul (RtoC h) r0))) by csolve.
    eapply Rle_trans; [apply size_add|]. pose proof (size_add (Csub N0 (Cmul (RtoC h) r0)) (Cmul (RtoC h) r0)) as S1. rewrite size_real, Rabs_right in S1 by lra.
    assert (size (Cmul o (Csub f C1)) <= size o * (b1 * h)) by (eapply Rle_trans; [apply size_mul|]; apply Rmult_le_compat_l; assumption).
    assert (b2 * h * h * size r0 <= b2 * (h * size r0)). { replace (b2 * h * h * size r0) with (b2 * (h * (h * size r0))) by ring. apply Rmult_le_compat_l; lra. }
    replace ((1 + b1 + b2) * h * (size o + size r0)) with (size o * (b1 * h) + b2 * (h * size r0) + h * size r0 + b1 * (h * size r0) + (1 + b2) * (h * size o)) by ring.
    assert (0 <= b1 * (h * size r0)) by (apply Rmult_le_pos; lra). assert (0 <= (1 + b2) * (h * size o)) by (apply Rmult_le_pos; lra). lra.
Qed.

(** Errors that grow by the factor 1 + C h and the amount C h h in each step. *)
Lemma grown C T h N m : 0 <= C -> 0 < h -> INR N * h <= T -> (m <= N)%nat -> 0 <= h * ((1 + C * h) ^ m - 1) <= exp (C * T) * h.
Proof.
  intros HCn Hh HN Hm. assert (HmN : INR m * h <= T). { apply Rle_trans with (2 := HN). apply Rmult_le_compat_r; [lra|]. apply le_INR. exact Hm. }
  assert (G1 : 1 <= (1 + C * h) ^ m) by (apply pow_R1_Rle; nra).
  assert (G2 := growth C h m HCn ltac:(lra)). assert (G3 : exp (C * (INR m * h)) <= exp (C * T)).
  { destruct (Rle_lt_or_eq_dec _ _ (Rmult_le_compat_l C _ _ HCn HmN)) as [Q| ->]; [left; apply exp_increasing, Q|lra]. }
  split; nra.
Qed.

Section Scheme.
  Variables (nf n : nat).
  Variable A : nat -> nat -> C.
  Variable F : nat -> nat -> R -> grid -> grid -> C.
  Variable Y : R -> grid.
  Variable T : R.
  Hypothesis HT : 0 <= T.
  Hypothesis HF : forall r, exists K, 0 <= K /\ forall t t' x y s u e, 0 <= t <= T -> 0 <= t' <= T -> within nf n r x -> within nf n r y -> within nf n r s -> within nf n r u ->
    near nf n e x y -> near nf n e s u -> Rabs (t - t') <= e -> forall i k, (i < nf)%nat -> (k < n)%nat -> size (Csub (F i k t x s) (F i k t' y u)) <= K * e.
  Hypothesis HY : forall i k t, (i < nf)%nat -> (k < n)%nat -> 0 <= t <= T -> changes (fun s => Y s i k) t (G A F Y i k t).

  (** What the new value is compared to. *)
  Definition target (h t : R) (x v : grid) : grid := fun i k => ie_update h (x i k) (A i k) (F i k t v v) (F i k t x x).

  Lemma target_bounds rho : 0 <= rho -> exists Cx, 0 <= Cx /\ forall h t x E, 0 < h <= 1 -> 0 <= t <= T -> 0 <= E <= 1 -> near nf n E x (Y t) ->
    (forall v, near nf n rho v x -> near nf n (Cx * h) (target h t x v) x)
    /\ (forall v w e, 0 <= e -> near nf n rho v x -> near nf n rho w x -> near nf n e v w -> near nf n (Cx * h * e) (target h t x v) (target h t x w))
    /\ (forall v e, 0 <= e -> t + h <= T -> near nf n rho v x -> near nf n e v x -> near nf n ((1 + Cx * h) * E + Cx * h * e + Cx * h * h) (target h t x v) (Y (t + h))).
  Proof.
    intros Hrho. destruct (solution_bounded nf n A F Y T HT HY) as (B & HB & HYB). destruct (HF (B + 1 + rho)) as (K & HK & HKF).
    destruct (bound_over2 nf n (fun i k b => size (A i k) <= b)) as (a & Ha & HaA); [intros; lra|intros i k _ _; exists (size (A i k)); lra|].
    destruct (bound_over2 nf n (fun i k b => 0 <= b /\ forall h o r r1 r0, 0 < h <= 1 ->
        size (Csub (ie_update h o (A i k) r r0) (ie_update h o (A i k) r1 r0)) <= b * h * size (Csub r r1)
        /\ size (Csub (ie_update h o (A i k) r0 r0) (Cadd o (Cmul (RtoC h) (Cadd r0 (Cmul (A i k) o))))) <= b * h * h * (size o + size r0)
        /\ size (Csub (ie_update h o (A i k) r0 r0) o) <= b * h * (size o + size r0))) as (b & Hb & HbI).
    { intros i k b b' [Hb H] Hle. split; [lra|]. intros h o r r1 r0 Hh. destruct (H h o r r1 r0 Hh) as (H1 & H2 & H3).
      pose proof (size_pos o). pose proof (size_pos r0). pose proof (size_pos (Csub r r1)).
      assert (b * h <= b' * h) by (apply Rmult_le_compat_r; lra). assert (b * h * h <= b' * h * h) by (apply Rmult_le_compat_r; lra).
      split; [|split]; (eapply Rle_trans; [eassumption|]); apply Rmult_le_compat_r; lra. }
    { intros i k _ _. destruct (ie_bounds (A i k)) as (b & Hb & H). exists b. split; assumption. }
    destruct (bound_over2 nf n (fun i k b => size (F i k 0 (Y 0) (Y 0)) <= b)) as (f & Hf & HfF); [intros; lra|intros i k _ _; exists (size (F i k 0 (Y 0) (Y 0))); lra|].
    assert (HKF1 : forall t t' x y s u e, 0 <= t <= T -> 0 <= t' <= T -> within nf n (B + 1) x -> within nf n (B + 1) y -> within nf n (B + 1) s -> within nf n (B + 1) u ->
      near nf n e x y -> near nf n e s u -> Rabs (t - t') <= e -> forall i k, (i < nf)%nat -> (k < n)%nat -> size (Csub (F i k t x s) (F i k t' y u)) <= K * e).
    { intros t t' x y s u e Ht Ht' W1 W2 W3 W4. assert (Wm : forall x, within nf n (B + 1) x -> within nf n (B + 1 + rho) x) by (intros z Hz i k Hi Hk; pose proof (Hz i k Hi Hk); lra).
      apply HKF; try assumption; apply Wm; assumption. }
    set (f' := f + K * (2 * B + T)). assert (Pf : 0 <= f') by (assert (0 <= K * (2 * B + T)) by (apply Rmult_le_pos; lra); unfold f'; lra).
    assert (HFB : forall i k t, (i < nf)%nat -> (k < n)%nat -> 0 <= t <= T -> size (F i k t (Y t) (Y t)) <= f').
    { intros i k t Hi Hk Ht. eapply Rle_trans; [apply (size_of_sub _ (F i k 0 (Y 0) (Y 0)))|]. unfold f'. apply Rplus_le_compat; [exact (HfF i k Hi Hk)|].
      assert (Nr : near nf n (2 * B + T) (Y t) (Y 0)).
      { intros j q Hj Hq. eapply Rle_trans; [apply size_sub|]. pose proof (HYB t Ht j q Hj Hq). pose proof (HYB 0 ltac:(lra) j q Hj Hq). lra. }
      assert (Wt : forall s, 0 <= s <= T -> within nf n (B + 1) (Y s)) by (intros s Hs j q Hj Hq; pose proof (HYB s Hs j q Hj Hq); lra).
      apply (HKF1 t 0 (Y t) (Y 0) (Y t) (Y 0)); try assumption; try lra; try (apply Wt; lra). rewrite Rminus_0_r, Rabs_right by lra. lra. }
    set (M := f' + a * B). assert (PaB : 0 <= a * B) by (apply Rmult_le_pos; lra). assert (HM : 0 <= M) by (unfold M; lra).
    assert (HGM : forall i k t, (i < nf)%nat -> (k < n)%nat -> 0 <= t <= T -> size (G A F Y i k t) <= M).
    { intros i k t Hi Hk Ht. unfold G. eapply Rle_trans; [apply size_add|]. unfold M. apply Rplus_le_compat; [exact (HFB i k t Hi Hk Ht)|].
      eapply Rle_trans; [apply size_mul|]. apply Rmult_le_compat; [apply size_pos|apply size_pos|exact (HaA i k Hi Hk)|exact (HYB t Ht i k Hi Hk)]. }
    set (Lam := K * (2 * M + 1) + a * (2 * M)). assert (PL : 0 <= Lam) by (apply Rplus_le_le_0_compat; apply Rmult_le_pos; lra).
    set (Mr := f' + K). set (S := B + 1 + Mr). assert (PbS : 0 <= b * S) by (apply Rmult_le_pos; [lra|unfold S, Mr; lra]).
    assert (PbK : 0 <= b * K) by (apply Rmult_le_pos; lra). assert (PbKr : 0 <= b * K * rho) by (apply Rmult_le_pos; lra).
    exists (b * S + b * K + b * K * rho + a + K + 2 * Lam). split; [lra|].
    intros h t x E Hh Ht HE HN.
    assert (Wx : within nf n (B + 1) x).
    { intros j q Hj Hq. pose proof (size_of_sub (x j q) (Y t j q)). pose proof (HN j q Hj Hq). pose proof (HYB t Ht j q Hj Hq). lra. }
    assert (Wr : within nf n (B + 1 + rho) x) by (intros j q Hj Hq; pose proof (Wx j q Hj Hq); lra).
    assert (Wv : forall v, near nf n rho v x -> within nf n (B + 1 + rho) v).
    { intros v Hv j q Hj Hq. pose proof (size_of_sub (v j q) (x j q)). pose proof (Hv j q Hj Hq). pose proof (Wx j q Hj Hq). lra. }
    assert (Z0 : forall e, 0 <= e -> Rabs (t - t) <= e) by (intros e He; rewrite Rminus_diag_eq, Rabs_R0 by reflexivity; lra).
    assert (D0 : forall i k, (i < nf)%nat -> (k < n)%nat -> size (Csub (F i k t x x) (F i k t (Y t) (Y t))) <= K * E).
    { assert (WY : within nf n (B + 1) (Y t)) by (intros j q Hj Hq; pose proof (HYB t Ht j q Hj Hq); lra).
      apply (HKF1 t t x (Y t) x (Y t) E); try assumption. apply Z0. lra. }
    assert (R0 : forall i k, (i < nf)%nat -> (k < n)%nat -> size (F i k t x x) <= Mr).
    { intros i k Hi Hk. eapply Rle_trans; [apply (size_of_sub _ (F i k t (Y t) (Y t)))|]. unfold Mr. apply Rplus_le_compat; [exact (HFB i k t Hi Hk Ht)|].
      eapply Rle_trans; [apply D0; assumption|]. rewrite <- (Rmult_1_r K) at 2. apply Rmult_le_compat_l; lra. }
    assert (SS : forall i k, (i < nf)%nat -> (k < n)%nat -> size (x i k) + size (F i k t x x) <= S).
    { intros i k Hi Hk. pose proof (Wx i k Hi Hk). pose proof (R0 i k Hi Hk). unfold S. lra. }
    assert (Lip : forall v w e, 0 <= e -> near nf n rho v x -> near nf n rho w x -> near nf n e v w -> forall i k, (i < nf)%nat -> (k < n)%nat ->
      size (Csub (target h t x v i k) (target h t x w i k)) <= b * K * (h * e)).
    { intros v w e He Hv Hw Hvw i k Hi Hk. destruct (HbI i k Hi Hk) as [_ I]. destruct (I h (x i k) (F i k t v v) (F i k t w w) (F i k t x x) Hh) as (I1 & _ & _).
      eapply Rle_trans; [exact I1|]. replace (b * K * (h * e)) with (b * h * (K * e)) by ring. apply Rmult_le_compat_l; [apply Rmult_le_pos; lra|].
      apply (HKF t t v w v w e); try assumption; try (apply Wv; assumption). apply Z0, He. }
    assert (Self : near nf n 0 x x) by (intros i k _ _; replace (Csub (x i k) (x i k)) with C0 by csolve; rewrite size_0; lra).
    assert (Selfr : near nf n rho x x) by (intros i k Hi Hk; pose proof (Self i k Hi Hk); lra).
    split; [|split].
    - intros v Hv i k Hi Hk. pose proof (Lip v x rho Hrho Hv Selfr Hv i k Hi Hk) as L1. destruct (HbI i k Hi Hk) as [_ I].
      destruct (I h (x i k) (F i k t v v) (F i k t v v) (F i k t x x) Hh) as (_ & _ & I3). pose proof (SS i k Hi Hk) as SSi.
      pose proof (size_tri (target h t x v i k) (target h t x x i k) (x i k)) as Tri.
      assert (I3' : size (Csub (target h t x x i k) (x i k)) <= b * h * S) by (eapply Rle_trans; [exact I3|]; apply Rmult_le_compat_l; [apply Rmult_le_pos; lra|exact SSi]).
      replace ((b * S + b * K + b * K * rho + a + K + 2 * Lam) * h) with (b * K * (h * rho) + b * h * S + (b * K * h + a * h + K * h + 2 * (Lam * h))) by ring.
      assert (0 <= b * K * h) by (apply Rmult_le_pos; lra). assert (0 <= a * h) by (apply Rmult_le_pos; lra). assert (0 <= K * h) by (apply Rmult_le_pos; lra). assert (0 <= Lam * h) by (apply Rmult_le_pos; lra). lra.
    - intros v w e He Hv Hw Hvw i k Hi Hk. eapply Rle_trans; [exact (Lip v w e He Hv Hw Hvw i k Hi Hk)|]. rewrite (Rmult_assoc _ h e). apply Rmult_le_compat_r; [apply Rmult_le_pos; lra|lra].
    - intros v e He HTh Hv Hve i k Hi Hk. pose proof (Lip v x e He Hv Selfr Hve i k Hi Hk) as L1. destruct (HbI i k Hi Hk) as [_ I].
      destruct (I h (x i k) (F i k t v v) (F i k t v v) (F i k t x x) Hh) as (_ & I2 & _). pose proof (SS i k Hi Hk) as SSi.
      pose proof (taylor nf n A F Y T HY B K a M HYB HK HKF1 Ha HaA HM HGM t h i k Hi Hk (proj1 Ht) ltac:(lra) HTh) as Tay. fold Lam in Tay.
      set (tv := target h t x v i k) in *. set (tx := target h t x x i k) in *.
      assert (I2' : size (Csub tx (Cadd (x i k) (Cmul (RtoC h) (Cadd (F i k t x x) (Cmul (A i k) (x i k)))))) <= b * h * h * S).
      { eapply Rle_trans; [exact I2|]. apply Rmult_le_compat_l; [apply Rmult_le_pos; [apply Rmult_le_pos|]; lra|exact SSi]. }
      set (w1 := Csub tx (Cadd (x i k) (Cmul (RtoC h) (Cadd (F i k t x x) (Cmul (A i k) (x i k)))))) in *.
      set (w2 := Csub (Csub (Y (t + h) i k) (Y t i k)) (Cmul (RtoC h) (G A F Y i k t))) in *.
      pose proof (D0 i k Hi Hk) as D0i. pose proof (HN i k Hi Hk) as HNi. pose proof (HaA i k Hi Hk) as HAi.
      set (dx := Csub (x i k) (Y t i k)) in *. set (dF := Csub (F i k t x x) (F i k t (Y t) (Y t))) in *.
      replace (Csub tv (Y (t + h) i k)) with (Cadd (Cadd (Csub tv tx) w1) (Csub (Cadd dx (Cmul (RtoC h) (Cadd dF (Cmul (A i k) dx)))) w2)) by (unfold w1, w2, dx, dF, G; csolve).
      assert (S1 := size_add (Cadd (Csub tv tx) w1) (Csub (Cadd dx (Cmul (RtoC h) (Cadd dF (Cmul (A i k) dx)))) w2)).
      assert (S2 := size_add (Csub tv tx) w1). assert (S3 := size_sub (Cadd dx (Cmul (RtoC h) (Cadd dF (Cmul (A i k) dx)))) w2).
      assert (S4 := size_add dx (Cmul (RtoC h) (Cadd dF (Cmul (A i k) dx)))). rewrite size_real, Rabs_right in S4 by lra.
      assert (S5 : size (Cadd dF (Cmul (A i k) dx)) <= K * E + a * E).
      { eapply Rle_trans; [apply size_add|]. apply Rplus_le_compat; [exact D0i|]. eapply Rle_trans; [apply size_mul|]. apply Rmult_le_compat; (apply size_pos || assumption). }
      assert (S6 : h * size (Cadd dF (Cmul (A i k) dx)) <= h * (K * E + a * E)) by (apply Rmult_le_compat_l; lra).
      assert (0 <= h * E) by (apply Rmult_le_pos; lra). assert (0 <= h * e) by (apply Rmult_le_pos; lra). assert (0 <= h * h) by (apply Rmult_le_pos; lra).
      set (Rest := b * S + b * K + b * K * rho + 2 * Lam). assert (PR : 0 <= Rest) by (unfold Rest; lra).
      assert (0 <= Rest * (h * E)) by (apply Rmult_le_pos; lra). assert (0 <= (b * S + b * K * rho + a + K + 2 * Lam) * (h * e)) by (apply Rmult_le_pos; lra).
      assert (0 <= (b * K + b * K * rho + a + K) * (h * h)) by (apply Rmult_le_pos; lra).
      replace ((1 + (b * S + b * K + b * K * rho + a + K + 2 * Lam) * h) * E + (b * S + b * K + b * K * rho + a + K + 2 * Lam) * h * e + (b * S + b * K + b * K * rho + a + K + 2 * Lam) * h * h)
        with (b * K * (h * e) + b * h * h * S + (E + h * (K * E + a * E) + 2 * Lam * h * h) + (Rest * (h * E) + (b * S + b * K * rho + a + K + 2 * Lam) * (h * e) + (b * K + b * K * rho + a + K) * (h * h))) by (unfold Rest; ring).
      lra.
  Qed.
End Scheme.

(** ** Semi-implicit steps (Euler and RK4), one at a time *)
Theorem scheme_steps nf n A F Y T : 0 <= T ->
  (forall r, exists K, 0 <= K /\ forall t t' x y s u e, 0 <= t <= T -> 0 <= t' <= T -> within nf n r x -> within nf n r y -> within nf n r s -> within nf n r u ->
    near nf n e x y -> near nf n e s u -> Rabs (t - t') <= e -> forall i k, (i < nf)%nat -> (k < n)%nat -> size (Csub (F i k t x s) (F i k t' y u)) <= K * e) ->
  (forall i k t, (i < nf)%nat -> (k < n)%nat -> 0 <= t <= T -> changes (fun s => Y s i k) t (G A F Y i k t)) ->
  exists C h0, 0 <= C /\ 0 < h0 /\ (forall h i k, 0 < h <= h0 -> (i < nf)%nat -> (k < n)%nat -> Csub C1 (Cmul (RtoC h) (A i k)) <> C0) /\
    forall step, step = scheme nf n A F \/ step = rk_scheme nf n A F ->
    forall h t x x' E, 0 < h <= h0 -> 0 <= t -> t + h <= T -> 0 <= E <= / 4 -> step h t x x' -> near nf n E x (Y t) -> near nf n ((1 + C * h) * E + C * h * h) x' (Y (t + h)).
Proof.
  intros HT HF HY. destruct (solution_bounded nf n A F Y T HT HY) as (B & HB & HYB). destruct (HF (B + 1)) as (K & HK & HKF).
  destruct (bound_over2 nf n (fun i k b => size (A i k) <= b)) as (a & Ha & HaA); [intros; lra|intros i k _ _; exists (size (A i k)); lra|].
  destruct (bound_over2 nf n (fun i k b => size (F i k 0 (Y 0) (Y 0)) <= b)) as (f & Hf & HfF); [intros; lra|intros i k _ _; exists (size (F i k 0 (Y 0) (Y 0))); lra|].
  set (M := f + K * (2 * B + T) + a * B).
  assert (HM : 0 <= M). { assert (0 <= K * (2 * B + T)) by (apply Rmult_le_pos; lra). assert (0 <= a * B) by (apply Rmult_le_pos; lra). unfold M. lra. }
  assert (HGM : forall i k t, (i < nf)%nat -> (k < n)%nat -> 0 <= t <= T -> size (G A F Y i k t) <= M).
  { intros i k t Hi Hk Ht. unfold G. eapply Rle_trans; [apply size_add|]. unfold M. apply Rplus_le_compat.
    - eapply Rle_trans; [apply (size_of_sub _ (F i k 0 (Y 0) (Y 0)))|]. apply Rplus_le_compat; [exact (HfF i k Hi Hk)|].
      assert (Nr : near nf n (2 * B + T) (Y t) (Y 0)).
      { intros j q Hj Hq. eapply Rle_trans; [apply size_sub|]. pose proof (HYB t Ht j q Hj Hq). pose proof (HYB 0 ltac:(lra) j q Hj Hq). lra. }
      assert (Wt : forall s, 0 <= s <= T -> within nf n (B + 1) (Y s)) by (intros s Hs j q Hj Hq; pose proof (HYB s Hs j q Hj Hq); lra).
      apply (HKF t 0 (Y t) (Y 0) (Y t) (Y 0)); try assumption; try lra; try (apply Wt; lra). rewrite Rminus_0_r, Rabs_right by lra. lra.
    - eapply Rle_trans; [apply size_mul|]. apply Rmult_le_compat; [apply size_pos|apply size_pos|exact (HaA i k Hi Hk)|exact (HYB t Ht i k Hi Hk)]. }
  set (c := 1 + 2 * M). set (Co := 2 * a + 4 * K + 2 * (K * c + a * (2 * M) + 2 * (K * (2 * M + 1) + a * (2 * M)))).
  assert (HC : 0 <= Co) by (exact (Co_nonneg K a M HK Ha HM)).
  assert (Hc : 0 < c) by (unfold c; lra). assert (HKc : 0 <= K * c) by (apply Rmult_le_pos; lra).
  set (S := 2 + 8 * a + 4 * K + 2 * (K * c) + 2 * c + Co). assert (HS : 0 < S) by (unfold S; lra).
  assert (Small : forall h, 0 < h <= / S -> small K a M h).
  { intros h Hh. assert (Q : S * h <= 1). { apply Rle_trans with (S * / S); [apply Rmult_le_compat_l; lra|right; field; lra]. } unfold S in Q.
    assert (0 <= a * h) by nra. assert (0 <= Co * h) by nra. assert (0 <= K * h) by nra. assert (0 <= K * c * h) by nra. assert (0 <= c * h) by nra.
    unfold small. fold c. fold Co. repeat split; lra. }
  exists Co, (/ S). split; [exact HC|]. split; [apply Rinv_0_lt_compat, HS|]. split.
  - intros h i k Hh Hi Hk E. destruct (Small h Hh) as (_ & _ & Q & _). pose proof (HaA i k Hi Hk).
    assert (E1 : C1 = Cmul (RtoC h) (A i k)). { transitivity (Cadd (Csub C1 (Cmul (RtoC h) (A i k))) (Cmul (RtoC h) (A i k))); [csolve|rewrite E; csolve]. }
    pose proof size_one as Z. rewrite E1, size_real, Rabs_right in Z by lra. assert (h * size (A i k) <= h * a) by (apply Rmult_le_compat_l; lra). lra.
  - intros step Hst h t x x' E Hh. pose proof (Small h Hh) as S1. destruct Hst as [-> | ->].
    + exact (euler_one nf n A F Y T HY B K a M HYB HK HKF Ha HaA HM HGM h t x x' E S1).
    + exact (rk_one nf n A F Y T HY B K a M HYB HK HKF Ha HaA HM HGM h t x x' E S1).
Qed.

(** Fixed-point iteration. *)
Lemma iterates nf n A F Cx rho h t x (v : nat -> grid) : 0 <= rho -> 0 <= Cx * h -> Cx * h <= rho ->
  (forall v, near nf n rho v x -> near nf n (Cx * h) (target A F h t x v) x) ->
  (forall v w e, 0 <= e -> near nf n rho v x -> near nf n rho w x -> near nf n e v w -> near nf n (Cx * h * e) (target A F h t x v) (target A F h t x w)) ->
  (forall j i k, (i < nf)%nat -> (k < n)%nat -> v (S j) i k = target A F h t x (v j) i k) -> near nf n rho (v 0%nat) x ->
  forall j, near nf n rho (v j) x /\ near nf n ((Cx * h) ^ j * (2 * rho)) (v j) (target A F h t x (v j)).
Proof.
  intros Hrho Hc Hcr B1 B2 Hs H0. assert (HB : forall j, near nf n rho (v j) x).
  { intros [|j]; [exact H0|]. induction j as [|j IH]; intros i k Hi Hk; rewrite (Hs _ i k Hi Hk); (eapply Rle_trans; [apply B1; eassumption|exact Hcr]). }
  induction j as [|j [_ IH]].
  - split; [apply HB|]. intros i k Hi Hk. cbn [pow]. pose proof (H0 i k Hi Hk) as Q1. pose proof (B1 (v 0%nat) H0 i k Hi Hk) as Q2.
    pose proof (size_tri (v 0%nat i k) (x i k) (target A F h t x (v 0%nat) i k)) as Q. rewrite (size_sub_sym (x i k)) in Q. lra.
  - split; [apply HB|]. assert (N : near nf n ((Cx * h) ^ j * (2 * rho)) (v j) (v (S j))) by (intros i k Hi Hk; rewrite (Hs j i k Hi Hk); apply IH; assumption).
    intros i k Hi Hk. rewrite (Hs j i k Hi Hk). cbn [pow]. rewrite (Rmult_assoc (Cx * h)). apply B2; try assumption; [|apply HB|apply HB].
    apply Rmult_le_pos; [apply pow_le; exact Hc|lra].
Qed.
