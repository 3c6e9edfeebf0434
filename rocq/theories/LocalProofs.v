(** Existence of solutions for a short time: Euler polygons converge
    (analysis only, no model). *)
From Coq Require Import Reals Lra Lia List.
From Verif Require Import ConvergeSpec LimitProofs.
From Verif Require Import Complex.
Open Scope R_scope.

Ltac mpos := first [lra | apply Rmult_le_pos; mpos].

(** ** Integer parts *)
Definition whole (x : R) : nat := Z.to_nat (Int_part x).
Lemma whole_spec x : 0 <= x -> INR (whole x) <= x < INR (whole x) + 1.
Proof.
  intros Hx. destruct (base_Int_part x) as [H1 H2].
  assert (Hz : (0 <= Int_part x)%Z). { apply le_IZR. assert (-1 < IZR (Int_part x)) by lra. apply (lt_IZR (-1)) in H. apply IZR_le. lia. }
  unfold whole. rewrite INR_IZR_INZ, Z2Nat.id by exact Hz. lra.
Qed.
Lemma whole_of m x : INR m <= x < INR m + 1 -> whole x = m.
Proof.
  intros H. assert (0 <= x) by (pose proof (pos_INR m); lra). pose proof (whole_spec x H0).
  assert (INR (whole x) < INR (S m)) by (rewrite S_INR; lra). assert (INR m < INR (S (whole x))) by (rewrite S_INR; lra). apply INR_lt in H2, H3. lia.
Qed.
Lemma whole_mono x y : 0 <= x <= y -> (whole x <= whole y)%nat.
Proof.
  intros H. pose proof (whole_spec x ltac:(lra)). pose proof (whole_spec y ltac:(lra)). assert (INR (whole x) < INR (S (whole y))) by (rewrite S_INR; lra). apply INR_lt in H2. lia.
Qed.
Lemma whole_double x : 0 <= x -> whole (2 * x) = (2 * whole x)%nat \/ whole (2 * x) = S (2 * whole x).
Proof.
  intros Hx. pose proof (whole_spec x Hx) as H. destruct (Rlt_le_dec (2 * x) (2 * INR (whole x) + 1)) as [A|A].
  - left. apply whole_of. rewrite mult_INR. cbn [INR]. lra.
  - right. apply whole_of. rewrite S_INR, mult_INR. cbn [INR]. lra.
Qed.

(** ** Limits of sequences with halving differences *)
Lemma two_pos m : 0 < 2 ^ m. Proof. apply pow_lt. lra. Qed.
Lemma power_above m : INR m + 1 <= 2 ^ m.
Proof. induction m as [|m IH]; [cbn; lra|]. rewrite S_INR. cbn [pow]. pose proof (pos_INR m). lra. Qed.
Lemma above_real (r : R) : exists N, r < INR N.
Proof.
  exists (Z.to_nat (up r)). assert (H := archimed r). destruct (Z_lt_le_dec (up r) 0) as [Hz|Hz].
  - assert (E : Z.to_nat (up r) = 0%nat) by lia. rewrite E. cbn. apply IZR_lt in Hz. lra.
  - rewrite INR_IZR_INZ, Z2Nat.id by exact Hz. lra.
Qed.
Lemma small_power c eps : 0 <= c -> 0 < eps -> exists N, forall m, (N <= m)%nat -> c / 2 ^ m < eps.
Proof.
  intros Hc He. destruct (above_real (c / eps)) as (N & HN). exists N. intros m Hm. pose proof (power_above m). pose proof (two_pos m). assert (INR N <= INR m) by (apply le_INR; exact Hm).
  apply Rmult_lt_reg_r with (2 ^ m); [assumption|]. replace (c / 2 ^ m * 2 ^ m) with c by (field; lra). replace c with (eps * (c / eps)) by (field; lra). apply Rmult_lt_compat_l; lra.
Qed.
Lemma below_halves a b c : 0 <= c -> (forall m : nat, a <= b + c / 2 ^ m) -> a <= b.
Proof.
  intros Hc H. destruct (Rle_lt_dec a b) as [Hle|Hlt]; [exact Hle|exfalso]. destruct (small_power c (a - b) Hc ltac:(lra)) as (N & HN). specialize (HN N (le_n N)). specialize (H N). lra.
Qed.
Lemma halving_sum {X} (f : nat -> X -> R) b x : (forall m, Rabs (f (S m) x - f m x) <= b / 2 ^ m) -> forall m j, Rabs (f (m + j)%nat x - f m x) <= 2 * b / 2 ^ m - 2 * b / 2 ^ (m + j).
Proof.
  intros H m j. induction j as [|j IH].
  - rewrite Nat.add_0_r. replace (f m x - f m x) with 0 by ring. rewrite Rabs_R0. lra.
  - specialize (H (m + j)%nat). rewrite Nat.add_succ_r. pose proof (two_pos (m + j)).
    replace (f (S (m + j)) x - f m x) with ((f (S (m + j)) x - f (m + j)%nat x) + (f (m + j)%nat x - f m x)) by ring. eapply Rle_trans; [apply Rabs_triang|].
    replace (2 * b / 2 ^ S (m + j)) with (b / 2 ^ (m + j)) by (cbn [pow]; field; lra). replace (2 * b / 2 ^ (m + j)) with (2 * (b / 2 ^ (m + j))) in IH by (field; lra). lra.
Qed.
Lemma limits {X} (f : nat -> X -> R) b : 0 <= b -> (forall m x, Rabs (f (S m) x - f m x) <= b / 2 ^ m) -> {Y : X -> R | forall m x, Rabs (Y x - f m x) <= 2 * b / 2 ^ m}.
Proof.
  intros Hb H.
  assert (Q : forall x m j, (m <= j)%nat -> Rabs (f j x - f m x) <= 2 * b / 2 ^ m).
  { intros x m j Hj. pose proof (halving_sum f b x (fun m => H m x) m (j - m)%nat) as A. replace (m + (j - m))%nat with j in A by lia.
    assert (0 <= 2 * b / 2 ^ j) by (apply Rmult_le_pos; [lra|left; apply Rinv_0_lt_compat, two_pos]). lra. }
  assert (CC : forall x, Cauchy_crit (fun m => f m x)).
  { intros x eps He. destruct (small_power (2 * b) (eps / 2) ltac:(lra) ltac:(lra)) as (N & HN). exists N. intros u v Hu Hv. unfold R_dist. specialize (HN N (le_n N)).
    pose proof (Q x N u Hu). pose proof (Q x N v Hv). replace (f u x - f v x) with ((f u x - f N x) - (f v x - f N x)) by ring.
    eapply Rle_lt_trans; [apply Rabs_triang|]. rewrite Rabs_Ropp. lra. }
  exists (fun x => proj1_sig (R_complete _ (CC x))). intros m x. destruct (R_complete _ (CC x)) as [l Hl]. cbn [proj1_sig].
  destruct (Rle_lt_dec (Rabs (l - f m x)) (2 * b / 2 ^ m)) as [A|A]; [exact A|exfalso].
  destruct (Hl (Rabs (l - f m x) - 2 * b / 2 ^ m) ltac:(lra)) as (N & HN). specialize (HN (N + m)%nat ltac:(lia)). unfold R_dist in HN. pose proof (Q x m (N + m)%nat ltac:(lia)).
  assert (Rabs (l - f m x) <= Rabs (f (N + m)%nat x - l) + Rabs (f (N + m)%nat x - f m x)).
  { rewrite <- (Rabs_Ropp (f (N + m)%nat x - l)). replace (l - f m x) with (- (f (N + m)%nat x - l) + (f (N + m)%nat x - f m x)) by ring. apply Rabs_triang. }
  lra.
Qed.

Definition near_0 nf n (x : grid) : near nf n 0 x x.
Proof. intros i k _ _. replace (Csub (x i k) (x i k)) with C0 by csolve. rewrite size_0. lra. Qed.
Lemma near_le nf n e e' x y : e <= e' -> near nf n e x y -> near nf n e' x y.
Proof. intros H N i k Hi Hk. pose proof (N i k Hi Hk). lra. Qed.
Lemma steps_pos h j : 0 <= h -> 0 <= INR j * h.
Proof. intros H. apply Rmult_le_pos; [apply pos_INR|exact H]. Qed.
Lemma changes_of_square (z : R -> C) t v Q delta : 0 <= Q -> 0 < delta -> (forall h, Rabs h < delta -> size (Csub (Csub (z (t + h)) (z t)) (Cmul (RtoC h) v)) <= Q * h ^ 2) -> changes z t v.
Proof.
  intros HQ Hd H.
  assert (P : forall (f : C -> R), (forall w, Rabs (f w) <= size w) -> (forall a b, f (Csub a b) = f a - f b) -> (forall x w, f (Cmul (RtoC x) w) = x * f w) -> derivable_pt_lim (fun s => f (z s)) t (f v)).
  { intros f F1 F2 F3 eps He. assert (Hm : 0 < Rmin delta (eps / (Q + 1))) by (apply Rmin_pos; [exact Hd|apply Rdiv_lt_0_compat; lra]). exists (mkposreal _ Hm). intros h Hh Hl. cbn [pos] in Hl.
    assert (Hl1 : Rabs h < delta) by (eapply Rlt_le_trans; [exact Hl|apply Rmin_l]). assert (Hl2 : Rabs h < eps / (Q + 1)) by (eapply Rlt_le_trans; [exact Hl|apply Rmin_r]).
    specialize (H h Hl1). pose proof (F1 (Csub (Csub (z (t + h)) (z t)) (Cmul (RtoC h) v))) as G. rewrite !F2, F3 in G. assert (Hp : 0 < Rabs h) by (apply Rabs_pos_lt; exact Hh).
    replace ((f (z (t + h)) - f (z t)) / h - f v) with ((f (z (t + h)) - f (z t) - h * f v) / h) by (field; exact Hh). unfold Rdiv at 1. rewrite Rabs_mult, Rabs_inv.
    apply Rmult_lt_reg_r with (Rabs h); [exact Hp|]. rewrite Rmult_assoc, Rinv_l, Rmult_1_r by lra. eapply Rle_lt_trans; [exact G|]. eapply Rle_lt_trans; [exact H|].
    rewrite <- pow2_abs. replace (Q * Rabs h ^ 2) with (Q * Rabs h * Rabs h) by ring. apply Rmult_lt_compat_r; [exact Hp|].
    assert ((Q + 1) * Rabs h < eps). { replace eps with ((Q + 1) * (eps / (Q + 1))) by (field; lra). apply Rmult_lt_compat_l; lra. } lra. }
  split; apply P; try (intros; unfold size; pose proof (Rabs_pos (Re w)); pose proof (Rabs_pos (Im w)); lra); intros; unfold Csub, Cadd, Copp, Cmul, RtoC, Re, Im; cbn; ring.
Qed.

(** ** Bounded sequences of approximations with halved steps converge *)
Section Refine.
  Variables (nf n : nat) (g : R -> grid -> grid) (y0 : grid) (b K M T c0 h0 : R).
  Hypothesis HK : 0 <= K.
  Hypothesis HM : 0 <= M.
  Hypothesis Hc0 : 0 <= c0.
  Hypothesis HT : 0 < T.
  Hypothesis Hh0 : 0 < h0.
  Hypothesis HL : forall t t' x y e, 0 <= t <= T -> 0 <= t' <= T -> within nf n b x -> within nf n b y -> 0 <= e -> near nf n e x y ->
    near nf n (K * (e + Rabs (t - t'))) (g t x) (g t' y).
  Hypothesis HB : forall t x, 0 <= t <= T -> within nf n b x -> within nf n M (g t x).
  Let step m := h0 / 2 ^ m.
  Variable E : nat -> nat -> grid.
  Hypothesis HE0 : forall m i k, (i < nf)%nat -> (k < n)%nat -> E m 0%nat i k = y0 i k.
  Hypothesis HEb : forall m j, INR j * step m <= T -> within nf n b (E m j).
  Hypothesis HEs : forall m j, INR (S j) * step m <= T ->
    forall i k, (i < nf)%nat -> (k < n)%nat -> size (Csub (Csub (E m (S j) i k) (E m j i k)) (Cmul (RtoC (step m)) (g (INR j * step m) (E m j) i k))) <= c0 * step m ^ 2.

  Lemma step_pos m : 0 < step m.
  Proof. apply Rdiv_lt_0_compat; [lra|apply two_pos]. Qed.
  Lemma step_half m : step (S m) = step m / 2.
  Proof. unfold step. cbn [pow]. pose proof (two_pos m). field. lra. Qed.
  Lemma step_first m : step m <= h0.
  Proof.
    unfold step. pose proof (power_above m). pose proof (pos_INR m). pose proof (two_pos m). apply Rmult_le_reg_r with (2 ^ m); [assumption|]. replace (h0 / 2 ^ m * 2 ^ m) with (h0 * 1) by (field; lra). apply Rmult_le_compat_l; lra.
  Qed.
  Let M1 := M + c0 * h0.
  Lemma M1_pos : 0 <= M1.
  Proof. unfold M1. assert (0 <= c0 * h0) by (apply Rmult_le_pos; lra). lra. Qed.

  Lemma one_move m j : INR (S j) * step m <= T -> near nf n (M1 * step m) (E m (S j)) (E m j).
  Proof.
    intros Hj i k Hi Hk. pose proof (step_pos m) as Hp. pose proof (step_first m) as Hf. pose proof (HEs m j Hj i k Hi Hk) as Q. rewrite S_INR in Hj. pose proof (steps_pos (step m) j ltac:(lra)).
    pose proof (HB (INR j * step m) (E m j) ltac:(lra) (HEb m j ltac:(lra)) i k Hi Hk) as P. set (v := g (INR j * step m) (E m j) i k) in *.
    replace (Csub (E m (S j) i k) (E m j i k)) with (Cadd (Csub (Csub (E m (S j) i k) (E m j i k)) (Cmul (RtoC (step m)) v)) (Cmul (RtoC (step m)) v)) by csolve.
    eapply Rle_trans; [apply size_add|]. rewrite size_real, (Rabs_right (step m)) by lra. assert (step m * size v <= step m * M) by (apply Rmult_le_compat_l; lra).
    assert (c0 * step m ^ 2 <= c0 * h0 * step m). { replace (c0 * step m ^ 2) with (c0 * step m * step m) by ring. apply Rmult_le_compat_r; [lra|apply Rmult_le_compat_l; lra]. } unfold M1. lra.
  Qed.
  Lemma moves m a d : INR (a + d) * step m <= T -> near nf n (M1 * (INR d * step m)) (E m (a + d)) (E m a).
  Proof.
    pose proof (step_pos m) as Hp. induction d as [|d IH]; intros Hj.
    - rewrite Nat.add_0_r. cbn [INR]. apply near_le with (2 := near_0 nf n _). lra.
    - rewrite Nat.add_succ_r in *. pose proof (one_move m (a + d) Hj) as Q. rewrite S_INR in Hj. specialize (IH ltac:(lra)).
      intros i k Hi Hk. specialize (Q i k Hi Hk). specialize (IH i k Hi Hk). pose proof (size_tri (E m (S (a + d)) i k) (E m (a + d)%nat i k) (E m a i k)). rewrite S_INR. lra.
  Qed.
  Lemma tangent m a d : INR (a + d) * step m <= T -> forall i k, (i < nf)%nat -> (k < n)%nat ->
    size (Csub (Csub (E m (a + d)%nat i k) (E m a i k)) (Cmul (RtoC (INR d * step m)) (g (INR a * step m) (E m a) i k))) <= K * (1 + M1) * (INR d * step m) ^ 2 + c0 * (INR d * step m) * step m.
  Proof.
    intros Hj i k Hi Hk. pose proof (step_pos m) as Hp. pose proof M1_pos as HM1. assert (Hh : 0 <= step m) by lra. revert Hj. induction d as [|d IH]; intros Hj.
    - rewrite Nat.add_0_r. cbn [INR]. replace (Csub _ _) with C0 by (rewrite Rmult_0_l; csolve). rewrite size_0. lra.
    - rewrite Nat.add_succ_r in *. pose proof (HEs m (a + d) Hj i k Hi Hk) as Q0. rewrite S_INR in Hj. assert (Hj' : INR (a + d) * step m <= T) by lra. specialize (IH Hj').
      pose proof (steps_pos (step m) a Hh). pose proof (steps_pos (step m) d Hh). rewrite plus_INR, Rmult_plus_distr_r in Hj'. set (h := step m) in *.
      assert (IA : within nf n b (E m a)) by (apply HEb; fold h; lra).
      assert (IB : within nf n b (E m (a + d)%nat)) by (apply HEb; fold h; rewrite plus_INR; lra).
      pose proof (HL (INR a * h + INR d * h) (INR a * h) (E m (a + d)%nat) (E m a) (M1 * (INR d * h)) ltac:(lra) ltac:(lra) IB IA ltac:(apply Rmult_le_pos; lra)
        (moves m a d ltac:(fold h; rewrite plus_INR; lra)) i k Hi Hk) as Q.
      replace (INR a * h + INR d * h - INR a * h) with (INR d * h) in Q by ring. rewrite (Rabs_right (INR d * h)) in Q by lra.
      rewrite plus_INR in Q0. replace ((INR a + INR d) * h) with (INR a * h + INR d * h) in Q0 by ring.
      set (z' := E m (S (a + d)) i k) in *. set (z := E m (a + d)%nat i k) in *. set (w := E m a i k) in *. set (u := g (INR a * h + INR d * h) (E m (a + d)%nat) i k) in *. set (v := g (INR a * h) (E m a) i k) in *.
      rewrite S_INR. replace (Csub _ _) with (Cadd (Cadd (Csub (Csub z w) (Cmul (RtoC (INR d * h)) v)) (Cmul (RtoC h) (Csub u v))) (Csub (Csub z' z) (Cmul (RtoC h) u))) by csolve.
      eapply Rle_trans; [apply size_add|]. eapply Rle_trans; [apply Rplus_le_compat_r, size_add|]. rewrite size_real, (Rabs_right h) by lra.
      assert (Q1 : h * size (Csub u v) <= h * (K * (M1 * (INR d * h) + INR d * h))) by (apply Rmult_le_compat_l; assumption).
      assert (Q2 : 0 <= K * (1 + M1) * (INR d * h * h + h ^ 2)). { apply Rmult_le_pos; [apply Rmult_le_pos; lra|]. assert (0 <= INR d * h * h) by (apply Rmult_le_pos; lra). assert (0 <= h ^ 2) by (apply pow_le; lra). lra. }
      replace (h * (K * (M1 * (INR d * h) + INR d * h))) with (K * (1 + M1) * (INR d * h * h)) in Q1 by ring.
      replace (K * (1 + M1) * ((INR d + 1) * h) ^ 2 + c0 * ((INR d + 1) * h) * h) with (K * (1 + M1) * (INR d * h) ^ 2 + K * (1 + M1) * (INR d * h * h) + K * (1 + M1) * (INR d * h * h + h ^ 2) + (c0 * (INR d * h) * h + c0 * h ^ 2)) by ring. lra.
  Qed.

  (** Halving the steps. *)
  Let c := K * (1 + M1) + 2 * c0.
  Lemma c_pos : 0 <= c.
  Proof. unfold c. pose proof M1_pos. assert (0 <= K * (1 + M1)) by (apply Rmult_le_pos; lra). lra. Qed.
  Lemma halved m j : INR j * step m <= T -> near nf n (c * step m * (INR j * step m) * exp (K * (INR j * step m))) (E (S m) (2 * j)) (E m j).
  Proof.
    pose proof (step_pos m) as Hp. assert (Hh : 0 <= step m) by lra. pose proof c_pos as Hc. pose proof M1_pos as HM1. assert (KM : 0 <= K * (1 + M1)) by (apply Rmult_le_pos; lra). induction j as [|j IH]; intros Hj.
    - intros i k Hi Hk. cbn [Nat.mul]. rewrite !HE0 by assumption. cbn [INR]. replace (Csub _ _) with C0 by csolve. rewrite size_0, Rmult_0_l, Rmult_0_r, Rmult_0_l. lra.
    - assert (Hj0 := Hj). rewrite S_INR in Hj. pose proof (steps_pos (step m) j Hh). assert (Hj' : INR j * step m <= T) by lra. specialize (IH Hj').
      replace (2 * S j)%nat with (2 * j + 2)%nat by lia. assert (E2 : INR (2 * j) * step (S m) = INR j * step m) by (rewrite step_half, mult_INR; cbn [INR]; field). assert (E3 : INR 2 = 2) by (cbn; ring).
      assert (E4 : INR (2 * j + 2) * step (S m) = INR j * step m + step m) by (rewrite plus_INR, Rmult_plus_distr_r, E2, E3, step_half; field).
      intros i k Hi Hk. pose proof (tangent (S m) (2 * j) 2 ltac:(lra) i k Hi Hk) as Q. rewrite E2, E3 in Q. replace (2 * step (S m)) with (step m) in Q by (rewrite step_half; field).
      pose proof (HEs m j Hj0 i k Hi Hk) as Q0. set (h := step m) in *.
      assert (IA : within nf n b (E (S m) (2 * j)%nat)) by (apply HEb; lra). assert (IB : within nf n b (E m j)) by (apply HEb; fold h; lra).
      set (x := exp (K * (INR j * h))) in *. assert (Hx : 1 <= x). { unfold x. assert (0 <= K * (INR j * h)) by (apply Rmult_le_pos; lra). pose proof (exp_ineq1_le (K * (INR j * h))). lra. }
      pose proof (pos_INR j) as Hpj.
      assert (He : 0 <= c * h * (INR j * h) * x) by (mpos).
      pose proof (HL (INR j * h) (INR j * h) _ _ _ ltac:(lra) ltac:(lra) IA IB He IH i k Hi Hk) as P. replace (INR j * h - INR j * h) with 0 in P by ring. rewrite Rabs_R0, Rplus_0_r in P.
      pose proof (IH i k Hi Hk) as I.
      set (z2 := E (S m) (2 * j + 2)%nat i k) in *. set (z := E (S m) (2 * j)%nat i k) in *. set (w2 := E m (S j) i k) in *. set (w := E m j i k) in *.
      set (u := g (INR j * h) (E (S m) (2 * j)%nat) i k) in *. set (v := g (INR j * h) (E m j) i k) in *.
      replace (Csub z2 w2) with (Cadd (Cadd (Csub z w) (Cmul (RtoC h) (Csub u v))) (Cadd (Csub (Csub z2 z) (Cmul (RtoC h) u)) (Copp (Csub (Csub w2 w) (Cmul (RtoC h) v))))) by csolve.
      eapply Rle_trans; [apply size_add|]. eapply Rle_trans; [apply Rplus_le_compat; apply size_add|]. rewrite size_opp, size_real, (Rabs_right h) by lra.
      assert (P1 : h * size (Csub u v) <= h * (K * (c * h * (INR j * h) * x))) by (apply Rmult_le_compat_l; assumption).
      assert (P2 : K * (1 + M1) * h ^ 2 + c0 * h * step (S m) + c0 * h ^ 2 <= c * h * h).
      { rewrite step_half. fold h. unfold c. assert (0 <= c0 * h * h) by (mpos). lra. }
      set (y := exp (K * (INR (S j) * h))). assert (Y1 : (1 + K * h) * x <= y).
      { unfold x, y. replace (K * (INR (S j) * h)) with (K * h + K * (INR j * h)) by (rewrite S_INR; ring). rewrite exp_plus. apply Rmult_le_compat_r; [left; apply exp_pos|]. apply exp_ineq1_le. }
      assert (Y2 : 1 <= y). { assert (0 <= K * h) by (apply Rmult_le_pos; lra). assert (0 <= K * h * x) by (apply Rmult_le_pos; lra). lra. }
      assert (P3 : c * h * (INR j * h) * ((1 + K * h) * x) <= c * h * (INR j * h) * y) by (apply Rmult_le_compat_l; [mpos|exact Y1]).
      assert (P4 : c * h * h * 1 <= c * h * h * y) by (apply Rmult_le_compat_l; [mpos|exact Y2]).
      rewrite S_INR. replace (c * h * ((INR j + 1) * h) * y) with (c * h * (INR j * h) * y + c * h * h * y) by ring. lra.
  Qed.

  (** The limit. *)
  Let W := c * T * exp (K * T).
  Lemma W_pos : 0 <= W.
  Proof. unfold W. pose proof c_pos. pose proof (exp_pos (K * T)). mpos. Qed.
  Definition clamp (t : R) : R := Rmax 0 (Rmin T t).
  Lemma clamp_in t : 0 <= clamp t <= T.
  Proof. unfold clamp. split; [apply Rmax_l|]. apply Rmax_lub; [lra|apply Rmin_l]. Qed.
  Lemma clamp_id t : 0 <= t <= T -> clamp t = t.
  Proof. intros H. unfold clamp. rewrite Rmin_right, Rmax_right; lra. Qed.
  Definition idx m t := whole (clamp t / step m).
  Lemma idx_spec m t : INR (idx m t) * step m <= clamp t < INR (idx m t) * step m + step m.
  Proof.
    pose proof (step_pos m). pose proof (clamp_in t). assert (Q : 0 <= clamp t / step m) by (apply Rmult_le_pos; [lra|left; apply Rinv_0_lt_compat; lra]).
    destruct (whole_spec _ Q) as [A B]. fold (idx m t) in A, B. replace (clamp t) with (clamp t / step m * step m) by (field; lra). split.
    - apply Rmult_le_compat_r; lra.
    - replace (INR (idx m t) * step m + step m) with ((INR (idx m t) + 1) * step m) by ring. apply Rmult_lt_compat_r; lra.
  Qed.
  Lemma idx_next m t : idx (S m) t = (2 * idx m t)%nat \/ idx (S m) t = S (2 * idx m t).
  Proof.
    unfold idx. rewrite step_half. pose proof (step_pos m). pose proof (clamp_in t). replace (clamp t / (step m / 2)) with (2 * (clamp t / step m)) by (field; lra).
    apply whole_double. apply Rmult_le_pos; [lra|left; apply Rinv_0_lt_compat; lra].
  Qed.
  Definition approx m t : grid := E m (idx m t).
  Lemma approx_ok m t : INR (idx m t) * step m <= T.
  Proof. pose proof (idx_spec m t). pose proof (clamp_in t). lra. Qed.
  Lemma approx_next m t : near nf n ((W + M1) * step m) (approx (S m) t) (approx m t).
  Proof.
    pose proof c_pos as Hc. pose proof M1_pos as HM1. pose proof (step_pos m) as Hp. pose proof (approx_ok m t) as Ho. pose proof (approx_ok (S m) t) as Ho'. pose proof (steps_pos (step m) (idx m t) ltac:(lra)) as H0.
    pose proof (pos_INR (idx m t)) as Hpi. unfold approx. pose proof (halved m (idx m t) Ho) as Q. set (x := INR (idx m t) * step m) in *.
    assert (QQ : c * step m * x * exp (K * x) <= W * step m).
    { unfold W. replace (c * T * exp (K * T) * step m) with (c * step m * T * exp (K * T)) by ring. apply Rmult_le_compat; [mpos|left; apply exp_pos|apply Rmult_le_compat_l; [apply Rmult_le_pos; lra|lra]|].
      assert (Ha : K * x <= K * T) by (apply Rmult_le_compat_l; lra). destruct Ha as [Ha|Ha]; [left; apply exp_increasing; exact Ha|rewrite Ha; apply Rle_refl]. }
    assert (HMs : 0 <= M1 * step m) by (apply Rmult_le_pos; lra).
    intros i k Hi Hk. specialize (Q i k Hi Hk). destruct (idx_next m t) as [Ei|Ei]; rewrite Ei in *.
    - eapply Rle_trans; [exact Q|]. lra.
    - pose proof (one_move (S m) (2 * idx m t) Ho' i k Hi Hk) as P. rewrite step_half in P.
      pose proof (size_tri (E (S m) (S (2 * idx m t)) i k) (E (S m) (2 * idx m t)%nat i k) (E m (idx m t) i k)) as P2. lra.
  Qed.

  Let B := (W + M1) * h0.
  Lemma B_pos : 0 <= B.
  Proof. unfold B. pose proof W_pos. pose proof M1_pos. apply Rmult_le_pos; lra. Qed.
  Lemma limit_exists : exists Y : R -> grid, forall m t, near nf n (4 * B / 2 ^ m) (Y t) (approx m t).
  Proof.
    pose proof B_pos as HBp.
    pose (f := fun (m : nat) (x : bool * R * nat * nat) => let '(b, t, i, k) := x in
      if lt_dec i nf then if lt_dec k n then (if b then Re (approx m t i k) else Im (approx m t i k)) else 0 else 0).
    assert (Hf : forall m x, Rabs (f (S m) x - f m x) <= B / 2 ^ m).
    { intros m [[[b1 t] i] k]. unfold f. assert (Z : 0 <= B / 2 ^ m) by (apply Rmult_le_pos; [exact HBp|left; apply Rinv_0_lt_compat, two_pos]).
      destruct (lt_dec i nf) as [Hi|_]; [|replace (0 - 0) with 0 by ring; rewrite Rabs_R0; exact Z]. destruct (lt_dec k n) as [Hk|_]; [|replace (0 - 0) with 0 by ring; rewrite Rabs_R0; exact Z].
      pose proof (approx_next m t i k Hi Hk) as Q. replace ((W + M1) * step m) with (B / 2 ^ m) in Q by (unfold B, step; pose proof (two_pos m); field; lra).
      unfold size in Q. pose proof (Rabs_pos (Re (Csub (approx (S m) t i k) (approx m t i k)))). pose proof (Rabs_pos (Im (Csub (approx (S m) t i k) (approx m t i k)))).
      destruct b1; [replace (Re (approx (S m) t i k) - Re (approx m t i k)) with (Re (Csub (approx (S m) t i k) (approx m t i k))) by reflexivity|replace (Im (approx (S m) t i k) - Im (approx m t i k)) with (Im (Csub (approx (S m) t i k) (approx m t i k))) by reflexivity]; lra. }
    destruct (limits f B HBp Hf) as (Y & HY). exists (fun t i k => (Y (true, t, i, k), Y (false, t, i, k))). intros m t i k Hi Hk.
    pose proof (HY m (true, t, i, k)) as Q1. pose proof (HY m (false, t, i, k)) as Q2. unfold f in Q1, Q2. destruct (lt_dec i nf); [|lia]. destruct (lt_dec k n); [|lia].
    unfold size. replace (Re (Csub (Y (true, t, i, k), Y (false, t, i, k)) (approx m t i k))) with (Y (true, t, i, k) - Re (approx m t i k)) by reflexivity.
    replace (Im (Csub (Y (true, t, i, k), Y (false, t, i, k)) (approx m t i k))) with (Y (false, t, i, k) - Im (approx m t i k)) by reflexivity.
    replace (4 * B / 2 ^ m) with (2 * B / 2 ^ m + 2 * B / 2 ^ m) by (pose proof (two_pos m); field; lra). lra.
  Qed.

  Variable Y : R -> grid.
  Hypothesis HY : forall m t, near nf n (4 * B / 2 ^ m) (Y t) (approx m t).
  Lemma Y_in t : within nf n b (Y t).
  Proof.
    intros i k Hi Hk. apply (below_halves _ _ (4 * B)); [pose proof B_pos; lra|]. intros m. pose proof (HY m t i k Hi Hk) as Q.
    pose proof (HEb m (idx m t) (approx_ok m t) i k Hi Hk) as P. fold (approx m t) in P. pose proof (size_of_sub (Y t i k) (approx m t i k)). lra.
  Qed.
  Lemma Y_0 i k : (i < nf)%nat -> (k < n)%nat -> Y 0 i k = y0 i k.
  Proof.
    intros Hi Hk. assert (Q : size (Csub (Y 0 i k) (y0 i k)) <= 0).
    { apply (below_halves _ _ (4 * B)); [pose proof B_pos; lra|]. intros m. pose proof (HY m 0 i k Hi Hk) as Q. replace (y0 i k) with (approx m 0 i k); [lra|].
      unfold approx, idx. rewrite clamp_id by lra. replace (0 / step m) with 0 by (unfold Rdiv; ring). rewrite (whole_of 0 0) by (cbn; lra). apply HE0; assumption. }
    apply size_zero in Q. replace (y0 i k) with (Csub (Y 0 i k) (Csub (Y 0 i k) (y0 i k))) by csolve. rewrite Q. csolve.
  Qed.
  Lemma Y_tangent t u i k : 0 <= t <= u -> u <= T -> (i < nf)%nat -> (k < n)%nat ->
    size (Csub (Csub (Y u i k) (Y t i k)) (Cmul (RtoC (u - t)) (g t (Y t) i k))) <= K * (1 + M1) * (u - t) ^ 2.
  Proof.
    intros Ht Hu Hi Hk. pose proof B_pos as HBp. pose proof M1_pos as HM1. assert (KM : 0 <= K * (1 + M1)) by (apply Rmult_le_pos; lra).
    apply (below_halves _ _ (8 * B + K * (1 + M1) * ((2 * T + h0) * h0) + c0 * T * h0 + T * (K * (4 * B + h0)) + h0 * M)).
    { assert (0 <= K * (1 + M1) * ((2 * T + h0) * h0)) by (apply Rmult_le_pos; [exact KM|apply Rmult_le_pos; lra]). assert (0 <= T * (K * (4 * B + h0))) by (apply Rmult_le_pos; [lra|apply Rmult_le_pos; lra]). assert (0 <= h0 * M) by (apply Rmult_le_pos; lra).
      assert (0 <= c0 * T * h0) by (mpos). lra. }
    intros m. pose proof (step_pos m) as Hp. pose proof (step_first m) as Hf. set (h := step m) in *. set (b4 := 4 * B / 2 ^ m). assert (Hb4 : 0 <= b4) by (apply Rmult_le_pos; [lra|left; apply Rinv_0_lt_compat, two_pos]).
    destruct (idx_spec m t) as [A1 A2]. destruct (idx_spec m u) as [U1 U2]. rewrite (clamp_id t) in A1, A2 by lra. rewrite (clamp_id u) in U1, U2 by lra. fold h in A1, A2, U1, U2.
    assert (Hle : (idx m t <= idx m u)%nat). { unfold idx. rewrite !clamp_id by lra. fold h. apply whole_mono. assert (0 < / h) by (apply Rinv_0_lt_compat; lra). split; [apply Rmult_le_pos; lra|apply Rmult_le_compat_r; lra]. }
    set (a := idx m t) in *. set (d := (idx m u - a)%nat). assert (Ed : idx m u = (a + d)%nat) by (unfold d; lia). rewrite Ed in U1, U2. rewrite plus_INR in U1, U2. rewrite Rmult_plus_distr_r in U1, U2.
    pose proof (steps_pos h a ltac:(lra)) as Ha0. pose proof (steps_pos h d ltac:(lra)) as Hd0. set (D := INR d * h) in *. assert (HDs : D <= T) by lra. assert (HDu : Rabs (D - (u - t)) <= h) by (apply Rabs_le; lra). assert (HDu2 : D <= u - t + h) by lra.
    pose proof (tangent m a d ltac:(fold h; rewrite plus_INR, Rmult_plus_distr_r; fold D; lra) i k Hi Hk) as Q1. fold h in Q1. fold D in Q1.
    pose proof (HY m t i k Hi Hk) as Q2. pose proof (HY m u i k Hi Hk) as Q3. unfold approx in Q2, Q3. fold a in Q2. rewrite Ed in Q3. fold b4 in Q2, Q3.
    assert (Q4 : size (Csub (g (INR a * h) (E m a) i k) (g t (Y t) i k)) <= K * (b4 + h)).
    { eapply Rle_trans; [apply (HL (INR a * h) t (E m a) (Y t) b4); try lra; try assumption|].
      - apply HEb. fold h. lra.
      - apply Y_in.
      - intros i' k' Hi' Hk'. rewrite size_sub_sym. pose proof (HY m t i' k' Hi' Hk') as Q. unfold approx in Q. fold a b4 in Q. exact Q.
      - apply Rmult_le_compat_l; [exact HK|]. apply Rplus_le_compat_l. apply Rabs_le. lra. }
    assert (Q5 : size (g t (Y t) i k) <= M) by (apply HB; [lra|apply Y_in|assumption|assumption]).
    set (ga := g (INR a * h) (E m a) i k) in *. set (gt := g t (Y t) i k) in *. set (Ea := E m a i k) in *. set (Eb := E m (a + d)%nat i k) in *.
    replace (Csub (Csub (Y u i k) (Y t i k)) (Cmul (RtoC (u - t)) gt)) with
      (Cadd (Cadd (Csub (Y u i k) Eb) (Copp (Csub (Y t i k) Ea))) (Cadd (Csub (Csub Eb Ea) (Cmul (RtoC D) ga)) (Cadd (Cmul (RtoC D) (Csub ga gt)) (Cmul (RtoC (D - (u - t))) gt)))) by csolve.
    eapply Rle_trans; [apply size_add|]. eapply Rle_trans; [apply Rplus_le_compat; [apply size_add|eapply Rle_trans; [apply size_add|apply Rplus_le_compat_l, size_add]]|].
    rewrite size_opp, !size_real, (Rabs_right D) by lra.
    assert (P1 : D * size (Csub ga gt) <= T * (K * (b4 + h))). { apply Rmult_le_compat; [lra|apply size_pos|lra|exact Q4]. }
    assert (P2 : Rabs (D - (u - t)) * size gt <= h * M) by (apply Rmult_le_compat; [apply Rabs_pos|apply size_pos|exact HDu|exact Q5]).
    assert (P3 : K * (1 + M1) * D ^ 2 <= K * (1 + M1) * (u - t) ^ 2 + K * (1 + M1) * ((2 * T + h0) * h)).
    { rewrite <- Rmult_plus_distr_l. apply Rmult_le_compat_l; [exact KM|]. assert (D ^ 2 <= (u - t + h) ^ 2) by (apply pow_incr; lra).
      assert (h * (u - t) <= h * T) by (apply Rmult_le_compat_l; lra). assert (h * h <= h * h0) by (apply Rmult_le_compat_l; lra). nra. }
    assert (P4 : c0 * D * h <= c0 * T * h) by (apply Rmult_le_compat_r; [lra|apply Rmult_le_compat_l; lra]).
    replace ((8 * B + K * (1 + M1) * ((2 * T + h0) * h0) + c0 * T * h0 + T * (K * (4 * B + h0)) + h0 * M) / 2 ^ m) with (2 * b4 + K * (1 + M1) * ((2 * T + h0) * h) + c0 * T * h + T * (K * (b4 + h)) + h * M); [lra|].
    unfold b4, h, step. pose proof (two_pos m). field. lra.
  Qed.

  Let M2 := M + K * (1 + M1) * T.
  Lemma Y_moves t u i k : 0 <= t <= u -> u <= T -> (i < nf)%nat -> (k < n)%nat -> size (Csub (Y u i k) (Y t i k)) <= M2 * (u - t).
  Proof.
    intros Ht Hu Hi Hk. pose proof M1_pos as HM1. assert (KM : 0 <= K * (1 + M1)) by (apply Rmult_le_pos; lra). pose proof (Y_tangent t u i k Ht Hu Hi Hk) as Q.
    assert (Q5 : size (g t (Y t) i k) <= M) by (apply HB; [lra|apply Y_in|assumption|assumption]).
    replace (Csub (Y u i k) (Y t i k)) with (Cadd (Csub (Csub (Y u i k) (Y t i k)) (Cmul (RtoC (u - t)) (g t (Y t) i k))) (Cmul (RtoC (u - t)) (g t (Y t) i k))) by csolve.
    eapply Rle_trans; [apply size_add|]. rewrite size_real, Rabs_right by lra.
    assert ((u - t) * size (g t (Y t) i k) <= (u - t) * M) by (apply Rmult_le_compat_l; lra).
    assert (K * (1 + M1) * (u - t) ^ 2 <= K * (1 + M1) * (T * (u - t))) by (apply Rmult_le_compat_l; [exact KM|]; cbn [pow]; rewrite Rmult_1_r; apply Rmult_le_compat_r; lra).
    unfold M2. lra.
  Qed.

  (** The limit, continued by its tangents before time 0 and after time T. *)
  Definition curve (t : R) : grid :=
    if Rlt_dec t 0 then fun i k => Cadd (Y 0 i k) (Cmul (RtoC t) (g 0 (Y 0) i k))
    else if Rlt_dec T t then fun i k => Cadd (Y T i k) (Cmul (RtoC (t - T)) (g T (Y T) i k)) else Y t.
  Lemma curve_in t : 0 <= t <= T -> curve t = Y t.
  Proof. intros H. unfold curve. destruct (Rlt_dec t 0); [lra|]. destruct (Rlt_dec T t); [lra|reflexivity]. Qed.
  Definition room (t : R) : R := Rmin (if Rlt_dec 0 t then t else T) (if Rlt_dec t T then T - t else T).
  Lemma curve_changes t i k : 0 <= t <= T -> (i < nf)%nat -> (k < n)%nat -> changes (fun u => curve u i k) t (g t (curve t) i k).
  Proof.
    intros Ht Hi Hk. pose proof M1_pos as HM1. assert (KM : 0 <= K * (1 + M1)) by (apply Rmult_le_pos; lra). assert (HM2 : 0 <= M2). { unfold M2. assert (0 <= K * (1 + M1) * T) by (apply Rmult_le_pos; lra). lra. }
    assert (HQ : 0 <= K * (M2 + 1)) by (apply Rmult_le_pos; lra).
    apply (changes_of_square _ t _ (K * (1 + M1) + K * (M2 + 1)) (room t)); [lra|unfold room; apply Rmin_pos; [destruct (Rlt_dec 0 t); lra|destruct (Rlt_dec t T); lra]|].
    intros h Hh. rewrite (curve_in t) by lra. assert (Hh2 : 0 <= h ^ 2) by (rewrite <- pow2_abs; apply pow_le, Rabs_pos).
    assert (L1 : Rabs h < if Rlt_dec 0 t then t else T) by (eapply Rlt_le_trans; [exact Hh|apply Rmin_l]). assert (L2 : Rabs h < if Rlt_dec t T then T - t else T) by (eapply Rlt_le_trans; [exact Hh|apply Rmin_r]).
    assert (EX : forall v : C, v = C0 -> size v <= (K * (1 + M1) + K * (M2 + 1)) * h ^ 2) by (intros v ->; rewrite size_0; apply Rmult_le_pos; lra).
    destruct (Rle_lt_dec 0 h) as [Hp|Hp].
    - destruct (Rlt_dec t T) as [Hl|Hl].
      + apply Rabs_def2 in L2. rewrite (curve_in (t + h)) by lra. pose proof (Y_tangent t (t + h) i k ltac:(lra) ltac:(lra) Hi Hk) as Q. replace (t + h - t) with h in Q by ring.
        assert (0 <= K * (M2 + 1) * h ^ 2) by (apply Rmult_le_pos; lra). lra.
      + assert (t = T) by lra. subst t. apply EX. destruct Hp as [Hp|<-]; [|rewrite Rplus_0_r, curve_in by lra; csolve].
        unfold curve. destruct (Rlt_dec (T + h) 0); [lra|]. destruct (Rlt_dec T (T + h)); [|lra]. replace (T + h - T) with h by ring. csolve.
    - destruct (Rlt_dec 0 t) as [Hp0|Hn0].
      + apply Rabs_def2 in L1. rewrite (curve_in (t + h)) by lra.
        pose proof (Y_tangent (t + h) t i k ltac:(lra) ltac:(lra) Hi Hk) as Q. replace (t - (t + h)) with (- h) in Q by ring.
        assert (P : size (Csub (g (t + h) (Y (t + h)) i k) (g t (Y t) i k)) <= K * (M2 * - h + - h)).
        { eapply Rle_trans; [apply (HL (t + h) t (Y (t + h)) (Y t) (M2 * - h)); try lra; try assumption; try apply Y_in|].
          - apply Rmult_le_pos; lra.
          - intros i' k' Hi' Hk'. rewrite size_sub_sym. replace (- h) with (t - (t + h)) by ring. apply Y_moves; lra || assumption.
          - replace (t + h - t) with h by ring. rewrite (Rabs_left h) by lra. lra. }
        set (v := g t (Y t) i k) in *. set (w := g (t + h) (Y (t + h)) i k) in *. set (a := Y (t + h) i k) in *. set (b0 := Y t i k) in *.
        replace (Csub (Csub a b0) (Cmul (RtoC h) v)) with (Cadd (Copp (Csub (Csub b0 a) (Cmul (RtoC (- h)) w))) (Cmul (RtoC h) (Csub w v))) by csolve.
        eapply Rle_trans; [apply size_add|]. rewrite size_opp, size_real, (Rabs_left h) by lra.
        assert (- h * size (Csub w v) <= - h * (K * (M2 * - h + - h))) by (apply Rmult_le_compat_l; lra).
        replace (- h * (K * (M2 * - h + - h))) with (K * (M2 + 1) * h ^ 2) in H by ring. replace ((- h) ^ 2) with (h ^ 2) in Q by ring. lra.
      + assert (t = 0) by lra. subst t. apply EX. unfold curve. destruct (Rlt_dec (0 + h) 0) as [_|]; [|lra]. replace (0 + h) with h by ring. csolve.
  Qed.
End Refine.

(** A right-hand side that is Lipschitz on bounded sets is bounded on them. *)
Definition locally_lipschitz nf n (g : R -> grid -> grid) (T : R) : Prop :=
  forall r, exists K, 0 <= K /\ forall t t' x y e, 0 <= t <= T -> 0 <= t' <= T -> within nf n r x -> within nf n r y -> near nf n e x y -> Rabs (t - t') <= e ->
    near nf n (K * e) (g t x) (g t' y).
Lemma rates nf n g T b : 0 <= T -> 0 <= b -> locally_lipschitz nf n g T -> exists K M, 0 <= K /\ 0 <= M
  /\ (forall t t' x y e, 0 <= t <= T -> 0 <= t' <= T -> within nf n b x -> within nf n b y -> 0 <= e -> near nf n e x y -> near nf n (K * (e + Rabs (t - t'))) (g t x) (g t' y))
  /\ forall t x, 0 <= t <= T -> within nf n b x -> within nf n M (g t x).
Proof.
  intros HT Hb HG. destruct (HG b) as (K & HK & HL0).
  assert (HL : forall t t' x y e, 0 <= t <= T -> 0 <= t' <= T -> within nf n b x -> within nf n b y -> 0 <= e -> near nf n e x y -> near nf n (K * (e + Rabs (t - t'))) (g t x) (g t' y)).
  { intros t t' x y e Ht Ht' Hx Hy He Hn. apply HL0; auto.
    - apply near_le with (2 := Hn). pose proof (Rabs_pos (t - t')). lra.
    - lra. }
  pose (o := (fun _ _ => C0) : grid). assert (Ho : within nf n b o) by (intros i k _ _; unfold o; rewrite size_0; exact Hb).
  destruct (bound_over2 nf n (fun i k b => size (g 0 o i k) <= b)) as (b0 & Hb0 & HB1); [intros; lra|intros i k _ _; eexists; apply Rle_refl|].
  exists K, (b0 + K * (b + T)). assert (0 <= K * (b + T)) by (apply Rmult_le_pos; lra). split; [exact HK|]. split; [lra|]. split; [exact HL|].
  intros t x Ht Hx i k Hi Hk. assert (Hn : near nf n b x o). { intros i' k' Hi' Hk'. unfold o. replace (Csub (x i' k') C0) with (x i' k') by csolve. apply Hx; assumption. }
  pose proof (HL t 0 x o b Ht ltac:(lra) Hx Ho Hb Hn i k Hi Hk) as Q. pose proof (HB1 i k Hi Hk) as Q1. pose proof (size_of_sub (g t x i k) (g 0 o i k)) as Q2.
  rewrite Rminus_0_r, Rabs_right in Q by lra. assert (K * (b + t) <= K * (b + T)) by (apply Rmult_le_compat_l; lra). lra.
Qed.

(** Bounded refinements have a limit that solves the equations. *)
Lemma bounded_refinements nf n g (y0 : grid) b T c0 h0 (E : nat -> nat -> grid) : 0 < T -> 0 <= b -> 0 <= c0 -> 0 < h0 -> locally_lipschitz nf n g T ->
  (forall m i k, (i < nf)%nat -> (k < n)%nat -> E m 0%nat i k = y0 i k) ->
  (forall m j, INR j * (h0 / 2 ^ m) <= T -> within nf n b (E m j)) ->
  (forall m j, INR (S j) * (h0 / 2 ^ m) <= T -> forall i k, (i < nf)%nat -> (k < n)%nat ->
     size (Csub (Csub (E m (S j) i k) (E m j i k)) (Cmul (RtoC (h0 / 2 ^ m)) (g (INR j * (h0 / 2 ^ m)) (E m j) i k))) <= c0 * (h0 / 2 ^ m) ^ 2) ->
  exists Y : R -> grid, (forall i k, (i < nf)%nat -> (k < n)%nat -> Y 0 i k = y0 i k)
  /\ (forall t i k, 0 <= t <= T -> (i < nf)%nat -> (k < n)%nat -> changes (fun u => Y u i k) t (g t (Y t) i k))
  /\ forall t, 0 <= t <= T -> within nf n b (Y t).
Proof.
  intros HT Hb Hc0 Hh0 HG HE0 HEb HEs. destruct (rates nf n g T b ltac:(lra) Hb HG) as (K & M & HK & HM & HL & HB).
  destruct (limit_exists nf n g y0 b K M T c0 h0 HK HM Hc0 HT Hh0 HL HB E HE0 HEb HEs) as (Y & HY).
  exists (curve g T Y). split; [|split].
  - intros i k Hi Hk. rewrite curve_in by lra. apply (Y_0 nf n y0 K M T c0 h0 HK HM Hc0 HT Hh0 E HE0 Y HY i k Hi Hk).
  - intros t i k Ht Hi Hk. apply (curve_changes nf n g b K M T c0 h0 HK HM Hc0 HT Hh0 HL HB E HEb HEs Y HY t i k Ht Hi Hk).
  - intros t Ht. rewrite curve_in by exact Ht. apply (Y_in nf n b K M T c0 h0 HK HM Hc0 HT Hh0 E HEb Y HY).
Qed.

(** ** Euler polygons stay bounded for a short time *)
Fixpoint polygon (g : R -> grid -> grid) (y0 : grid) (h : R) (j : nat) : grid :=
  match j with O => y0 | S j' => fun i k => Cadd (polygon g y0 h j' i k) (Cmul (RtoC h) (g (INR j' * h) (polygon g y0 h j') i k)) end.
Lemma short_time nf n g y0 T : 0 < T -> locally_lipschitz nf n g T ->
  exists s Y, 0 < s <= T /\ (forall i k, (i < nf)%nat -> (k < n)%nat -> Y 0 i k = y0 i k)
  /\ forall t i k, 0 <= t <= s -> (i < nf)%nat -> (k < n)%nat -> changes (fun u => Y u i k) t (g t (Y t) i k).
Proof.
  intros HT HG.
  destruct (bound_over2 nf n (fun i k b => size (y0 i k) <= b)) as (b & Hb & HB0); [intros; lra|intros i k _ _; eexists; apply Rle_refl|].
  destruct (rates nf n g T (b + 1) ltac:(lra) ltac:(lra) HG) as (K & M & HK & HM & HL & HB).
  pose (s := Rmin T (/ (1 + M))). assert (Hd : 0 < 1 + M) by lra.
  assert (Hs : 0 < s <= T). { split; [apply Rmin_pos; [exact HT|apply Rinv_0_lt_compat; exact Hd]|apply Rmin_l]. }
  assert (HS : M * s <= 1). { apply Rle_trans with ((1 + M) * / (1 + M)); [|rewrite Rinv_r; lra]. apply Rmult_le_compat; [exact HM|lra|lra|apply Rmin_r]. }
  assert (HP : forall h j, 0 <= h -> INR j * h <= s -> forall i k, (i < nf)%nat -> (k < n)%nat -> size (polygon g y0 h j i k) <= b + M * (INR j * h)).
  { intros h j Hh. induction j as [|j IH]; intros Hj i k Hi Hk; [cbn [polygon INR]; pose proof (HB0 i k Hi Hk); lra|].
    rewrite S_INR in *. pose proof (steps_pos h j Hh). specialize (IH ltac:(lra)).
    assert (IB : within nf n (b + 1) (polygon g y0 h j)). { intros i' k' Hi' Hk'. pose proof (IH i' k' Hi' Hk'). assert (M * (INR j * h) <= M * s) by (apply Rmult_le_compat_l; lra). lra. }
    cbn [polygon]. eapply Rle_trans; [apply size_add|]. rewrite size_real, (Rabs_right h) by lra. specialize (IH i k Hi Hk). pose proof (HB (INR j * h) _ ltac:(lra) IB i k Hi Hk).
    assert (h * size (g (INR j * h) (polygon g y0 h j) i k) <= h * M) by (apply Rmult_le_compat_l; assumption). lra. }
  assert (HGs : locally_lipschitz nf n g s). { intros r. destruct (HG r) as (K' & HK' & H). exists K'. split; [exact HK'|]. intros t t' x y e Ht Ht'. apply H; lra. }
  assert (Hstep : forall m, 0 <= 1 / 2 ^ m) by (intros m; apply Rmult_le_pos; [lra|left; apply Rinv_0_lt_compat, two_pos]).
  destruct (bounded_refinements nf n g y0 (b + 1) s 0 1 (fun m => polygon g y0 (1 / 2 ^ m))) as (Y & Y0 & Y1 & _); try lra; try assumption.
  - reflexivity.
  - intros m j Hj i k Hi Hk. pose proof (HP _ j (Hstep m) Hj i k Hi Hk). assert (M * (INR j * (1 / 2 ^ m)) <= M * s) by (apply Rmult_le_compat_l; assumption). lra.
  - intros m j Hj i k Hi Hk. cbn [polygon]. replace (Csub _ _) with C0 by csolve. rewrite size_0. lra.
  - exists s, Y. auto.
Qed.
