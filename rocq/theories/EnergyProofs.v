From Verif Require Import EnergySpec StepProofs Vec CVec Complex.
From Coq Require Import Lra Lia.
Open Scope R_scope.

(** ** Ideal mixture *)
Lemma dlim_ext (f g : R -> R) x l l' : (forall y, f y = g y) -> l = l' -> derivable_pt_lim f x l -> derivable_pt_lim g x l'.
Proof.
  intros E <- H eps He. destruct (H eps He) as [d Hd]. exists d. intros h Hh Hl. rewrite <- !E. exact (Hd h Hh Hl).
Qed.

Lemma dlim_poly4 a b c d e x : derivable_pt_lim (fun n => a + b * n + c * n ^ 2 + d * n ^ 3 + e * n ^ 4) x (b + 2 * c * x + 3 * d * x ^ 2 + 4 * e * x ^ 3).
Proof.
  apply (dlim_ext (fun y => sum_f_R0 (fun k => (nth k [a; b; c; d; e] 0) * y ^ k) 4) _ _
    (sum_f_R0 (fun k => INR (S k) * nth (S k) [a; b; c; d; e] 0 * x ^ k) 3)).
  - intros y. cbn [sum_f_R0 nth]. ring.
  - cbn [sum_f_R0 nth]. rewrite !S_INR. cbn [INR]. ring.
  - exact (derivable_pt_lim_fs (fun k => nth k [a; b; c; d; e] 0) x 4 ltac:(lia)).
Qed.

Lemma ideal_eval_doc m n : ideal_eval m n = n ^ 2 / 2 - im_c3 m * n ^ 3 / 6 + im_c4 m * n ^ 4 / 12.
Proof. unfold ideal_eval, quadratic_prefactor, third_prefactor, fourth_prefactor. field. Qed.

Lemma ideal_deriv_correct m n : derivable_pt_lim (ideal_eval m) n (ideal_deriv m n).
Proof.
  refine (dlim_ext _ _ _ _ _ _ _ (dlim_poly4 0 0 (1/2) (- im_c3 m / 6) (im_c4 m / 12) n)).
  - intros y. rewrite ideal_eval_doc. field.
  - unfold ideal_deriv, quadratic_prefactor, third_prefactor, fourth_prefactor. field.
Qed.

(** A function with value 0 at 0 and derivative of constant sign. *)
Lemma grow_from_zero (f f' : R -> R) x : 0 <= x -> f 0 = 0 ->
  (forall c, 0 <= c <= x -> derivable_pt_lim f c (f' c)) -> (forall c, 0 <= c <= x -> 0 <= f' c) -> 0 <= f x.
Proof.
  intros Hx H0 Hd Hp. destruct (Req_dec x 0) as [->|N]; [lra|].
  destruct (MVT_cor2 f f' 0 x ltac:(lra) Hd) as [c [E Hc]]. rewrite H0 in E.
  pose proof (Rmult_le_pos (f' c) (x - 0) (Hp c ltac:(lra)) ltac:(lra)). lra.
Qed.

Lemma dlim_mixing n : -1 < n -> derivable_pt_lim mixing_energy n (ln (1 + n)).
Proof.
  intros Hn. unfold mixing_energy.
  assert (A : derivable_pt_lim (fun x => 1 + x) n 1).
  { refine (dlim_ext _ _ _ _ _ _ _ (dlim_poly4 1 1 0 0 0 n)); intros; ring. }
  assert (L : derivable_pt_lim (fun x => ln (1 + x)) n (/ (1 + n) * 1)).
  { exact (derivable_pt_lim_comp (fun x => 1 + x) ln n 1 (/ (1 + n)) A (derivable_pt_lim_ln (1 + n) ltac:(lra))). }
  assert (I : derivable_pt_lim (fun x => x) n 1) by exact (derivable_pt_lim_id n).
  refine (dlim_ext _ _ _ _ _ _ _ (derivable_pt_lim_minus _ _ _ _ _ (derivable_pt_lim_mult _ _ _ _ _ A L) I)).
  - intros y. reflexivity.
  - cbv beta. field. lra.
Qed.

Lemma dlim_log_gap n : -1 < n -> derivable_pt_lim (fun x => x - x ^ 2 / 2 + x ^ 3 / 3 - ln (1 + x)) n (n ^ 3 / (1 + n)).
Proof.
  intros Hn.
  assert (A : derivable_pt_lim (fun x => 1 + x) n 1).
  { refine (dlim_ext _ _ _ _ _ _ _ (dlim_poly4 1 1 0 0 0 n)); intros; ring. }
  assert (L : derivable_pt_lim (fun x => ln (1 + x)) n (/ (1 + n) * 1)).
  { exact (derivable_pt_lim_comp (fun x => 1 + x) ln n 1 (/ (1 + n)) A (derivable_pt_lim_ln (1 + n) ltac:(lra))). }
  refine (dlim_ext _ _ _ _ _ _ _ (derivable_pt_lim_minus _ _ _ _ _ (dlim_poly4 0 1 (-1/2) (1/3) 0 n) L)).
  - intros y. unfold minus_fct. field.
  - field. lra.
Qed.

Lemma ideal_gap_deriv n : -1 < n ->
  derivable_pt_lim (fun x => ideal_eval {| im_c3 := 1; im_c4 := 1 |} x - mixing_energy x) n (n - n ^ 2 / 2 + n ^ 3 / 3 - ln (1 + n)).
Proof.
  intros Hn.
  refine (dlim_ext _ _ _ _ _ _ _ (derivable_pt_lim_minus _ _ _ _ _ (ideal_deriv_correct {| im_c3 := 1; im_c4 := 1 |} n) (dlim_mixing n Hn))).
  - intros y. reflexivity.
  - unfold ideal_deriv, quadratic_prefactor, third_prefactor, fourth_prefactor. cbn [im_c3 im_c4]. field.
Qed.

Lemma ln1_gap_nonneg n : 0 <= n -> 0 <= n - n ^ 2 / 2 + n ^ 3 / 3 - ln (1 + n) <= n ^ 4 / 4.
Proof.
  intros Hn. split.
  - apply (grow_from_zero (fun x => x - x ^ 2 / 2 + x ^ 3 / 3 - ln (1 + x)) (fun x => x ^ 3 / (1 + x)) n Hn).
    + rewrite Rplus_0_r, ln_1. field.
    + intros c Hc. apply dlim_log_gap. lra.
    + intros c Hc. apply Rmult_le_pos; [apply pow_le; lra|]. left. apply Rinv_0_lt_compat. lra.
  - cut (0 <= n ^ 4 / 4 - (n - n ^ 2 / 2 + n ^ 3 / 3 - ln (1 + n))); [lra|].
    apply (grow_from_zero (fun x => x ^ 4 / 4 - (x - x ^ 2 / 2 + x ^ 3 / 3 - ln (1 + x))) (fun x => x ^ 3 - x ^ 3 / (1 + x)) n Hn).
    + rewrite Rplus_0_r, ln_1. field.
    + intros c Hc. refine (dlim_ext _ _ _ _ _ _ _ (derivable_pt_lim_minus _ _ _ _ _ (dlim_poly4 0 0 0 0 (1/4) c) (dlim_log_gap c ltac:(lra)))).
      * intros y. unfold minus_fct. field.
      * field. lra.
    + intros c Hc. replace (c ^ 3 - c ^ 3 / (1 + c)) with (c ^ 4 / (1 + c)) by (field; lra).
      apply Rmult_le_pos; [apply pow_le; lra|]. left. apply Rinv_0_lt_compat. lra.
Qed.

Lemma ideal_expansion_pos n : 0 <= n ->
  0 <= ideal_eval {| im_c3 := 1; im_c4 := 1 |} n - mixing_energy n <= n ^ 5 / 20.
Proof.
  intros Hn.
  assert (Z : ideal_eval {| im_c3 := 1; im_c4 := 1 |} 0 - mixing_energy 0 = 0).
  { rewrite ideal_eval_doc. unfold mixing_energy. rewrite Rplus_0_r, ln_1. cbn [im_c3 im_c4]. field. }
  split.
  - apply (grow_from_zero (fun x => ideal_eval {| im_c3 := 1; im_c4 := 1 |} x - mixing_energy x) (fun x => x - x ^ 2 / 2 + x ^ 3 / 3 - ln (1 + x)) n Hn Z).
    + intros c Hc. apply ideal_gap_deriv. lra.
    + intros c Hc. apply ln1_gap_nonneg. lra.
  - cut (0 <= n ^ 5 / 20 - (ideal_eval {| im_c3 := 1; im_c4 := 1 |} n - mixing_energy n)); [lra|].
    apply (grow_from_zero (fun x => x ^ 5 / 20 - (ideal_eval {| im_c3 := 1; im_c4 := 1 |} x - mixing_energy x))
      (fun x => x ^ 4 / 4 - (x - x ^ 2 / 2 + x ^ 3 / 3 - ln (1 + x))) n Hn).
    + rewrite Z. field.
    + intros c Hc. refine (dlim_ext _ _ _ _ _ _ _ (derivable_pt_lim_minus _ _ _ _ _
        (derivable_pt_lim_mult _ _ _ _ _ (dlim_poly4 0 1 0 0 0 c) (dlim_poly4 0 0 0 0 (1/20) c)) (ideal_gap_deriv c ltac:(lra)))).
      * intros y. unfold minus_fct, mult_fct. field.
      * field.
    + intros c Hc. pose proof (ln1_gap_nonneg c ltac:(lra)). lra.
Qed.

(** ** Pair correlation *)
Lemma pair_loop_ge temp k peaks : forall r, r <= pair_loop temp k peaks r.
Proof.
  induction peaks as [|p peaks IH]; intros r; cbn [pair_loop]; [lra|].
  destruct (Rlt_dec r (peak_value temp k p)) as [L|L].
  - pose proof (IH (peak_value temp k p)). lra.
  - apply IH.
Qed.
Lemma pair_loop_upper temp k peaks : forall r p, In p peaks -> peak_value temp k p <= pair_loop temp k peaks r.
Proof.
  induction peaks as [|q peaks IH]; intros r p Hin; cbn [pair_loop]; [destruct Hin|].
  destruct Hin as [->|Hin]; [|apply IH; exact Hin].
  destruct (Rlt_dec r (peak_value temp k p)) as [L|L]; [apply pair_loop_ge|].
  pose proof (pair_loop_ge temp k peaks r). lra.
Qed.
Lemma pair_loop_attained temp k peaks : forall r, pair_loop temp k peaks r = r \/ exists p, In p peaks /\ pair_loop temp k peaks r = peak_value temp k p.
Proof.
  induction peaks as [|q peaks IH]; intros r; cbn [pair_loop]; [left; reflexivity|].
  destruct (Rlt_dec r (peak_value temp k q)) as [L|L].
  - destruct (IH (peak_value temp k q)) as [E|[p [Hp E]]].
    + right. exists q. split; [left; reflexivity|exact E].
    + right. exists p. split; [right; exact Hp|exact E].
  - destruct (IH r) as [E|[p [Hp E]]]; [left; exact E|].
    right. exists p. split; [right; exact Hp|exact E].
Qed.

Lemma peak_value_pos temp k p : 0 < peak_value temp k p.
Proof. apply Rmult_lt_0_compat; apply exp_pos. Qed.

Lemma exp_le x y : x <= y -> exp x <= exp y.
Proof. intros [H| ->]; [left; apply exp_increasing; exact H|lra]. Qed.

Lemma pair_eval_attained temp peaks k : peaks <> [] -> exists p, In p peaks /\ pair_eval temp peaks k = peak_value temp k p.
Proof.
  intros NE. destruct (pair_loop_attained temp k peaks 0) as [E|H]; [|exact H].
  destruct peaks as [|q peaks]; [congruence|].
  pose proof (pair_loop_upper temp k (q :: peaks) 0 q ltac:(left; reflexivity)).
  pose proof (peak_value_pos temp k q). lra.
Qed.

Definition peak_ok (p : peak) : Prop := 0 < pk_density p * IZR (pk_planes p).

Lemma damping_le temp k p : peak_ok p -> - temp * temp * k * k / (2 * pk_density p * IZR (pk_planes p)) <= 0.
Proof.
  intros H. unfold peak_ok in H. unfold Rdiv.
  replace (- temp * temp * k * k * / (2 * pk_density p * IZR (pk_planes p))) with
    (- ((temp * k) * (temp * k) * / (2 * (pk_density p * IZR (pk_planes p))))).
  - pose proof (Rle_0_sqr (temp * k)) as S. unfold Rsqr in S.
    pose proof (Rinv_0_lt_compat (2 * (pk_density p * IZR (pk_planes p))) ltac:(lra)).
    pose proof (Rmult_le_pos _ _ S (Rlt_le _ _ H0)). lra.
  - replace (2 * pk_density p * IZR (pk_planes p)) with (2 * (pk_density p * IZR (pk_planes p))) by ring. ring.
Qed.

Lemma peak_value_le_1 temp k p : peak_ok p -> peak_value temp k p <= 1.
Proof.
  intros H. unfold peak_value. rewrite <- exp_plus. apply (Rle_trans _ (exp 0)); [apply exp_le|rewrite exp_0; lra].
  pose proof (damping_le temp k p H). pose proof (pow2_ge_0 ((k - pk_location p) / pk_width p)). lra.
Qed.

Lemma pair_eval_range temp peaks k : Forall peak_ok peaks -> 0 <= pair_eval temp peaks k <= 1.
Proof.
  intros H. split; [exact (pair_loop_ge temp k peaks 0)|].
  destruct (pair_loop_attained temp k peaks 0) as [E|[p [Hp E]]]; unfold pair_eval; rewrite E; [lra|].
  apply peak_value_le_1. rewrite Forall_forall in H. exact (H p Hp).
Qed.

Lemma peak_value_temp t1 t2 k p : peak_ok p -> 0 <= t1 <= t2 -> peak_value t2 k p <= peak_value t1 k p.
Proof.
  intros H Ht. unfold peak_value. apply Rmult_le_compat_r; [left; apply exp_pos|]. apply exp_le.
  unfold peak_ok in H. unfold Rdiv. apply Rmult_le_compat_r.
  - left. apply Rinv_0_lt_compat. rewrite Rmult_assoc. lra.
  - assert (t1 * t1 <= t2 * t2) by nra. pose proof (Rle_0_sqr k) as S. unfold Rsqr in S.
    pose proof (Rmult_le_compat_r _ _ _ S H0). lra.
Qed.

Lemma pair_eval_temp t1 t2 peaks k : Forall peak_ok peaks -> 0 <= t1 <= t2 -> pair_eval t2 peaks k <= pair_eval t1 peaks k.
Proof.
  intros H Ht. destruct (pair_loop_attained t2 k peaks 0) as [E|[p [Hp E]]]; unfold pair_eval at 1; rewrite E.
  - exact (pair_loop_ge t1 k peaks 0).
  - rewrite Forall_forall in H. pose proof (peak_value_temp t1 t2 k p (H p Hp) Ht).
    pose proof (pair_loop_upper t1 k peaks 0 p Hp). unfold pair_eval. lra.
Qed.

Lemma pair_eval_top peaks p : Forall peak_ok peaks -> In p peaks -> pair_eval 0 peaks (pk_location p) = 1.
Proof.
  intros H Hp. apply Rle_antisym; [apply pair_eval_range; exact H|].
  assert (E : peak_value 0 (pk_location p) p = 1).
  { unfold peak_value. rewrite <- exp_plus. transitivity (exp 0); [f_equal; unfold Rdiv; ring|exact exp_0]. }
  rewrite <- E. exact (pair_loop_upper 0 _ peaks 0 p Hp).
Qed.

(** ** BoundTransform *)
Lemma atan_range x : - (1 / 2) < atan x / PI < 1 / 2.
Proof.
  pose proof (atan_bound x) as [A B]. pose proof PI_RGT_0 as P.
  split; apply (Rmult_lt_reg_r PI _ _ P); unfold Rdiv; rewrite Rmult_assoc, Rinv_l by lra; lra.
Qed.

Lemma bound_forward_range lo hi x : lo < hi -> lo < bound_forward lo hi x < hi.
Proof. intros H. unfold bound_forward. pose proof (atan_range x). split; nra. Qed.

Lemma bound_back_forward lo hi x : lo < hi -> bound_backward lo hi (bound_forward lo hi x) = x.
Proof.
  intros H. unfold bound_backward, bound_forward.
  replace (PI * (lo + (hi - lo) * (atan x / PI + 1 / 2) - lo) / (hi - lo) - 1 / 2 * PI) with (atan x).
  - apply tan_atan.
  - field. pose proof PI_RGT_0. split; lra.
Qed.

Lemma bound_forward_back lo hi y : lo < y < hi -> bound_forward lo hi (bound_backward lo hi y) = y.
Proof.
  intros H. unfold bound_backward, bound_forward. pose proof PI_RGT_0 as P. rewrite atan_tan.
  - field. lra.
  - assert (0 < (y - lo) / (hi - lo) < 1) as [A B].
    { split; [apply Rdiv_lt_0_compat; lra|]. apply (Rmult_lt_reg_r (hi - lo)); [lra|].
      unfold Rdiv. rewrite Rmult_assoc, Rinv_l; lra. }
    replace (PI * (y - lo) / (hi - lo)) with (PI * ((y - lo) / (hi - lo))) by (field; lra). split; nra.
Qed.

Lemma bound_forward_increasing lo hi x y : lo < hi -> x < y -> bound_forward lo hi x < bound_forward lo hi y.
Proof.
  intros H L. unfold bound_forward. pose proof (atan_increasing x y L) as A. pose proof PI_RGT_0 as P.
  assert (atan x / PI < atan y / PI) by (apply Rmult_lt_compat_r; [apply Rinv_0_lt_compat; lra|lra]). nra.
Qed.
