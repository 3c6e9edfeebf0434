(** Polynomials in the amplitudes of all fields and their third order
    expansion (analysis only, no model). *)
From Coq Require Import Reals Lra Lia List.
From Verif Require Import ConvergeSpec LimitProofs.
From Verif Require Import Complex.
Open Scope R_scope.

Inductive pexp := PConst (c : C) | PVar (i k : nat) | PAdd (p q : pexp) | PMul (p q : pexp).
Fixpoint eval (p : pexp) (x : grid) : C :=
  match p with PConst c => c | PVar i k => x i k | PAdd p q => Cadd (eval p x) (eval q x) | PMul p q => Cmul (eval p x) (eval q x) end.
Fixpoint d1 (p : pexp) (x a : grid) : C :=
  match p with
  | PConst _ => C0 | PVar i k => a i k | PAdd p q => Cadd (d1 p x a) (d1 q x a)
  | PMul p q => Cadd (Cmul (d1 p x a) (eval q x)) (Cmul (eval p x) (d1 q x a))
  end.
Fixpoint d2 (p : pexp) (x a b : grid) : C :=
  match p with
  | PConst _ => C0 | PVar i k => C0 | PAdd p q => Cadd (d2 p x a b) (d2 q x a b)
  | PMul p q => Cadd (Cadd (Cmul (d2 p x a b) (eval q x)) (Cmul (d1 p x a) (d1 q x b))) (Cmul (eval p x) (d2 q x a b))
  end.
Fixpoint d3 (p : pexp) (x a b c : grid) : C :=
  match p with
  | PConst _ => C0 | PVar i k => C0 | PAdd p q => Cadd (d3 p x a b c) (d3 q x a b c)
  | PMul p q => Cadd (Cadd (Cmul (d3 p x a b c) (eval q x)) (Cmul (d2 p x a b) (d1 q x c))) (Cadd (Cmul (d1 p x a) (d2 q x b c)) (Cmul (eval p x) (d3 q x a b c)))
  end.
Definition gadd (a b : grid) : grid := fun i k => Cadd (a i k) (b i k).
Definition gscal (c : R) (a : grid) : grid := fun i k => Cmul (RtoC c) (a i k).

Lemma d1_add p x a b : d1 p x (gadd a b) = Cadd (d1 p x a) (d1 p x b).
Proof. induction p; cbn [d1]; [csolve|reflexivity|rewrite IHp1, IHp2; csolve|rewrite IHp1, IHp2; csolve]. Qed.
Lemma d1_scal p x c a : d1 p x (gscal c a) = Cmul (RtoC c) (d1 p x a).
Proof. induction p; cbn [d1]; [csolve|reflexivity|rewrite IHp1, IHp2; csolve|rewrite IHp1, IHp2; csolve]. Qed.
Lemma d2_add_l p x a b c : d2 p x (gadd a b) c = Cadd (d2 p x a c) (d2 p x b c).
Proof. induction p; cbn [d2]; [csolve|csolve|rewrite IHp1, IHp2, ?d1_add; csolve|rewrite IHp1, IHp2, ?d1_add; csolve]. Qed.
Lemma d2_add_r p x a b c : d2 p x a (gadd b c) = Cadd (d2 p x a b) (d2 p x a c).
Proof. induction p; cbn [d2]; [csolve|csolve|rewrite IHp1, IHp2, ?d1_add; csolve|rewrite IHp1, IHp2, ?d1_add; csolve]. Qed.
Lemma d2_scal_l p x s a b : d2 p x (gscal s a) b = Cmul (RtoC s) (d2 p x a b).
Proof. induction p; cbn [d2]; [csolve|csolve|rewrite IHp1, IHp2, ?d1_scal; csolve|rewrite IHp1, IHp2, ?d1_scal; csolve]. Qed.
Lemma d2_scal_r p x s a b : d2 p x a (gscal s b) = Cmul (RtoC s) (d2 p x a b).
Proof. induction p; cbn [d2]; [csolve|csolve|rewrite IHp1, IHp2, ?d1_scal; csolve|rewrite IHp1, IHp2, ?d1_scal; csolve]. Qed.
Lemma d3_add_1 p x a a' b c : d3 p x (gadd a a') b c = Cadd (d3 p x a b c) (d3 p x a' b c).
Proof. induction p; cbn [d3]; [csolve|csolve|rewrite IHp1, IHp2, ?d1_add, ?d2_add_l; csolve|rewrite IHp1, IHp2, ?d1_add, ?d2_add_l; csolve]. Qed.
Lemma d3_add_2 p x a b b' c : d3 p x a (gadd b b') c = Cadd (d3 p x a b c) (d3 p x a b' c).
Proof. induction p; cbn [d3]; [csolve|csolve|rewrite IHp1, IHp2, ?d1_add, ?d2_add_l, ?d2_add_r; csolve|rewrite IHp1, IHp2, ?d1_add, ?d2_add_l, ?d2_add_r; csolve]. Qed.
Lemma d3_add_3 p x a b c c' : d3 p x a b (gadd c c') = Cadd (d3 p x a b c) (d3 p x a b c').
Proof. induction p; cbn [d3]; [csolve|csolve|rewrite IHp1, IHp2, ?d1_add, ?d2_add_r; csolve|rewrite IHp1, IHp2, ?d1_add, ?d2_add_r; csolve]. Qed.
Lemma d3_scal_1 p x s a b c : d3 p x (gscal s a) b c = Cmul (RtoC s) (d3 p x a b c).
Proof. induction p; cbn [d3]; [csolve|csolve|rewrite IHp1, IHp2, ?d1_scal, ?d2_scal_l; csolve|rewrite IHp1, IHp2, ?d1_scal, ?d2_scal_l; csolve]. Qed.
Lemma d3_scal_2 p x s a b c : d3 p x a (gscal s b) c = Cmul (RtoC s) (d3 p x a b c).
Proof. induction p; cbn [d3]; [csolve|csolve|rewrite IHp1, IHp2, ?d1_scal, ?d2_scal_l, ?d2_scal_r; csolve|rewrite IHp1, IHp2, ?d1_scal, ?d2_scal_l, ?d2_scal_r; csolve]. Qed.
Lemma d3_scal_3 p x s a b c : d3 p x a b (gscal s c) = Cmul (RtoC s) (d3 p x a b c).
Proof. induction p; cbn [d3]; [csolve|csolve|rewrite IHp1, IHp2, ?d1_scal, ?d2_scal_r; csolve|rewrite IHp1, IHp2, ?d1_scal, ?d2_scal_r; csolve]. Qed.

(** Bounds of sums and products. *)
Lemma size_add_le a b x y : size a <= x -> size b <= y -> size (Cadd a b) <= x + y.
Proof. intros. eapply Rle_trans; [apply size_add|lra]. Qed.
Lemma size_mul_le a b x y : size a <= x -> size b <= y -> size (Cmul a b) <= x * y.
Proof. intros. eapply Rle_trans; [apply size_mul|]. apply Rmult_le_compat; try apply size_pos; assumption. Qed.
Lemma size_mono a x y : size a <= x -> x <= y -> size a <= y.
Proof. lra. Qed.

Section Bounds.
  Variables nf n : nat.
  Fixpoint inside (p : pexp) : Prop :=
    match p with PConst _ => True | PVar i k => (i < nf)%nat /\ (k < n)%nat | PAdd p q => inside p /\ inside q | PMul p q => inside p /\ inside q end.
  Notation wi := (within nf n).

  Lemma eval_bound p : inside p -> forall r, 0 <= r -> exists K, 0 <= K /\ forall x, wi r x -> size (eval p x) <= K.
  Proof.
    induction p as [c|i k|p IHp q IHq|p IHp q IHq]; intros HI r Hr; cbn [eval].
    - exists (size c). split; [apply size_pos|]. intros. lra.
    - exists r. split; [exact Hr|]. intros x Hx. apply Hx; apply HI.
    - destruct (IHp (proj1 HI) r Hr) as (K & HK & H1), (IHq (proj2 HI) r Hr) as (K' & HK' & H2). exists (K + K'). split; [lra|]. intros x Hx. apply size_add_le; auto.
    - destruct (IHp (proj1 HI) r Hr) as (K & HK & H1), (IHq (proj2 HI) r Hr) as (K' & HK' & H2). exists (K * K'). split; [apply Rmult_le_pos; assumption|]. intros x Hx. apply size_mul_le; auto.
  Qed.
  Lemma eval_lipschitz p : inside p -> forall r, 0 <= r -> exists K, 0 <= K /\ forall x y e, 0 <= e -> wi r x -> wi r y -> near nf n e x y -> size (Csub (eval p x) (eval p y)) <= K * e.
  Proof.
    induction p as [c|i k|p IHp q IHq|p IHp q IHq]; intros HI r Hr; cbn [eval].
    - exists 0. split; [lra|]. intros. replace (Csub c c) with C0 by csolve. rewrite size_0. lra.
    - exists 1. split; [lra|]. intros x y e He Hx Hy Hn. rewrite Rmult_1_l. apply Hn; apply HI.
    - destruct (IHp (proj1 HI) r Hr) as (K & HK & H1), (IHq (proj2 HI) r Hr) as (K' & HK' & H2). exists (K + K'). split; [lra|]. intros x y e He Hx Hy Hn.
      replace (Csub _ _) with (Cadd (Csub (eval p x) (eval p y)) (Csub (eval q x) (eval q y))) by csolve. rewrite Rmult_plus_distr_r. apply size_add_le; auto.
    - destruct (IHp (proj1 HI) r Hr) as (K & HK & H1), (IHq (proj2 HI) r Hr) as (K' & HK' & H2). destruct (eval_bound p (proj1 HI) r Hr) as (M & HM & B1), (eval_bound q (proj2 HI) r Hr) as (M' & HM' & B2).
      exists (K * M' + M * K'). split; [apply Rplus_le_le_0_compat; apply Rmult_le_pos; assumption|]. intros x y e He Hx Hy Hn.
      replace (Csub _ _) with (Cadd (Cmul (Csub (eval p x) (eval p y)) (eval q x)) (Cmul (eval p y) (Csub (eval q x) (eval q y)))) by csolve.
      replace ((K * M' + M * K') * e) with (K * e * M' + M * (K' * e)) by ring. apply size_add_le; apply size_mul_le; auto.
  Qed.

  Lemma derivative_bounds p : inside p -> forall r, 0 <= r -> exists K, 0 <= K /\ forall x, wi r x ->
    size (eval p x) <= K
    /\ (forall a e, 0 <= e -> wi e a -> size (d1 p x a) <= K * e)
    /\ (forall a b e f, 0 <= e -> 0 <= f -> wi e a -> wi f b -> size (d2 p x a b) <= K * (e * f))
    /\ (forall a b c e f g, 0 <= e -> 0 <= f -> 0 <= g -> wi e a -> wi f b -> wi g c -> size (d3 p x a b c) <= K * (e * f * g)).
  Proof.
    induction p as [c|i k|p IHp q IHq|p IHp q IHq]; intros HI r Hr.
    - exists (size c). pose proof (size_pos c). split; [lra|]. intros x Hx. cbn [eval d1 d2 d3]. rewrite size_0. split; [lra|].
      split; [intros; apply Rmult_le_pos; lra|]. split; intros; repeat apply Rmult_le_pos; assumption.
    - exists (r + 1). split; [lra|]. intros x Hx. cbn [eval d1 d2 d3]. rewrite size_0. split; [pose proof (Hx i k (proj1 HI) (proj2 HI)); lra|].
      split; [intros a e He Ha; pose proof (Ha i k (proj1 HI) (proj2 HI)); assert (0 <= r * e) by (apply Rmult_le_pos; assumption); lra|]. split; intros; repeat apply Rmult_le_pos; lra.
    - destruct (IHp (proj1 HI) r Hr) as (K & HK & H1), (IHq (proj2 HI) r Hr) as (K' & HK' & H2). exists (K + K'). split; [lra|]. intros x Hx.
      destruct (H1 x Hx) as (A0 & A1 & A2 & A3), (H2 x Hx) as (B0 & B1 & B2 & B3). cbn [eval d1 d2 d3].
      split; [apply size_add_le; assumption|]. split; [|split]; intros; rewrite Rmult_plus_distr_r; apply size_add_le; auto.
    - destruct (IHp (proj1 HI) r Hr) as (K & HK & H1), (IHq (proj2 HI) r Hr) as (K' & HK' & H2). assert (P : 0 <= K * K') by (apply Rmult_le_pos; assumption).
      exists (4 * (K * K')). split; [lra|]. intros x Hx. destruct (H1 x Hx) as (A0 & A1 & A2 & A3), (H2 x Hx) as (B0 & B1 & B2 & B3). cbn [eval d1 d2 d3].
      split; [apply size_mono with (K * K'); [apply size_mul_le; assumption|lra]|]. split; [|split].
      + intros a e He Ha. assert (0 <= K * K' * e) by (apply Rmult_le_pos; assumption).
        apply size_mono with (K * e * K' + K * (K' * e)); [apply size_add_le; apply size_mul_le; auto|]. lra.
      + intros a b e f He Hf Ha Hb. assert (0 <= K * K' * (e * f)) by (apply Rmult_le_pos; [assumption|apply Rmult_le_pos; assumption]).
        apply size_mono with (K * (e * f) * K' + K * e * (K' * f) + K * (K' * (e * f))); [repeat apply size_add_le; apply size_mul_le; auto|]. lra.
      + intros a b c e f g He Hf Hg Ha Hb Hc. assert (0 <= K * K' * (e * f * g)) by (apply Rmult_le_pos; [assumption|repeat apply Rmult_le_pos; assumption]).
        apply size_mono with (K * (e * f * g) * K' + K * (e * f) * (K' * g) + (K * e * (K' * (f * g)) + K * (K' * (e * f * g)))); [repeat apply size_add_le; apply size_mul_le; auto|]. lra.
  Qed.

  Lemma expansion p : inside p -> forall r, 0 <= r -> exists K, 0 <= K /\ forall x d e, wi r x -> 0 <= e <= 1 -> wi e d ->
    size (Csub (eval p (gadd x d)) (Cadd (Cadd (eval p x) (d1 p x d)) (Cadd (d2 p x d d) (d3 p x d d d)))) <= K * e ^ 4.
  Proof.
    induction p as [c|i k|p IHp q IHq|p IHp q IHq]; intros HI r Hr.
    - exists 0. split; [lra|]. intros. cbn [eval d1 d2 d3]. replace (Csub _ _) with C0 by csolve. rewrite size_0. lra.
    - exists 0. split; [lra|]. intros. cbn [eval d1 d2 d3]. unfold gadd. replace (Csub _ _) with C0 by csolve. rewrite size_0. lra.
    - destruct (IHp (proj1 HI) r Hr) as (K & HK & H1), (IHq (proj2 HI) r Hr) as (K' & HK' & H2). exists (K + K'). split; [lra|]. intros x d e Hx He Hd. cbn [eval d1 d2 d3].
      rewrite Rmult_plus_distr_r. eapply size_mono; [|apply Rle_refl].
      replace (Csub _ _) with (Cadd (Csub (eval p (gadd x d)) (Cadd (Cadd (eval p x) (d1 p x d)) (Cadd (d2 p x d d) (d3 p x d d d))))
        (Csub (eval q (gadd x d)) (Cadd (Cadd (eval q x) (d1 q x d)) (Cadd (d2 q x d d) (d3 q x d d d))))) by csolve.
      apply size_add_le; auto.
    - destruct (IHp (proj1 HI) r Hr) as (K & HK & H1), (IHq (proj2 HI) r Hr) as (K' & HK' & H2).
      destruct (derivative_bounds p (proj1 HI) (r + 1) ltac:(lra)) as (M & HM & A), (derivative_bounds q (proj2 HI) (r + 1) ltac:(lra)) as (M' & HM' & B).
      exists (6 * (M * M') + K * M' + 4 * (M * K')).
      assert (P1 : 0 <= M * M') by (apply Rmult_le_pos; assumption). assert (P2 : 0 <= K * M') by (apply Rmult_le_pos; assumption). assert (P3 : 0 <= M * K') by (apply Rmult_le_pos; assumption).
      split; [lra|]. intros x d e Hx He Hd. cbn [eval d1 d2 d3].
      assert (Wx : wi (r + 1) x) by (intros i k Hi Hk; pose proof (Hx i k Hi Hk); lra).
      assert (Wd : wi (r + 1) (gadd x d)) by (intros i k Hi Hk; pose proof (Hx i k Hi Hk); pose proof (Hd i k Hi Hk); unfold gadd; eapply Rle_trans; [apply size_add|lra]).
      destruct (A x Wx) as (A0 & A1 & A2 & A3), (B x Wx) as (B0 & B1 & B2 & B3). destruct (B _ Wd) as (Bd & _).
      specialize (H1 x d e Hx He Hd). specialize (H2 x d e Hx He Hd).
      assert (E : 0 <= e) by lra. specialize (A1 d e E Hd). specialize (A2 d d e e E E Hd Hd). specialize (A3 d d d e e e E E E Hd Hd Hd).
      specialize (B1 d e E Hd). specialize (B2 d d e e E E Hd Hd). specialize (B3 d d d e e e E E E Hd Hd Hd).
      set (p0 := eval p x) in *. set (p1 := d1 p x d) in *. set (p2 := d2 p x d d) in *. set (p3 := d3 p x d d d) in *. set (pd := eval p (gadd x d)) in *.
      set (q0 := eval q x) in *. set (q1 := d1 q x d) in *. set (q2 := d2 q x d d) in *. set (q3 := d3 q x d d d) in *. set (qd := eval q (gadd x d)) in *.
      set (u := Csub pd (Cadd (Cadd p0 p1) (Cadd p2 p3))) in *. set (v := Csub qd (Cadd (Cadd q0 q1) (Cadd q2 q3))) in *.
      replace (Csub _ _) with (Cadd (Cadd (Cadd (Cmul p1 q3) (Cadd (Cmul p2 q2) (Cmul p3 q1))) (Cadd (Cmul p2 q3) (Cadd (Cmul p3 q2) (Cmul p3 q3))))
        (Cadd (Cmul u qd) (Cmul (Cadd (Cadd p0 p1) (Cadd p2 p3)) v))) by (unfold u, v; csolve).
      assert (e2 : 0 <= e * e <= 1) by nra. assert (E2 : e * e <= e) by nra. assert (e4 : 0 <= e ^ 4 <= 1) by (split; [apply pow_le; lra|rewrite <- (pow1 4); apply pow_incr; lra]).
      assert (X5 : e ^ 5 <= e ^ 4) by (replace (e ^ 5) with (e ^ 4 * e) by ring; nra). assert (X6 : e ^ 6 <= e ^ 4) by (replace (e ^ 6) with (e ^ 4 * (e * e)) by ring; nra).
      assert (Y5 : M * M' * e ^ 5 <= M * M' * e ^ 4) by (apply Rmult_le_compat_l; assumption). assert (Y6 : M * M' * e ^ 6 <= M * M' * e ^ 4) by (apply Rmult_le_compat_l; assumption).
      assert (Q1 : size p1 <= M * 1) by (eapply size_mono; [exact A1|apply Rmult_le_compat_l; lra]).
      assert (Q2 : size p2 <= M * 1) by (eapply size_mono; [exact A2|apply Rmult_le_compat_l; lra]).
      assert (Q3 : size p3 <= M * 1) by (eapply size_mono; [exact A3|apply Rmult_le_compat_l; [assumption|]; nra]).
      apply size_mono with ((M * e * (M' * (e * e * e)) + (M * (e * e) * (M' * (e * e)) + M * (e * e * e) * (M' * e)) + (M * (e * e) * (M' * (e * e * e)) + (M * (e * e * e) * (M' * (e * e)) + M * (e * e * e) * (M' * (e * e * e)))))
        + (K * e ^ 4 * M' + (M + M * 1 + (M * 1 + M * 1)) * (K' * e ^ 4))).
      + apply size_add_le; [apply size_add_le; (apply size_add_le; [|apply size_add_le]); apply size_mul_le; assumption|]. apply size_add_le; apply size_mul_le; try assumption.
        apply size_add_le; apply size_add_le; assumption.
      + assert (Z : M * M' * e ^ 6 = M * (e * e * e) * (M' * (e * e * e))) by ring. assert (Z5 : M * M' * e ^ 5 = M * (e * e) * (M' * (e * e * e))) by ring. assert (Z5' : M * M' * e ^ 5 = M * (e * e * e) * (M' * (e * e))) by ring.
        rewrite <- Z, <- Z5, <- Z5'.
        replace (M * e * (M' * (e * e * e))) with (M * M' * e ^ 4) by ring. replace (M * (e * e) * (M' * (e * e))) with (M * M' * e ^ 4) by ring. replace (M * (e * e * e) * (M' * e)) with (M * M' * e ^ 4) by ring.
        replace (K * e ^ 4 * M') with (K * M' * e ^ 4) by ring. replace ((M + M * 1 + (M * 1 + M * 1)) * (K' * e ^ 4)) with (4 * (M * K') * e ^ 4) by ring.
        replace ((6 * (M * M') + K * M' + 4 * (M * K')) * e ^ 4) with (6 * (M * M' * e ^ 4) + K * M' * e ^ 4 + 4 * (M * K') * e ^ 4) by ring. lra.
  Qed.

  (** Along a curve s u1 + s^2 u2 + s^3 u3. *)
  Definition curve (s : R) (u1 u2 u3 : grid) : grid := gadd (gscal s u1) (gadd (gscal (s ^ 2) u2) (gscal (s ^ 3) u3)).
  Definition along (p : pexp) (x u1 u2 u3 : grid) (s : R) : C :=
    Cadd (Cadd (eval p x) (Cmul (RtoC s) (d1 p x u1)))
         (Cadd (Cmul (RtoC (s ^ 2)) (Cadd (d1 p x u2) (d2 p x u1 u1)))
               (Cmul (RtoC (s ^ 3)) (Cadd (Cadd (d1 p x u3) (Cadd (d2 p x u1 u2) (d2 p x u2 u1))) (d3 p x u1 u1 u1)))).
  Lemma size_scal s z b : size z <= b -> size (Cmul (RtoC s) z) <= Rabs s * b.
  Proof. intros H. rewrite size_real. apply Rmult_le_compat_l; [apply Rabs_pos|exact H]. Qed.
  Lemma along_curve p : inside p -> forall r R, 0 <= r -> 0 <= R -> exists K, 0 <= K /\ forall x u1 u2 u3 s, wi r x -> wi R u1 -> wi R u2 -> wi R u3 -> 0 <= s <= 1 -> 3 * R * s <= 1 ->
    size (Csub (eval p (gadd x (curve s u1 u2 u3))) (along p x u1 u2 u3 s)) <= K * s ^ 4.
  Proof.
    intros HI r R Hr HR. destruct (expansion p HI r Hr) as (K & HK & HE). destruct (derivative_bounds p HI r Hr) as (M & HM & HB).
    exists (K * (3 * R) ^ 4 + M * (6 * (R * R)) + M * (26 * (R * R * R))).
    assert (PR : 0 <= R * R) by (apply Rmult_le_pos; assumption). assert (PRR : 0 <= R * R * R) by (apply Rmult_le_pos; assumption).
    assert (P1 : 0 <= M * (R * R)) by (apply Rmult_le_pos; assumption). assert (P2 : 0 <= M * (R * R * R)) by (apply Rmult_le_pos; assumption).
    split. { assert (0 <= K * (3 * R) ^ 4) by (apply Rmult_le_pos; [assumption|apply pow_le; lra]). lra. }
    intros x u1 u2 u3 s Hx H1 H2 H3 Hs Hs3. destruct (HB x Hx) as (_ & D1 & D2 & D3).
    set (v := gadd u2 (gscal s u3)).
    assert (Wv : wi (2 * R) v). { intros i k Hi Hk. unfold v, gadd, gscal. eapply size_mono; [apply size_add_le; [apply H2; assumption|apply (size_scal s _ R); apply H3; assumption]|]. rewrite Rabs_right by lra. nra. }
    assert (Ed : curve s u1 u2 u3 = gadd (gscal s u1) (gscal (s ^ 2) v)).
    { unfold curve, v, gadd, gscal. apply FunctionalExtensionality.functional_extensionality. intros i. apply FunctionalExtensionality.functional_extensionality. intros k. csolve. }
    assert (Wd : wi (3 * R * s) (curve s u1 u2 u3)).
    { rewrite Ed. intros i k Hi Hk. unfold gadd, gscal. eapply size_mono; [apply size_add_le; [apply (size_scal s _ R); apply H1; assumption|apply (size_scal (s ^ 2) _ (2 * R)); apply Wv; assumption]|].
      rewrite Rabs_right by lra. rewrite Rabs_right by (apply Rle_ge, pow_le; lra). assert (s ^ 2 <= s) by (cbn [pow]; nra). assert (s ^ 2 * (2 * R) <= s * (2 * R)) by (apply Rmult_le_compat_r; lra). lra. }
    assert (Ps : 0 <= 3 * R * s) by (apply Rmult_le_pos; lra).
    specialize (HE x (curve s u1 u2 u3) (3 * R * s) Hx ltac:(lra) Wd).
    set (ev := eval p (gadd x (curve s u1 u2 u3))) in *. rewrite Ed in HE.
    rewrite d1_add, !d1_scal, d2_add_l, !d2_add_r, !d2_scal_l, !d2_scal_r, !d3_add_1, !d3_add_2, !d3_add_3, !d3_scal_1, !d3_scal_2, !d3_scal_3 in HE.
    assert (V1 : d1 p x v = Cadd (d1 p x u2) (Cmul (RtoC s) (d1 p x u3))) by (unfold v; rewrite d1_add, d1_scal; reflexivity).
    assert (V2 : d2 p x u1 v = Cadd (d2 p x u1 u2) (Cmul (RtoC s) (d2 p x u1 u3))) by (unfold v; rewrite d2_add_r, d2_scal_r; reflexivity).
    assert (V3 : d2 p x v u1 = Cadd (d2 p x u2 u1) (Cmul (RtoC s) (d2 p x u3 u1))) by (unfold v; rewrite d2_add_l, d2_scal_l; reflexivity).
    rewrite V1, V2, V3 in HE.
    assert (PR2 : 0 <= 2 * R) by lra.
    pose proof (D2 u1 u3 R R HR HR H1 H3) as B1. pose proof (D2 u3 u1 R R HR HR H3 H1) as B2. pose proof (D2 v v (2 * R) (2 * R) PR2 PR2 Wv Wv) as B3.
    pose proof (D3 u1 u1 v R R (2 * R) HR HR PR2 H1 H1 Wv) as C1_. pose proof (D3 u1 v u1 R (2 * R) R HR PR2 HR H1 Wv H1) as C2_. pose proof (D3 v u1 u1 (2 * R) R R PR2 HR HR Wv H1 H1) as C3_.
    pose proof (D3 u1 v v R (2 * R) (2 * R) HR PR2 PR2 H1 Wv Wv) as C4_. pose proof (D3 v u1 v (2 * R) R (2 * R) PR2 HR PR2 Wv H1 Wv) as C5_. pose proof (D3 v v u1 (2 * R) (2 * R) R PR2 PR2 HR Wv Wv H1) as C6_.
    pose proof (D3 v v v (2 * R) (2 * R) (2 * R) PR2 PR2 PR2 Wv Wv Wv) as C7_.
    set (a1 := d1 p x u1) in *. set (a2 := d1 p x u2) in *. set (a3 := d1 p x u3) in *. set (b11 := d2 p x u1 u1) in *. set (b12 := d2 p x u1 u2) in *. set (b21 := d2 p x u2 u1) in *.
    set (b13 := d2 p x u1 u3) in *. set (b31 := d2 p x u3 u1) in *. set (bvv := d2 p x v v) in *. set (c111 := d3 p x u1 u1 u1) in *.
    set (e1 := d3 p x u1 u1 v) in *. set (e2 := d3 p x u1 v u1) in *. set (e3 := d3 p x v u1 u1) in *. set (e4 := d3 p x u1 v v) in *. set (e5 := d3 p x v u1 v) in *. set (e6 := d3 p x v v u1) in *. set (e7 := d3 p x v v v) in *.
    set (p0 := eval p x) in *. unfold along. fold a1 a2 a3 b11 b12 b21 c111 p0.
    match type of HE with size (Csub ev ?Z) <= _ => set (zz := Z) in * end.
    replace (Csub ev _) with (Cadd (Csub ev zz) (Cadd (Cadd (Cmul (RtoC (s ^ 4)) b13) (Cadd (Cmul (RtoC (s ^ 4)) b31) (Cmul (RtoC (s ^ 4)) bvv)))
      (Cadd (Cadd (Cmul (RtoC (s ^ 4)) e1) (Cadd (Cmul (RtoC (s ^ 4)) e2) (Cmul (RtoC (s ^ 4)) e3))) (Cadd (Cadd (Cmul (RtoC (s ^ 5)) e4) (Cadd (Cmul (RtoC (s ^ 5)) e5) (Cmul (RtoC (s ^ 5)) e6))) (Cmul (RtoC (s ^ 6)) e7)))))
      by (unfold zz; csolve).
    assert (S4 : 0 <= s ^ 4) by (apply pow_le; lra). assert (S5 : 0 <= s ^ 5) by (apply pow_le; lra). assert (S6 : 0 <= s ^ 6) by (apply pow_le; lra).
    assert (L5 : s ^ 5 <= s ^ 4) by (replace (s ^ 5) with (s ^ 4 * s) by ring; nra). assert (L6 : s ^ 6 <= s ^ 4) by (replace (s ^ 6) with (s ^ 5 * s) by ring; nra).
    eapply size_mono.
    - apply size_add_le; [exact HE|]. apply size_add_le; [apply size_add_le; [apply size_scal, B1|apply size_add_le; [apply size_scal, B2|apply size_scal, B3]]|].
      apply size_add_le; [apply size_add_le; [apply size_scal, C1_|apply size_add_le; [apply size_scal, C2_|apply size_scal, C3_]]|].
      apply size_add_le; [apply size_add_le; [apply size_scal, C4_|apply size_add_le; [apply size_scal, C5_|apply size_scal, C6_]]|apply size_scal, C7_].
    - rewrite !Rabs_right by (apply Rle_ge; assumption).
      assert (Q5 : s ^ 5 * (M * (R * R * R)) <= s ^ 4 * (M * (R * R * R))) by (apply Rmult_le_compat_r; assumption).
      assert (Q6 : s ^ 6 * (M * (R * R * R)) <= s ^ 4 * (M * (R * R * R))) by (apply Rmult_le_compat_r; assumption).
      replace (K * (3 * R * s) ^ 4) with (K * (3 * R) ^ 4 * s ^ 4) by ring. set (k4 := K * (3 * R) ^ 4). lra.
  Qed.
End Bounds.
