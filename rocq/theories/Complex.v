(** Complex numbers as pairs of reals (Go complex128, with exact arithmetic). *)
From Coq Require Export Reals Lra List Lia.
Export ListNotations.
Open Scope R_scope.

Definition C : Type := (R * R)%type.
Definition Re (z : C) : R := fst z.
Definition Im (z : C) : R := snd z.
Definition C0 : C := (0, 0).
Definition C1 : C := (1, 0).
Definition RtoC (x : R) : C := (x, 0).
Definition Cadd (a b : C) : C := (Re a + Re b, Im a + Im b).
Definition Copp (a : C) : C := (- Re a, - Im a).
Definition Csub (a b : C) : C := (Re a - Re b, Im a - Im b).
Definition Cmul (a b : C) : C := (Re a * Re b - Im a * Im b, Re a * Im b + Im a * Re b).
Definition Cscal (x : R) (a : C) : C := (x * Re a, x * Im a).
Definition Cconj (a : C) : C := (Re a, - Im a).
Definition Cnorm2 (a : C) : R := Re a * Re a + Im a * Im a.
Definition Cinv (a : C) : C := (Re a / Cnorm2 a, - Im a / Cnorm2 a).
Definition Cdiv (a b : C) : C := Cmul a (Cinv b).
Definition Ci : C := (0, 1).
Definition Cexp (a : C) : C := (exp (Re a) * cos (Im a), exp (Re a) * sin (Im a)).
Fixpoint Cpow (a : C) (n : nat) : C := match n with O => C1 | S n' => Cmul a (Cpow a n') end.
Fixpoint Csum (l : list C) : C := match l with [] => C0 | x :: l' => Cadd x (Csum l') end.

Lemma C_eq (a b : C) : Re a = Re b -> Im a = Im b -> a = b.
Proof. destruct a, b. cbn. congruence. Qed.

Ltac csolve := intros; apply C_eq; unfold Cadd, Csub, Cmul, Copp, Cscal, Cconj, RtoC, C0, C1, Ci, Re, Im; cbn [fst snd]; try ring; try lra.

Lemma C_ring_theory : ring_theory C0 C1 Cadd Cmul Csub Copp (@eq C).
Proof. constructor; csolve. Qed.

Lemma Cnorm2_pos a : a <> C0 -> 0 < Cnorm2 a.
Proof.
  intros H. unfold Cnorm2. destruct a as [x y]. unfold Re, Im. cbn [fst snd].
  destruct (Req_dec x 0) as [Hx|Hx].
  - destruct (Req_dec y 0) as [Hy|Hy]; [subst; exfalso; apply H; reflexivity|].
    assert (0 < y * y) by (apply Rsqr_pos_lt in Hy; exact Hy).
    assert (0 <= x * x) by (apply Rle_0_sqr). lra.
  - assert (0 < x * x) by (apply Rsqr_pos_lt in Hx; exact Hx).
    assert (0 <= y * y) by (apply Rle_0_sqr). lra.
Qed.

Lemma Cinv_l a : a <> C0 -> Cmul (Cinv a) a = C1.
Proof.
  intros H. pose proof (Cnorm2_pos a H) as P. apply C_eq; unfold Cinv, Cmul, C1, Re, Im; cbn [fst snd];
  unfold Cnorm2, Re, Im in *; field; lra.
Qed.

Lemma C1_neq_0 : C1 <> C0.
Proof. intros E. apply (f_equal Re) in E. cbn in E. lra. Qed.

Lemma C_field_theory : field_theory C0 C1 Cadd Cmul Csub Copp Cdiv Cinv (@eq C).
Proof. constructor; [exact C_ring_theory|exact C1_neq_0|reflexivity|exact Cinv_l]. Qed.

Add Ring Cring : C_ring_theory.
Add Field Cfield : C_field_theory.

Lemma Cscal_mul x a : Cscal x a = Cmul (RtoC x) a.
Proof. csolve. Qed.
Lemma RtoC_add x y : RtoC (x + y) = Cadd (RtoC x) (RtoC y).
Proof. csolve. Qed.
Lemma RtoC_mul x y : RtoC (x * y) = Cmul (RtoC x) (RtoC y).
Proof. csolve. Qed.
Lemma RtoC_opp x : RtoC (- x) = Copp (RtoC x).
Proof. csolve. Qed.
Lemma RtoC_sub x y : RtoC (x - y) = Csub (RtoC x) (RtoC y).
Proof. csolve. Qed.
Lemma RtoC_pow x n : RtoC (x ^ n) = Cpow (RtoC x) n.
Proof. induction n as [|n IH]; cbn; [reflexivity|]. rewrite RtoC_mul, IH. reflexivity. Qed.
Lemma RtoC_inj x y : RtoC x = RtoC y -> x = y.
Proof. intros H. apply (f_equal Re) in H. exact H. Qed.
Lemma RtoC_neq0 x : x <> 0 -> RtoC x <> C0.
Proof. intros H E. apply (f_equal Re) in E. cbn in E. contradiction. Qed.
Lemma RtoC_inv x : x <> 0 -> RtoC (/ x) = Cinv (RtoC x).
Proof. intros H. apply C_eq; unfold RtoC, Cinv, Cnorm2, Re, Im; cbn [fst snd]; field; lra. Qed.

Lemma Cmul_eq0 a b : Cmul a b = C0 -> a = C0 \/ b = C0.
Proof.
  intros H. destruct (Req_dec (Cnorm2 a) 0) as [Ha|Ha].
  - left. destruct a as [x y]. unfold Cnorm2, Re, Im in Ha. cbn [fst snd] in Ha.
    assert (0 <= x * x) by apply Rle_0_sqr. assert (0 <= y * y) by apply Rle_0_sqr.
    assert (Hx : x * x = 0) by lra. assert (Hy : y * y = 0) by lra.
    apply Rmult_integral in Hx. apply Rmult_integral in Hy. unfold C0. f_equal; tauto.
  - right. assert (Hn : a <> C0). { intros E. apply Ha. rewrite E. unfold Cnorm2. cbn. ring. }
    transitivity (Cmul (Cmul (Cinv a) a) b); [rewrite Cinv_l by assumption; ring|].
    transitivity (Cmul (Cinv a) (Cmul a b)); [ring|]. rewrite H. ring.
Qed.

Lemma Cconj_add a b : Cconj (Cadd a b) = Cadd (Cconj a) (Cconj b).
Proof. csolve. Qed.
Lemma Cconj_mul a b : Cconj (Cmul a b) = Cmul (Cconj a) (Cconj b).
Proof. csolve. Qed.
Lemma Cconj_involutive a : Cconj (Cconj a) = a.
Proof. csolve. Qed.
Lemma Cconj_RtoC x : Cconj (RtoC x) = RtoC x.
Proof. csolve. Qed.
Lemma Cconj_real a : Cconj a = a <-> Im a = 0.
Proof.
  split; intros H.
  - apply (f_equal Im) in H. cbn in H. lra.
  - apply C_eq; unfold Cconj, Re, Im in *; cbn [fst snd]; lra.
Qed.

Lemma Cexp_add a b : Cexp (Cadd a b) = Cmul (Cexp a) (Cexp b).
Proof.
  apply C_eq; unfold Cexp, Cadd, Cmul, Re, Im; cbn [fst snd]; rewrite exp_plus, ?cos_plus, ?sin_plus; ring.
Qed.
Lemma Cexp_0 : Cexp C0 = C1.
Proof. apply C_eq; unfold Cexp, C0, C1, Re, Im; cbn [fst snd]; rewrite exp_0, ?cos_0, ?sin_0; ring. Qed.
Lemma Cexp_conj a : Cexp (Cconj a) = Cconj (Cexp a).
Proof. apply C_eq; unfold Cexp, Cconj, Re, Im; cbn [fst snd]; rewrite ?cos_neg, ?sin_neg; ring. Qed.

Lemma Csum_app l1 l2 : Csum (l1 ++ l2) = Cadd (Csum l1) (Csum l2).
Proof. induction l1 as [|x l IH]; cbn [app Csum]; [ring|]. rewrite IH. ring. Qed.
