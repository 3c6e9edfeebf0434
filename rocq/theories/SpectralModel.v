(** The Laplacian operator in Fourier space, with exact real arithmetic. *)
From Verif Require Export Complex.

(** gonum floats.Norm(f, 2) of pf/diffOp.go:27, before the root. *)
Fixpoint norm_sq (f : list R) : R := match f with [] => 0 | x :: f' => x * x + norm_sq f' end.
(** gonum floats.Norm(f, 2) of pf/diffOp.go:27. *)
Definition norm (f : list R) : R := sqrt (norm_sq f).

(** pf/diffOp.go:25-30, LaplacianN.Eval for one node: the amplitude is
    multiplied by (-(2 pi |f|)^2)^Power. *)
Definition lap_eval (f : list R) (power : nat) (v : C) : C :=
  Cmul v (RtoC ((- (2 * PI * norm f) ^ 2) ^ power)).

(** pf/rhsBuilder.go:193-197, flipSign for one node. *)
Definition flip_sign (v : C) : C := Cmul v (RtoC (-1)).

Lemma norm_sq_nonneg f : 0 <= norm_sq f.
Proof. induction f as [|x f IH]; cbn [norm_sq]; [lra|]. pose proof (Rle_0_sqr x). unfold Rsqr in *. lra. Qed.

(** The symbol of the Laplacian at frequency f: -(2 pi)^2 (sum of squares).
    pf/diffOp.go:27 with Power 1: -(2 pi)^2 (sum of squares). *)
Definition lap_symbol (f : list R) : R := - (4 * PI * PI * norm_sq f).

Lemma lap_eval_symbol f k v : lap_eval f k v = Cmul (RtoC (lap_symbol f ^ k)) v.
Proof.
  unfold lap_eval, lap_symbol. replace (- (2 * PI * norm f) ^ 2) with (- (4 * PI * PI * norm_sq f)); [ring|].
  unfold norm. pose proof (sqrt_sqrt (norm_sq f) (norm_sq_nonneg f)) as H.
  replace ((2 * PI * sqrt (norm_sq f)) ^ 2) with (4 * PI * PI * (sqrt (norm_sq f) * sqrt (norm_sq f))) by ring.
  rewrite H. ring.
Qed.
