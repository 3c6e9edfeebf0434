(** Finite sums of reals, as a loop from 0 to n-1 accumulates them, and vectors
    and matrices as functions of indices. *)
From Coq Require Export Reals Lra Lia List Arith Bool.
Export ListNotations.
Open Scope R_scope.

Fixpoint rsum (n : nat) (f : nat -> R) : R := match n with O => 0 | S n' => rsum n' f + f n' end.
Definition kron (i j : nat) : R := if Nat.eqb i j then 1 else 0.

Lemma rsum_ext n f g : (forall i, (i < n)%nat -> f i = g i) -> rsum n f = rsum n g.
Proof. induction n as [|n IH]; intros H; cbn; [reflexivity|]. rewrite IH, H by (intros; try apply H; lia). reflexivity. Qed.
Lemma rsum_0 n : rsum n (fun _ => 0) = 0.
Proof. induction n as [|n IH]; cbn; [reflexivity|]. rewrite IH. ring. Qed.
Lemma rsum_plus n f g : rsum n (fun i => f i + g i) = rsum n f + rsum n g.
Proof. induction n as [|n IH]; cbn; [ring|]. rewrite IH. ring. Qed.
Lemma rsum_minus n f g : rsum n (fun i => f i - g i) = rsum n f - rsum n g.
Proof. induction n as [|n IH]; cbn; [ring|]. rewrite IH. ring. Qed.
Lemma rsum_opp n f : rsum n (fun i => - f i) = - rsum n f.
Proof. induction n as [|n IH]; cbn; [ring|]. rewrite IH. ring. Qed.
Lemma rsum_mul_l n a f : rsum n (fun i => a * f i) = a * rsum n f.
Proof. induction n as [|n IH]; cbn; [ring|]. rewrite IH. ring. Qed.
Lemma rsum_mul_r n a f : rsum n (fun i => f i * a) = rsum n f * a.
Proof. induction n as [|n IH]; cbn; [ring|]. rewrite IH. ring. Qed.
Lemma rsum_swap n m f : rsum n (fun i => rsum m (fun j => f i j)) = rsum m (fun j => rsum n (fun i => f i j)).
Proof.
  induction n as [|n IH]; cbn; [rewrite rsum_0; reflexivity|]. rewrite IH, <- rsum_plus. reflexivity.
Qed.
Lemma rsum_kron_l n j f : (j < n)%nat -> rsum n (fun i => kron i j * f i) = f j.
Proof.
  induction n as [|n IH]; intros H; [lia|]. cbn. destruct (Nat.eq_dec j n) as [->|Hn].
  - rewrite (rsum_ext n _ (fun _ => 0)).
    + rewrite rsum_0. unfold kron. rewrite Nat.eqb_refl. ring.
    + intros i Hi. unfold kron. destruct (Nat.eqb_spec i n); [lia|]. ring.
  - rewrite IH by lia. unfold kron. destruct (Nat.eqb_spec n j); [lia|]. ring.
Qed.
Lemma kron_sym i j : kron i j = kron j i.
Proof. unfold kron. rewrite Nat.eqb_sym. reflexivity. Qed.
Lemma rsum_kron_l' n j f : (j < n)%nat -> rsum n (fun i => kron j i * f i) = f j.
Proof. intros H. rewrite <- (rsum_kron_l n j f H). apply rsum_ext. intros i _. rewrite kron_sym. reflexivity. Qed.
Lemma rsum_kron_r n j f : (j < n)%nat -> rsum n (fun i => f i * kron i j) = f j.
Proof. intros H. rewrite <- (rsum_kron_l n j f H). apply rsum_ext. intros. ring. Qed.
Lemma rsum_nonneg n f : (forall i, (i < n)%nat -> 0 <= f i) -> 0 <= rsum n f.
Proof.
  induction n as [|n IH]; intros H; cbn; [lra|]. assert (A := IH (fun i Hi => H i (Nat.lt_lt_succ_r _ _ Hi))).
  assert (B := H n (Nat.lt_succ_diag_r n)). lra.
Qed.
Lemma rsum_le n f g : (forall i, (i < n)%nat -> f i <= g i) -> rsum n f <= rsum n g.
Proof.
  intros H. assert (A := rsum_nonneg n (fun i => g i - f i)). rewrite rsum_minus in A.
  assert (0 <= rsum n g - rsum n f) by (apply A; intros i Hi; specialize (H i Hi); lra). lra.
Qed.
Lemma rsum_sq_zero n f : rsum n (fun i => f i * f i) = 0 -> forall i, (i < n)%nat -> f i = 0.
Proof.
  induction n as [|n IH]; intros H i Hi; [lia|]. cbn in H.
  assert (A : 0 <= rsum n (fun i => f i * f i)) by (apply rsum_nonneg; intros j _; apply Rle_0_sqr).
  assert (B : 0 <= f n * f n) by apply Rle_0_sqr.
  destruct (Nat.eq_dec i n) as [->|Hn]; [|apply IH; [lra|lia]]. apply Rsqr_0_uniq. unfold Rsqr. lra.
Qed.
Lemma rsum_split n m f : rsum (n + m) f = rsum n f + rsum m (fun i => f (n + i)%nat).
Proof.
  induction m as [|m IH]; [rewrite Nat.add_0_r; cbn; ring|]. rewrite Nat.add_succ_r. cbn. rewrite IH. ring.
Qed.

(** Matrices. *)
Definition mmul (n : nat) (a b : nat -> nat -> R) (i j : nat) : R := rsum n (fun k => a i k * b k j).
Definition mtrans (a : nat -> nat -> R) (i j : nat) : R := a j i.
Definition meq_on (n : nat) (a b : nat -> nat -> R) : Prop := forall i j, (i < n)%nat -> (j < n)%nat -> a i j = b i j.
Lemma mmul_assoc n a b c i j : mmul n (mmul n a b) c i j = mmul n a (mmul n b c) i j.
Proof.
  unfold mmul.
  transitivity (rsum n (fun k => rsum n (fun l => a i l * b l k * c k j))).
  - apply rsum_ext. intros k _. rewrite <- rsum_mul_r. reflexivity.
  - rewrite rsum_swap. apply rsum_ext. intros l _. rewrite <- rsum_mul_l. apply rsum_ext. intros. ring.
Qed.
Lemma mmul_id_l n a i j : (i < n)%nat -> mmul n kron a i j = a i j.
Proof. intros H. unfold mmul. rewrite (rsum_kron_l' n i (fun k => a k j)) by exact H. reflexivity. Qed.
Lemma mmul_id_r n a i j : (j < n)%nat -> mmul n a kron i j = a i j.
Proof. intros H. unfold mmul. apply (rsum_kron_r n j (fun k => a i k) H). Qed.
Lemma mmul_ext n a a' b b' i j : (i < n)%nat -> (j < n)%nat -> meq_on n a a' -> meq_on n b b' -> mmul n a b i j = mmul n a' b' i j.
Proof. intros Hi Hj Ha Hb. unfold mmul. apply rsum_ext. intros k Hk. rewrite Ha, Hb by assumption. reflexivity. Qed.
