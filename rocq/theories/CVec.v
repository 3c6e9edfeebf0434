(** Finite sums of complex numbers, as a loop from 0 to n-1 accumulates them. *)
From Verif Require Export Vec Complex.
From Coq Require Import Arith.
Open Scope R_scope.

Fixpoint csum (n : nat) (f : nat -> C) : C := match n with O => C0 | S n' => Cadd (csum n' f) (f n') end.

Lemma csum_ext n f g : (forall i, (i < n)%nat -> f i = g i) -> csum n f = csum n g.
Proof. induction n as [|n IH]; intros H; [reflexivity|]. cbn [csum]. rewrite IH by (intros; apply H; lia). rewrite (H n) by lia. reflexivity. Qed.
Lemma csum_re n f : Re (csum n f) = rsum n (fun i => Re (f i)).
Proof. induction n as [|n IH]; [reflexivity|]. cbn [csum rsum]. rewrite <- IH. reflexivity. Qed.
Lemma csum_im n f : Im (csum n f) = rsum n (fun i => Im (f i)).
Proof. induction n as [|n IH]; [reflexivity|]. cbn [csum rsum]. rewrite <- IH. reflexivity. Qed.
Lemma csum_mul_l n a f : csum n (fun i => Cmul a (f i)) = Cmul a (csum n f).
Proof. induction n as [|n IH]; cbn [csum]; [ring|rewrite IH; ring]. Qed.
Lemma csum_plus n f g : csum n (fun i => Cadd (f i) (g i)) = Cadd (csum n f) (csum n g).
Proof. induction n as [|n IH]; cbn [csum]; [ring|rewrite IH; ring]. Qed.
Lemma csum_sub n f g : csum n (fun i => Csub (f i) (g i)) = Csub (csum n f) (csum n g).
Proof. induction n as [|n IH]; cbn [csum]; [ring|rewrite IH; ring]. Qed.
Lemma csum_swap n m f : csum n (fun i => csum m (fun j => f i j)) = csum m (fun j => csum n (fun i => f i j)).
Proof.
  induction n as [|n IH]; cbn [csum].
  - induction m as [|m IH]; cbn [csum]; [reflexivity|rewrite <- IH; ring].
  - rewrite IH, <- csum_plus. reflexivity.
Qed.


Lemma csum_mul_r n a f : csum n (fun i => Cmul (f i) a) = Cmul (csum n f) a.
Proof. induction n as [|n IH]; cbn [csum]; [ring|rewrite IH; ring]. Qed.
Lemma csum_zero n : csum n (fun _ => C0) = C0.
Proof. induction n as [|n IH]; cbn [csum]; [reflexivity|rewrite IH; ring]. Qed.
Lemma csum_zero' n f : (forall i, (i < n)%nat -> f i = C0) -> csum n f = C0.
Proof. intros H. rewrite (csum_ext n f (fun _ => C0)) by exact H. apply csum_zero. Qed.
Lemma csum_const n a : csum n (fun _ => a) = Cmul (RtoC (INR n)) a.
Proof.
  induction n as [|n IH]; [cbn; csolve|]. cbn [csum]. rewrite IH, S_INR, RtoC_add. change (RtoC 1) with C1. ring.
Qed.
Lemma csum_conj n f : Cconj (csum n f) = csum n (fun i => Cconj (f i)).
Proof. induction n as [|n IH]; cbn [csum]; [csolve|rewrite Cconj_add, IH; reflexivity]. Qed.
Lemma csum_add n m f : csum (n + m) f = Cadd (csum n f) (csum m (fun i => f (n + i)%nat)).
Proof.
  induction m as [|m IH]; [rewrite Nat.add_0_r; cbn [csum]; ring|]. rewrite Nat.add_succ_r. cbn [csum]. rewrite IH. ring.
Qed.
Lemma csum_split d M f : csum (d * M) f = csum d (fun a => csum M (fun b => f (a * M + b)%nat)).
Proof.
  induction d as [|d IH]; [reflexivity|]. cbn [csum]. rewrite <- IH.
  replace (S d * M)%nat with (d * M + M)%nat by lia. apply csum_add.
Qed.
Lemma csum_single n j f : (j < n)%nat -> (forall i, (i < n)%nat -> i <> j -> f i = C0) -> csum n f = f j.
Proof.
  induction n as [|n IH]; intros Hj H; [lia|]. cbn [csum]. destruct (Nat.eq_dec j n) as [->|Hn].
  - rewrite csum_zero' by (intros i Hi; apply H; lia). ring.
  - rewrite IH by (try lia; intros i Hi Hi'; apply H; lia). rewrite (H n) by lia. ring.
Qed.
Lemma csum_RtoC n f : csum n (fun i => RtoC (f i)) = RtoC (rsum n f).
Proof. induction n as [|n IH]; [reflexivity|]. cbn [csum rsum]. rewrite IH, RtoC_add. reflexivity. Qed.
Lemma Csum_seq x : Csum x = csum (length x) (fun j => nth j x C0).
Proof.
  induction x as [|a x IH] using rev_ind; [reflexivity|]. rewrite Csum_app, app_length. cbn [length].
  rewrite Nat.add_1_r. cbn [csum Csum]. rewrite app_nth2, Nat.sub_diag by lia. cbn [nth].
  rewrite (csum_ext _ _ (fun j => nth j x C0)) by (intros; apply app_nth1; assumption). rewrite <- IH. ring.
Qed.
