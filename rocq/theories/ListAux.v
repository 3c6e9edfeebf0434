(** General list lemmas. *)
From Coq Require Import List ZArith Lia.
Import ListNotations.

Lemma Forall2_length {A B} (P : A -> B -> Prop) l1 l2 : Forall2 P l1 l2 -> length l1 = length l2.
Proof. induction 1; cbn; congruence. Qed.
