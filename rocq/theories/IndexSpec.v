(** Vocabulary for the statements about grid indices. *)
From Coq Require Import List ZArith QArith Lia.
Import ListNotations.
Open Scope Z_scope.

(** A two- or three-dimensional domain with positive extents. *)
Definition valid_domain (dom : list Z) : Prop :=
  (length dom = 2%nat \/ length dom = 3%nat) /\ Forall (fun d => 0 < d) dom.

(** The number of nodes: the product of the extents. *)
Definition num_nodes (dom : list Z) : Z := fold_right Z.mul 1 dom.

(** A position inside the domain. *)
Definition in_box (dom p : list Z) : Prop := Forall2 (fun d x => 0 <= x < d) dom p.

(** Strict lexicographic order on multi-indices. *)
Fixpoint lex_lt (a b : list Z) : Prop :=
  match a, b with
  | x :: a', y :: b' => x < y \/ (x = y /\ lex_lt a' b')
  | _, _ => False
  end.

(** A list in strictly increasing lexicographic order. *)
Fixpoint lex_sorted (l : list (list Z)) : Prop :=
  match l with
  | [] => True
  | x :: l' => Forall (lex_lt x) l' /\ lex_sorted l'
  end.

(** A rational number that is an integer. *)
Definition is_int (q : Q) : Prop := exists z : Z, (q == inject_Z z)%Q.

Fixpoint increasing (l : list Z) : Prop :=
  match l with
  | [] => True
  | x :: l' => Forall (Z.lt x) l' /\ increasing l'
  end.
