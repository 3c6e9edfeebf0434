(** Vocabulary for the statements about Miller indices and explorers. *)
From Verif Require Export MillerModel.
From Coq Require Export Permutation.
Open Scope Z_scope.

(** [m'] is a signed permutation of [m]: the same absolute values in some order. *)
Definition magnitudes (m : miller) : list Z := let '(h, k, l) := m in [Z.abs h; Z.abs k; Z.abs l].
Definition signed_permutation (m m' : miller) : Prop := Permutation (magnitudes m) (magnitudes m').

(** The same for the indices of a line in the plane. *)
Definition signed_permutation_2d (m m' : Z * Z) : Prop :=
  Permutation [Z.abs (fst m); Z.abs (snd m)] [Z.abs (fst m'); Z.abs (snd m')].

(** A list of signs, and the point with these signs. *)
Definition sign_pattern (n : nat) (s : list R) : Prop := length s = n /\ Forall (fun x => x = 1%R \/ x = (-1)%R) s.
Definition signed_point (s x0 : list R) : list R := map (fun t => (fst t * snd t)%R) (combine s x0).
