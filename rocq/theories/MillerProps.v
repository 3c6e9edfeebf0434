(** Properties C39 and C40: Miller indices and initial guess explorers. *)
From Verif Require Import MillerModel MillerSpec MillerProofs.
From Coq Require Import Lra.
Open Scope Z_scope.

(** C39. *)
Theorem C39_signed_permutations_each_once : forall m,
  NoDup (equivalent_miller m) /\ forall m', In m' (equivalent_miller m) <-> signed_permutation m m'.
Proof. exact equivalent_miller_spec. Qed.
Print Assumptions C39_signed_permutations_each_once.

(** NumEquivalent3D is the number of them exactly when the first and the last
    index do not have the same magnitude without the middle one. *)
Theorem C39_count_3d_partial : forall h k l,
  num_equivalent_3d (h, k, l) = Z.of_nat (length (equivalent_miller (h, k, l)))
  <-> ~ (Z.abs h = Z.abs l /\ Z.abs h <> Z.abs k).
Proof. exact num_3d_spec. Qed.
Print Assumptions C39_count_3d_partial.

Theorem C39_count_3d_refuted : ~ (forall m, num_equivalent_3d m = Z.of_nat (length (equivalent_miller m))).
Proof. intros H. specialize (H (1, 0, 1)). vm_compute in H. discriminate. Qed.
Print Assumptions C39_count_3d_refuted.

Theorem C39_count_2d : forall h k L, NoDup L -> (forall m', In m' L <-> signed_permutation_2d (h, k) m') ->
  num_equivalent_2d (h, k, 0) = Z.of_nat (length L).
Proof. exact num_2d_spec. Qed.
Print Assumptions C39_count_2d.

Example C39_nonvacuous : length (equivalent_miller (1, 1, 1)) = 8%nat /\ length (equivalent_miller (3, -1, 2)) = 48%nat
  /\ num_equivalent_3d (1, 1, 0) = 12 /\ num_equivalent_3d (1, 0, 1) = 24 /\ length (equivalent_miller (1, 0, 1)) = 12%nat
  /\ num_equivalent (1, 0, 0) 2 = Some 4.
Proof. repeat split; vm_compute; reflexivity. Qed.

(** C40. *)
Theorem C40_every_octant_once : forall x0, x0 <> [] -> exists S : list (list R),
  explorer_calls (Datatypes.S (length S)) (new_explorer x0) = Some (map (fun s => Some (signed_point s x0)) S ++ [None])
  /\ NoDup S /\ (forall s, In s S <-> sign_pattern (length x0) s) /\ Z.of_nat (length S) = 2 ^ Z.of_nat (length x0).
Proof. exact hyper_octants. Qed.
Print Assumptions C40_every_octant_once.

Theorem C40_single_point : forall x0 n, single_calls (S n) x0 false = Some x0 :: repeat None n.
Proof. exact single_point. Qed.
Print Assumptions C40_single_point.

(** With no coordinates the second call panics. *)
Theorem C40_empty_panics : explorer_calls 2 (new_explorer []) = None.
Proof. reflexivity. Qed.
Print Assumptions C40_empty_panics.

Example C40_nonvacuous : exists a b c d : R,
  explorer_calls 3 (new_explorer [5%R]) = Some [Some [a]; Some [b]; None] /\ a = (-5)%R /\ b = 5%R /\ c = a /\ d = b.
Proof. do 4 eexists. split; [reflexivity|]. split; [cbn; lra|]. split; [cbn; lra|]. split; reflexivity. Qed.
