(** Theorems for wrong programs that only examples had told apart. *)
From Verif Require Import MillerModel MillerSpec MillerProofs MillerProps ModeModel SetupModel.
From Coq Require Import Lia List ZArith Reals Lra. Import ListNotations.

(** C39. NumEquivalent(2) is the number of signed permutations in the plane. *)
Theorem C39_count_in_the_plane : forall h k L, NoDup L -> (forall m', In m' L <-> signed_permutation_2d (h, k) m') ->
  num_equivalent (h, k, 0)%Z 2 = Some (Z.of_nat (length L)).
Proof. intros h k L H1 H2. unfold num_equivalent. cbn [Z.eqb Pos.eqb]. rewrite (C39_count_2d h k L H1 H2). reflexivity. Qed.
Print Assumptions C39_count_in_the_plane.
(** NumEquivalent(3) is the number of signed permutations, with the exception of
    C39_count_3d_partial, and other dimensions panic. *)
Theorem C39_count_in_space_partial : forall h k l, ~ (Z.abs h = Z.abs l /\ Z.abs h <> Z.abs k) ->
  exists L, NoDup L /\ (forall m', In m' L <-> signed_permutation (h, k, l) m') /\ num_equivalent (h, k, l) 3 = Some (Z.of_nat (length L)).
Proof.
  intros h k l H. destruct (C39_signed_permutations_each_once (h, k, l)) as (A & B). exists (equivalent_miller (h, k, l)). split; [exact A|]. split; [exact B|].
  unfold num_equivalent. cbn [Z.eqb Pos.eqb]. rewrite (proj2 (C39_count_3d_partial h k l) H). reflexivity.
Qed.
Print Assumptions C39_count_in_space_partial.
Theorem C39_other_dimensions : forall m dim, num_equivalent m dim = None <-> dim <> 2%Z /\ dim <> 3%Z.
Proof.
  intros m dim. unfold num_equivalent. destruct (Z.eqb_spec dim 2) as [->|N2]; [split; [discriminate|intros (H & _); contradiction]|].
  destruct (Z.eqb_spec dim 3) as [->|N3]; [split; [discriminate|intros (_ & H); contradiction]|]. split; [intros _; split; assumption|reflexivity].
Qed.
Print Assumptions C39_other_dimensions.

(** C76. Two advection terms of a field have the same name exactly if the names of the
    velocities, written one after the other, are the same. *)
Theorem C76_advection_names : forall field vels vels', adv_name field vels = adv_name field vels' <-> concat vels = concat vels'.
Proof. intros field vels vels'. unfold adv_name. split; [intros H; exact (proj1 (app_inv_tail_iff _ _ _) H)|intros ->; reflexivity]. Qed.
Print Assumptions C76_advection_names.

(** C67. The search for the factors starts at 1, 0.01, 1, 1, ... *)
Theorem C67_starting_point : forall modes i, (2 <= length modes)%nat -> (i < length modes)%nat ->
  exists x, fit_start modes = Some x /\ length x = length modes /\ nth_error x i = Some (if Nat.eqb i 1 then 1 / 100 else 1)%R.
Proof.
  intros modes i H Hi. destruct modes as [|a [|b modes]]; cbn [length] in H; try lia. exists (1 :: 1 / 100 :: repeat 1 (length modes))%R.
  split; [reflexivity|]. split; [cbn [length]; rewrite repeat_length; reflexivity|]. destruct i as [|[|i]]; [reflexivity|reflexivity|]. cbn [length] in Hi. cbn [nth_error Nat.eqb]. apply nth_error_repeat. lia.
Qed.
Print Assumptions C67_starting_point.

Example C39_loose_nonvacuous : num_equivalent (2, 1, 0)%Z 2 = Some 8%Z /\ num_equivalent (1, 1, 0)%Z 3 = Some 12%Z /\ ~ (Z.abs 1 = Z.abs 0 /\ Z.abs 1 <> Z.abs 1)
  /\ adv_name (lit "u") [lit "a"] <> adv_name (lit "u") [lit "b"].
Proof. split; [vm_compute; reflexivity|]. split; [vm_compute; reflexivity|]. split; [lia|]. intros H. apply C76_advection_names in H. discriminate H. Qed.
