(** Further theorems for C50 and C66. *)
From Verif Require Import ListAux CliSpec GradSpec SmallModel GradProofs GradProps CliProps DbSpec.
From Coq Require Import Reals Lia Lra.
From Verif Require Import Complex.

(** C50. The option --unique shows every key of a number or text attribute of
    some simulation once, and nothing else. *)
Theorem C50_unique_attributes : forall d, NoDup (unique_attributes d) /\ forall k, In k (unique_attributes d) <-> exists s, has_attr d s k.
Proof.
  intros d. split; [apply NoDup_nodup|]. intros k. unfold unique_attributes. rewrite nodup_In, in_app_iff, !in_map_iff. split.
  - intros [(r & E & H)|(r & E & H)]; [exists (ar_sim r); left|exists (tr_sim r); right]; exists r; auto.
  - intros (s & [(r & H & _ & E)|(r & H & _ & E)]); [left|right]; exists r; auto.
Qed.
Print Assumptions C50_unique_attributes.
Example C50_unique_attributes_nonvacuous : exists d k, In k (unique_attributes d) /\ length (unique_attributes d) = 1%nat /\ length (t_attr d) = 1%nat /\ length (t_text d) = 1%nat.
Proof.
  exists {| t_pos := []; t_fields := []; t_ids := [1%Z]; t_comments := []; t_attr := [{| ar_key := lit "T"; ar_value := 1%R; ar_sim := 1%Z |}];
    t_text := [{| tr_key := lit "T"; tr_value := lit "x"; tr_sim := 1%Z |}]; t_series := [] |}, (lit "T").
  vm_compute. repeat split. left. reflexivity.
Qed.

Open Scope R_scope.
(** C66. With the default parameters, the function registered for a field with
    the value [v] at a node is the derivative of 1500 (|x|^3 - x^3) at its real
    part, at every value: zero for positive values, negative for negative ones,
    so that it drives these up in an equation where it is subtracted. *)
Theorem C66_default_penalty : forall v, Im (default_penalty v) = 0
  /\ derivable_pt_lim (fun x => 1500 * (Rabs x ^ 3 - x ^ 3)) (Re v) (Re (default_penalty v))
  /\ (0 <= Re v -> default_penalty v = C0) /\ (Re v < 0 -> Re (default_penalty v) < 0).
Proof.
  intros v. split; [reflexivity|]. split.
  - apply (C66_penalty_is_derivative_partial 1500 3 (Re v) eq_refl). right. lia.
  - unfold default_penalty, penalty_evaluate, penalty. split; intros H.
    + destruct (Rlt_dec 0 (Re v)) as [_|N]; [reflexivity|]. replace (Re v) with 0 by lra. apply C_eq; cbn; ring.
    + destruct (Rlt_dec 0 (Re v)) as [P|_]; [lra|]. cbn. nra.
Qed.
Print Assumptions C66_default_penalty.
