From Verif Require Import EnergySpec EnergyProofs EnergyProofs2 EnergyProofs3 EnergyProofs4 StepProofs SddProofs Vec CVec Complex.
From Coq Require Import Lra Lia.
Open Scope R_scope.

(** ** Prefactor of the ideal mixture term *)
Definition bad_ideal : ideal_term := {| it_mix := {| im_c3 := 1; im_c4 := 0 |}; it_prefactor := 2; it_laplacian := false |}.
Lemma prefactor_bad :
  Cadd (Cmul (nth 0 (it_linear bad_ideal id1 1) C0) (nth 0 (fft id1 [C1]) C0))
       (nth 0 (it_nonlinear bad_ideal id1 (fft id1 (it_derived bad_ideal [C1]))) C0) <>
  Cmul (symbol false id1 0) (nth 0 (fft id1 (map (it_eval bad_ideal) [C1])) C0).
Proof.
  intros E. apply (f_equal Re) in E. unfold it_eval, ideal_deriv in E. cbn in E.
  unfold third_prefactor, fourth_prefactor, quadratic_prefactor in E. cbn in E. lra.
Qed.

(** ** Volume conservation *)
Lemma drift_zero n calc rest den ft dt k step e0 v0 e1 v1 e2 v2 c :
  lp_ok n calc rest den ft -> 0 < dt -> one_field n e0 -> lp_first v0 = false -> lp_integral v0 = volume n e0 ->
  lp_step calc rest den ft dt (time_of dt step) n (e0, v0) = Some (e1, v1) ->
  lp_run calc rest den ft dt n (S step) k (e1, v1) = Some (e2, v2) ->
  (forall j e v, (j <= k)%nat -> lp_run calc rest den ft dt n step j (e0, v0) = Some (e, v) ->
     indicator_total calc e <> 0 /\ forcing calc rest den ft n (time_of dt (step + j)) e = c * indicator_total calc e) ->
  volume n e2 = volume n e1.
Proof.
  intros OK. revert step e0 v0 e1 v1 e2 v2.
  induction k as [|k IH]; intros step e0 v0 e1 v1 e2 v2 Hdt O0 F0 I0 E01 E12 H.
  - cbn [lp_run] in E12. injection E12 as <- <-. reflexivity.
  - cbn [lp_run] in E12. destruct (lp_step calc rest den ft dt (time_of dt (S step)) n (e1, v1)) as [[e1' v1']|] eqn:E1; [|discriminate].
    destruct (lp_step_tracked n calc rest den ft dt OK _ _ _ _ O0 E01) as (O1 & F1 & I1). cbn [fst snd] in *.
    rewrite (IH (S step) e1 v1 e1' v1' e2 v2 Hdt O1 F1 I1 E1 E12).
    2:{ intros j e v Hj Er. replace (S step + j)%nat with (step + S j)%nat by lia. apply (H (S j) e v ltac:(lia)). cbn [lp_run]. rewrite E01. exact Er. }
    destruct (H 0%nat e0 v0 ltac:(lia) eq_refl) as [N0 R0]. rewrite Nat.add_0_r in R0.
    assert (Q1 : lp_run calc rest den ft dt n step 1 (e0, v0) = Some (e1, v1)) by (cbn [lp_run]; rewrite E01; reflexivity).
    destruct (H 1%nat e1 v1 ltac:(lia) Q1) as [N1 R1]. rewrite Nat.add_1_r in R1.
    destruct (lp_second n calc rest den ft dt OK (time_of dt step) (time_of dt (S step)) e0 v0 e1 v1 e1' v1' ltac:(lra) N0 O0 F0 I0 E01 E1) as [D|Z]; [|contradiction].
    rewrite R0, R1 in D. replace (c * indicator_total calc e1 / indicator_total calc e1 - c * indicator_total calc e0 / indicator_total calc e0) with 0 in D by (field; split; assumption).
    lra.
Qed.

(** One node, indicator 1, a right-hand side equal to the time. *)
Definition unit_calc : env -> data := fun _ => [C1].
Definition clock : term := fun _ t tmp => map (fun _ => RtoC t) tmp.
Definition steady : term := fun _ _ tmp => map (fun _ => RtoC 3) tmp.
Lemma clock_ok : lp_ok 1 unit_calc [clock] [] id1.
Proof.
  constructor; [lia|exact (ut_good _ _ id1_unitary)|reflexivity| |].
  - intros f e t tmp [<-|[]] H. unfold clock. rewrite map_length. exact H.
  - intros f e t tmp [].
Qed.
Lemma steady_ok : lp_ok 1 unit_calc [steady] [] id1.
Proof.
  constructor; [lia|exact (ut_good _ _ id1_unitary)|reflexivity| |].
  - intros f e t tmp [<-|[]] H. unfold steady. rewrite map_length. exact H.
  - intros f e t tmp [].
Qed.
Lemma clock_forcing t e : forcing unit_calc [clock] [] id1 1 t e = t.
Proof. unfold forcing. cbn. ring. Qed.
Lemma steady_forcing t e : forcing unit_calc [steady] [] id1 1 t e = 3.
Proof. unfold forcing. cbn. ring. Qed.
Lemma unit_indicator e : indicator_total unit_calc e = 1.
Proof. unfold indicator_total. cbn. ring. Qed.

Definition lp_start_env : env := {| e_fields := [[C0]]; e_derived := [[C0]] |}.
Lemma start_one : one_field 1 lp_start_env.
Proof. split; [repeat constructor|split; reflexivity]. Qed.

Lemma not_conserved : exists st2 st3, lp_run unit_calc [clock] [] id1 1 1 0 2 (lp_start_env, new_multiplier) = Some st2 /\
  lp_run unit_calc [clock] [] id1 1 1 0 3 (lp_start_env, new_multiplier) = Some st3 /\ volume 1 (fst st3) = volume 1 (fst st2) + 1.
Proof.
  destruct (lp_step_spec 1 unit_calc [clock] [] id1 1 clock_ok (time_of 1 0) lp_start_env new_multiplier start_one) as (e1 & v1 & E1 & O1 & V1 & F1 & I1 & L1).
  destruct (lp_step_spec 1 unit_calc [clock] [] id1 1 clock_ok (time_of 1 1) e1 v1 O1) as (e2 & v2 & E2 & O2 & V2 & F2 & I2 & L2).
  destruct (lp_step_spec 1 unit_calc [clock] [] id1 1 clock_ok (time_of 1 2) e2 v2 O2) as (e3 & v3 & E3 & O3 & V3 & _).
  exists (e2, v2), (e3, v3). cbn [lp_run]. rewrite E1, E2, E3. split; [reflexivity|]. split; [reflexivity|]. cbn [fst].
  rewrite clock_forcing, unit_indicator in *. rewrite F1, I1, V2 in L2. cbn [new_multiplier lp_first lp_value] in L1. rewrite L1 in *. rewrite V3, L2.
  unfold time_of. cbn [INR]. field.
Qed.

Lemma steady_run : forall k, exists st1 st, lp_run unit_calc [steady] [] id1 1 1 0 2 (lp_start_env, new_multiplier) = Some st1 /\
  lp_run unit_calc [steady] [] id1 1 1 0 (2 + k) (lp_start_env, new_multiplier) = Some st /\ volume 1 (fst st) = 6 /\ volume 1 (fst st1) = 6.
Proof.
  intros k.
  destruct (lp_step_spec 1 unit_calc [steady] [] id1 1 steady_ok (time_of 1 0) lp_start_env new_multiplier start_one) as (e1 & v1 & E1 & O1 & V1 & F1 & I1 & L1).
  destruct (lp_step_spec 1 unit_calc [steady] [] id1 1 steady_ok (time_of 1 1) e1 v1 O1) as (e2 & v2 & E2 & O2 & V2 & F2 & I2 & L2).
  destruct (lp_run_total 1 unit_calc [steady] [] id1 1 steady_ok k 2 (e2, v2) O2) as ([e3 v3] & E3 & _).
  exists (e2, v2), (e3, v3). cbn [lp_run Nat.add]. rewrite E1, E2, E3. split; [reflexivity|]. split; [reflexivity|]. cbn [fst].
  assert (V : volume 1 e2 = 6).
  { rewrite steady_forcing, unit_indicator in *. cbn [new_multiplier lp_first lp_value] in L1. rewrite V2, V1, L1.
    unfold volume, lp_start_env. cbn. ring. }
  split; [|exact V]. rewrite <- V.
  apply (drift_zero 1 unit_calc [steady] [] id1 1 k 1 e1 v1 e2 v2 e3 v3 3 steady_ok ltac:(lra) O1 F1 I1 E2 E3).
  intros j e v _ _. rewrite unit_indicator, steady_forcing. split; [lra|ring].
Qed.

(** ** Energy along the flow: the hypotheses are met *)
Definition demo_ideal : ideal_term := {| it_mix := {| im_c3 := 1; im_c4 := 1 |}; it_prefactor := 1; it_laplacian := true |}.
Definition demo_pair : pair_term := {| pt_temp := 0; pt_peaks := triangular_lattice_2d 1 8; pt_prefactor := 1; pt_laplacian := true |}.
