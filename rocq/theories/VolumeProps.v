(** Property C49 for models with any number of fields: the volume conserving
    multiplier. *)
From Verif Require Import VolumeSpec EnergyProofs3 StepProofs ConserveProofs SddProofs VolumeProofs VolumeProofs2.
From Coq Require Import Reals Lia Lra.
From Verif Require Import CVec Complex.
Open Scope R_scope.

(** Runs with a new multiplier complete with both steppers. *)
Theorem C49_runs_complete : forall n p i ind ft dt clock, vol_ok n p i ind ft ->
  forall N e, suits n p e ->
  (exists st, vol_history euler_step p i ind ft dt clock n N e st)
  /\ (constant_denum p -> derived_from_fields p -> exists st, vol_history rk4_step p i ind ft dt clock n N e st).
Proof.
  intros n p i ind ft dt clock OK N e He. split.
  - destruct (history_exists euler_step p i ind ft dt clock n (suits n p) (fun t e v => euler_suits n p i ind ft OK t dt e v) N e He) as (st & H & _). eauto.
  - intros CD DF. destruct (history_exists rk4_step p i ind ft dt clock n (suits n p) (fun t e v => rk4_suits n p i ind ft OK CD DF t dt e v) N e He) as (st & H & _). eauto.
Qed.
Print Assumptions C49_runs_complete.

(** The states in a history are those a call of Propagate passes through, with
    the time of each step. *)
Lemma vol_run_history step p i ind ft dt clock n : forall N k s r,
  vol_run step p i ind ft dt clock n k N s = Some r
  <-> exists st, st 0%nat = s /\ st N = r /\ forall j, (j < N)%nat -> vol_step step p i ind ft dt (clock (k + j)%nat) n (st j) = Some (st (S j)).
Proof.
  induction N as [|N IH]; intros k s r; cbn [vol_run].
  - split; [intros E; exists (fun _ => s); repeat split; [congruence|intros j Hj; lia]|]. intros (st & E & E' & _). congruence.
  - split.
    + intros H. destruct (vol_step step p i ind ft dt (clock k) n s) as [s'|] eqn:E; [|discriminate]. apply IH in H. destruct H as (st & A & B & H).
      exists (fun j => match j with O => s | S j' => st j' end). split; [reflexivity|]. split; [exact B|]. intros [|j] Hj.
      * rewrite Nat.add_0_r, A. exact E.
      * replace (k + S j)%nat with (S k + j)%nat by lia. apply H. lia.
    + intros (st & A & B & H). assert (E := H 0%nat ltac:(lia)). rewrite Nat.add_0_r, A in E. rewrite E. apply IH. exists (fun j => st (S j)). split; [reflexivity|].
      split; [exact B|]. intros j Hj. replace (S k + j)%nat with (k + S j)%nat by lia. apply H. lia.
Qed.
Theorem C49_propagate : forall step p i ind ft dt clock n N e r,
  vol_run step p i ind ft dt clock n 0 N (e, new_multiplier) = Some r
  <-> exists st, vol_history step p i ind ft dt clock n N e st /\ st N = r.
Proof.
  intros. rewrite vol_run_history. unfold vol_history. split; intros (st & H); exists st; cbn [Nat.add] in *; tauto.
Qed.
Print Assumptions C49_propagate.

(** Euler: the first two steps change the total of the constrained field by what
    the model without the multiplier gives.  Every later step changes it by the
    time step times the indicator times the change of the ratio between the
    rate of the model and the indicator since the step before. *)
Theorem C49_euler_changes : forall n p i ind ft dt clock, vol_ok n p i ind ft -> dt <> 0 ->
  forall N e st, suits n p e -> vol_history euler_step p i ind ft dt clock n N e st ->
  let F := fun k => euler_rate p ft dt (clock k) i n (fst (st k)) in let I := fun k => indicator ind (spectrum p ft (fst (st k))) in
  forall k, (k < N)%nat ->
  ((k < 2)%nat -> total n i (fst (st (S k))) = total n i (fst (st k)) + dt * F k)
  /\ ((2 <= k)%nat -> I k <> 0 -> I (k - 1)%nat <> 0 ->
      total n i (fst (st (S k))) = total n i (fst (st k)) + dt * I k * (F k / I k - F (k - 1)%nat / I (k - 1)%nat)).
Proof. intros n p i ind ft dt clock OK Hdt N e st He Hh F I k Hk. exact (euler_changes n p i ind ft dt OK Hdt clock N e st He Hh k Hk). Qed.
Print Assumptions C49_euler_changes.

(** Hence the drift after the first two steps is bounded by how fast the ratio
    changes; if it does not change, the total stays the same. *)
Theorem C49_euler_drift_partial : forall n p i ind ft dt clock, vol_ok n p i ind ft -> 0 < dt ->
  forall N e st eps M, suits n p e -> vol_history euler_step p i ind ft dt clock n N e st ->
  let F := fun k => euler_rate p ft dt (clock k) i n (fst (st k)) in let I := fun k => indicator ind (spectrum p ft (fst (st k))) in
  (forall k, (1 <= k < N)%nat -> I k <> 0 /\ Rabs (I k) <= M) ->
  (forall k, (2 <= k < N)%nat -> Rabs (F k / I k - F (k - 1)%nat / I (k - 1)%nat) <= eps) ->
  forall k, (2 <= k <= N)%nat -> Rabs (total n i (fst (st k)) - total n i (fst (st 2%nat))) <= INR (k - 2) * (dt * M * eps).
Proof.
  intros n p i ind ft dt clock OK Hdt N e st eps M He Hh F I HI HR. apply (euler_drift n p i ind ft dt OK ltac:(lra) clock N e st eps M Hdt He Hh HI HR).
Qed.
Print Assumptions C49_euler_drift_partial.

(** RK4: a step changes the total by the Runge-Kutta mean of the rate of the
    model plus the multiplier times the indicator at the four stages; the
    multiplier is then corrected with the indicator of the last stage. *)
Theorem C49_rk4_step_partial : forall n p i ind ft, vol_ok n p i ind ft -> constant_denum p -> derived_from_fields p ->
  forall t dt e v, suits n p e -> exists e' v' k1 s2 k2 s3 k3 s4 k4,
  let P := with_multiplier p i ind v in let Y := map (fft ft) (e_fields e) in
  let g := fun S => rate p i n t (at_amplitudes p ft (e_derived e) S) + lp_value v * indicator ind (at_amplitudes p ft (e_derived e) S) in
  vol_step rk4_step p i ind ft dt t n (e, v) = Some (e', v') /\ suits n p e' /\
  (nonlinear_part P ft t (e_derived e) Y k1 /\
   implicit_stage p (dt / 2) t e Y k1 s2 /\ nonlinear_part P ft t (e_derived e) s2 k2 /\
   implicit_stage p (dt / 2) t e Y k2 s3 /\ nonlinear_part P ft t (e_derived e) s3 k3 /\
   implicit_stage p dt t e Y k3 s4 /\ nonlinear_part P ft t (e_derived e) s4 k4) /\
  total n i e' = total n i e + dt / 6 * (g Y + 2 * g s2 + 2 * g s3 + g s4) /\
  lp_first v' = false /\ lp_integral v' = total n i e' /\
  lp_value v' = if lp_first v then lp_value v
                else lp_value v - (total n i e' - lp_integral v) / (dt * indicator ind (at_amplitudes p ft (e_derived e) s4)).
Proof. intros n p i ind ft OK CD DF t dt e v He. exact (rk4_vol n p i ind ft OK CD DF t dt e v He). Qed.
Print Assumptions C49_rk4_step_partial.

(** If the rate and the indicator are steady, the total is the same after all
    steps from the second on. *)
Theorem C49_rk4_steady_partial : forall n p i ind ft, vol_ok n p i ind ft -> constant_denum p -> derived_from_fields p ->
  forall clock dt N e st, dt <> 0 -> suits n p e -> vol_history rk4_step p i ind ft dt clock n N e st ->
  forall I0 c, I0 <> 0 ->
  (forall t d S, length d = length (p_calc p) -> rate p i n t (at_amplitudes p ft d S) = c * I0 /\ indicator ind (at_amplitudes p ft d S) = I0) ->
  forall k, (2 <= k <= N)%nat -> total n i (fst (st k)) = total n i (fst (st 2%nat)) /\ total n i (fst (st 2%nat)) = total n i e + 2 * (dt * (c * I0)).
Proof.
  intros n p i ind ft OK CD DF clock dt N e st Hdt He Hh I0 c HI HC k Hk.
  assert (A := rk4_states n p i ind ft OK CD DF clock dt N e st Hdt He Hh I0 c HI HC).
  destruct (A k ltac:(lia)) as (_ & _ & _ & _ & E1). destruct (A 2%nat ltac:(lia)) as (_ & _ & _ & _ & E2). rewrite E1, E2. replace (Nat.min k 2) with 2%nat by lia. cbn. split; ring.
Qed.
Print Assumptions C49_rk4_steady_partial.

(** *** Two fields on two nodes: the first decays; the second is constrained,
    grows at the rate 3 everywhere and follows the modulation of the first. *)
Definition decays : term := fun _ _ _ => [C0; RtoC (-1)].
Definition grows : term := fun e _ _ => [RtoC 6; Copp (nth 1 (nth 0 (e_fields e) []) C0)].
Definition duo : pde := {|
  p_calc := [fun _ => [C1; C1]];
  p_eqns := [{| q_terms := []; q_denum := [decays]; q_sources := [] |}; {| q_terms := [grows]; q_denum := []; q_sources := [] |}];
  p_mods := [] |}.
Definition duo_start : env := {| e_fields := [[RtoC 2; RtoC 5]; [RtoC 1; RtoC 4]]; e_derived := [[C0; C0]] |}.
Lemma duo_ok : vol_ok 2 duo 1 0 ft2.
Proof.
  constructor.
  - lia.
  - exact ft2_good.
  - constructor.
    + intros c e [<-|[]]. reflexivity.
    + intros q f e t tmp [<-|[<-|[]]] [H|H] _; cbn in H; destruct H as [<-|[]] || destruct H; reflexivity.
    + intros q s t tmp [<-|[<-|[]]] [].
    + intros m d [].
  - cbn. lia.
  - cbn. lia.
  - intros q s t tmp tmp' [<-|[<-|[]]] [].
  - intros e t a E. injection E as <-. reflexivity.
  - intros m [].
Qed.
Lemma duo_denum : constant_denum duo.
Proof. intros e e' i t n. destruct i as [|[|i]]; [reflexivity|reflexivity|]. unfold get_denum. cbn [duo p_eqns nth_error]. destruct i; reflexivity. Qed.
Lemma duo_derived : derived_from_fields duo.
Proof. intros fs d d' H H'. destruct d as [|x [|]]; try discriminate H. destruct d' as [|x' [|]]; try discriminate H'. reflexivity. Qed.
Lemma duo_rate t s : rate duo 1 2 t s = 6.
Proof. unfold rate. cbn. lra. Qed.
Lemma duo_indicator d S : length d = 1%nat -> indicator 0 (at_amplitudes duo ft2 d S) = 2.
Proof. intros H. destruct d as [|x [|]]; try discriminate H. cbn. lra. Qed.
Lemma duo_spectrum e : length (e_derived e) = 1%nat -> indicator 0 (spectrum duo ft2 e) = 2.
Proof. intros H. destruct e as [fs d]. cbn [e_derived] in H. destruct d as [|x [|]]; try discriminate H. cbn. lra. Qed.
Lemma duo_suits : suits 2 duo duo_start.
Proof. split; [repeat constructor|]. split; reflexivity. Qed.

(** From the second step on the total of the second field is 5 + 2 dt 6 with
    both steppers, for every number of steps. *)
Example C49_general_nonvacuous : forall dt clock N, 0 < dt ->
  vol_ok 2 duo 1 0 ft2 /\ constant_denum duo /\ derived_from_fields duo /\ suits 2 duo duo_start
  /\ (exists st, vol_history rk4_step duo 1 0 ft2 dt clock 2 N duo_start st /\ forall k, (2 <= k <= N)%nat -> total 2 1 (fst (st k)) = 5 + 12 * dt)
  /\ (exists st, vol_history euler_step duo 1 0 ft2 dt clock 2 N duo_start st /\ forall k, (2 <= k <= N)%nat -> total 2 1 (fst (st k)) = 5 + 12 * dt).
Proof.
  intros dt clock N Hdt. split; [exact duo_ok|]. split; [exact duo_denum|]. split; [exact duo_derived|]. split; [exact duo_suits|].
  assert (T0 : total 2 1 duo_start = 5) by (cbn; lra).
  split.
  - destruct (proj2 (C49_runs_complete 2 duo 1 0 ft2 dt clock duo_ok N duo_start duo_suits) duo_denum duo_derived) as (st & Hst). exists st. split; [exact Hst|]. intros k Hk.
    destruct (C49_rk4_steady_partial 2 duo 1 0 ft2 duo_ok duo_denum duo_derived clock dt N duo_start st ltac:(lra) duo_suits Hst 2 3 ltac:(lra)) with (k := k) as [E1 E2]; [|exact Hk|lra].
    intros t d S Hd. split; [rewrite duo_rate; lra|apply duo_indicator; exact Hd].
  - destruct (history_exists euler_step duo 1 0 ft2 dt clock 2 (suits 2 duo) (fun t e v => euler_suits 2 duo 1 0 ft2 duo_ok t dt e v) N duo_start duo_suits) as (st & Hst & HSu). exists st. split; [exact Hst|].
    assert (HF : forall k, (k <= N)%nat -> euler_rate duo ft2 dt (clock k) 1 2 (fst (st k)) = 6 /\ indicator 0 (spectrum duo ft2 (fst (st k))) = 2).
    { intros k Hk. destruct (HSu k Hk) as (A & B & C). split; [|apply duo_spectrum; exact C]. unfold euler_rate.
      destruct (e_fields (fst (st k))) as [|f0 [|f1 [|]]] eqn:EF; try discriminate B. cbn [euler_fields]. unfold spectrum at 1. rewrite EF. cbn [e_fields map nth_error]. cbn [get_rhs get_denum duo p_eqns nth_error]. apply duo_rate. }
    intros k Hk. destruct (C49_euler_changes 2 duo 1 0 ft2 dt clock duo_ok ltac:(lra) N duo_start st duo_suits Hst 0%nat ltac:(lia)) as [C0' _].
    destruct (C49_euler_changes 2 duo 1 0 ft2 dt clock duo_ok ltac:(lra) N duo_start st duo_suits Hst 1%nat ltac:(lia)) as [C1' _]. specialize (C0' ltac:(lia)). specialize (C1' ltac:(lia)).
    rewrite (proj1 (HF 0%nat ltac:(lia))), (proj1 Hst) in C0'. cbn [fst] in C0'. rewrite (proj1 (HF 1%nat ltac:(lia))) in C1'.
    pose proof (C49_euler_drift_partial 2 duo 1 0 ft2 dt clock duo_ok Hdt N duo_start st 0 2 duo_suits Hst) as D. cbv zeta in D.
    assert (B : Rabs (total 2 1 (fst (st k)) - total 2 1 (fst (st 2%nat))) <= INR (k - 2) * (dt * 2 * 0)).
    { apply D; [| |exact Hk].
      - intros j Hj. rewrite (proj2 (HF j ltac:(lia))). rewrite Rabs_right by lra. split; lra.
      - intros j Hj. rewrite (proj1 (HF j ltac:(lia))), (proj2 (HF j ltac:(lia))), (proj1 (HF (j - 1)%nat ltac:(lia))), (proj2 (HF (j - 1)%nat ltac:(lia))). replace (6 / 2 - 6 / 2) with 0 by ring. rewrite Rabs_R0. lra. }
    replace (INR (k - 2) * (dt * 2 * 0)) with 0 in B by ring. pose proof (Rabs_pos (total 2 1 (fst (st k)) - total 2 1 (fst (st 2%nat)))).
    assert (E : total 2 1 (fst (st k)) - total 2 1 (fst (st 2%nat)) = 0). { destruct (Req_dec (total 2 1 (fst (st k)) - total 2 1 (fst (st 2%nat))) 0) as [Q|Q]; [exact Q|]. apply Rabs_no_R0 in Q. lra. }
    lra.
Qed.
