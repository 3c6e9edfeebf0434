From Verif Require Import EnergySpec EnergyProofs EnergyProofs2 EnergyProofs3 StepProofs ConserveProofs SddProofs Vec CVec Complex.
From Coq Require Import Lra Lia.
Open Scope R_scope.

Lemma vadd_nth0 d s : d <> [] -> s <> [] -> nth 0 (vadd d s) C0 = Cadd (nth 0 d C0) (nth 0 s C0).
Proof. destruct d, s; try congruence; reflexivity. Qed.

Lemma volume_csum n d dd : length d = n -> volume n {| e_fields := [d]; e_derived := dd |} = Re (Csum d).
Proof. intros H. unfold volume. cbn [e_fields nth]. rewrite Csum_seq, csum_re, H. reflexivity. Qed.

Section Step.
  Variables (n : nat) (calc : env -> data) (rest den : list term) (ft : transform) (dt : R).
  Hypothesis OK : lp_ok n calc rest den ft.

  (** One step: shape of the result, change of the volume, new multiplier. *)
  Lemma lp_step_spec t e v : one_field n e -> exists e' v',
    lp_step calc rest den ft dt t n (e, v) = Some (e', v') /\ one_field n e' /\
    volume n e' = volume n e + dt * (forcing calc rest den ft n t e + lp_value v * indicator_total calc e) /\
    lp_first v' = false /\ lp_integral v' = volume n e' /\
    lp_value v' = if lp_first v then lp_value v
                  else lp_value v - (volume n e' - lp_integral v) / (dt * indicator_total calc e).
  Proof.
    intros (Hf & H1 & H2). destruct OK as [Hn G Lc Lr Ld].
    destruct e as [fs ds]. cbn [e_fields e_derived] in *.
    destruct fs as [|d [|]]; try discriminate H1. destruct ds as [|dd [|]]; try discriminate H2.
    pose proof (Forall_inv Hf) as Hd. cbv beta in Hd.
    unfold lp_step, euler_step. cbn [lp_pde p_calc sync sync_from set_derived set_nth e_fields e_derived length map euler_fields nth_error].
    set (e0 := {| e_fields := [d]; e_derived := [dd] |}).
    set (s := {| e_fields := [fft ft d]; e_derived := [fft ft (calc e0)] |}).
    assert (Lfd : length (fft ft d) = n) by exact (gt_fft_len _ _ G _ Hd). rewrite Lfd.
    assert (Lfc : length (fft ft (calc e0)) = n) by exact (gt_fft_len _ _ G _ (Lc e0)).
    set (st0 := (repeat C0 n, repeat C0 n)).
    assert (FL : length (fst (fold_left (add_term s t) rest st0)) = n /\ length (snd (fold_left (add_term s t) rest st0)) = n).
    { apply fold_terms_length; [apply repeat_length|apply repeat_length|]. intros f tmp Hin Ht. apply Lr; assumption. }
    destruct FL as [FL1 FL2].
    assert (ER : get_rhs (lp_pde calc rest den v) s 0 t n = Some (vadd (fst (fold_left (add_term s t) rest st0)) (lp_term v 0 s t (snd (fold_left (add_term s t) rest st0))))).
    { unfold get_rhs. cbn [lp_pde p_eqns nth_error q_terms q_sources fold_left p_mods apply_mods]. rewrite fold_left_app. reflexivity. }
    assert (EF : forcing calc rest den ft n t e0 = Re (nth 0 (fst (fold_left (add_term s t) rest st0)) C0)) by reflexivity.
    pose proof (fold_terms_zero n s t den st0 (repeat_length _ _) (repeat_zero n)) as DZ. cbv beta in DZ.
    assert (DZ1 : nth 0 (fst (fold_left (add_term s t) den st0)) C0 = C0).
    { apply DZ. intros f Hin. split; [intros e1 t1 tmp Ht; apply Ld; assumption|]. intros tmp Ht. apply Ld; assumption. }
    assert (DL : length (fst (fold_left (add_term s t) den st0)) = n).
    { apply fold_terms_length; [apply repeat_length|apply repeat_length|]. intros f tmp Hin Ht. apply Ld; assumption. }
    assert (EA : get_denum (lp_pde calc rest den v) s 0 t n = Some (fst (fold_left (add_term s t) den st0))) by reflexivity.
    rewrite ER, EA. clear ER EA DZ.
    set (r := vadd _ _). set (a := fst (fold_left (add_term s t) den st0)) in *.
    cbn [set_field set_nth e_fields e_derived apply_filter map].
    set (y' := map3 (semi_implicit dt) (fft ft d) r a).
    assert (Lrr : length r = n) by (unfold r; rewrite vadd_length; exact FL1).
    assert (Ly : length y' = n) by (unfold y'; apply map3_length; assumption).
    set (d' := to_real ft y').
    assert (Ld' : length d' = n) by (unfold d', to_real; rewrite div_real_length; exact (gt_ifft_len _ _ G _ Ly)).
    eexists _, _. split; [reflexivity|].
    assert (V0 : volume n e0 = Re (Csum d)) by (apply volume_csum; exact Hd).
    assert (V1 : volume n {| e_fields := [d']; e_derived := e_derived s |} = Re (Csum d')) by (apply volume_csum; exact Ld').
    assert (I0 : indicator_total calc e0 = Re (nth 0 (fft ft (calc e0)) C0)).
    { unfold indicator_total. rewrite (gt_zero _ _ G _ (Lc e0)). reflexivity. }
    assert (S1 : Csum d' = Cadd (Csum d) (Cmul (RtoC dt) (nth 0 r C0))).
    { rewrite <- (gt_zero _ _ G d' Ld'). unfold d'. rewrite (gt_inverse _ _ G _ Ly), <- (gt_zero _ _ G d Hd). unfold y'.
      destruct (fft ft d) as [|y0 ys]; [cbn in Lfd; lia|]. destruct r as [|r0 rs]; [cbn in Lrr; lia|]. destruct a as [|a0 as_]; [cbn in DL; lia|].
      cbn [map3 nth] in *. rewrite DZ1. unfold semi_implicit. apply Cdiv_one. }
    assert (R0 : nth 0 r C0 = Cadd (nth 0 (fst (fold_left (add_term s t) rest st0)) C0) (Cmul (nth 0 (fft ft (calc e0)) C0) (RtoC (lp_value v)))).
    { unfold r. rewrite vadd_nth0.
      - f_equal. unfold lp_term. rewrite FL2. rewrite nth_map_seq by lia. reflexivity.
      - intros E. rewrite E in FL1. cbn in FL1. lia.
      - unfold lp_term. rewrite FL2. destruct n; [lia|discriminate]. }
    assert (VV : volume n {| e_fields := [d']; e_derived := e_derived s |} = volume n e0 + dt * (forcing calc rest den ft n t e0 + lp_value v * indicator_total calc e0)).
    { rewrite V1, V0, S1, R0, EF, I0. destruct (Csum d), (nth 0 (fst (fold_left (add_term s t) rest st0)) C0), (nth 0 (fft ft (calc e0)) C0). cbn. ring. }
    cbn [e_derived s]. split; [|split].
    - split; [constructor; [exact Ld'|constructor]|]. split; reflexivity.
    - exact VV.
    - unfold lp_finished. fold (volume n {| e_fields := [d']; e_derived := e_derived s |}).
      change (rsum n (fun i => Re (nth i (nth 0 (e_fields {| e_fields := [d']; e_derived := [fft ft (calc e0)] |}) []) C0))) with (volume n {| e_fields := [d']; e_derived := [fft ft (calc e0)] |}).
      cbn [nth e_derived]. destruct (lp_first v); cbn [lp_first lp_integral lp_value]; (split; [reflexivity|]; split; [reflexivity|]).
      + reflexivity.
      + rewrite I0. reflexivity.
  Qed.

  (** The multiplier after a controlled step removes the forcing of that step. *)
  Lemma lp_multiplier t e v e' v' : dt <> 0 -> indicator_total calc e <> 0 -> one_field n e ->
    lp_first v = false -> lp_integral v = volume n e ->
    lp_step calc rest den ft dt t n (e, v) = Some (e', v') ->
    lp_value v' = - (forcing calc rest den ft n t e / indicator_total calc e).
  Proof.
    intros Hdt Hi H1 Hf Hv E. destruct (lp_step_spec t e v H1) as (e2 & v2 & E2 & _ & V & _ & _ & L).
    rewrite E in E2. injection E2 as <- <-. rewrite Hf, Hv, V in L. rewrite L. field. split; assumption.
  Qed.

  Lemma lp_second t0 t1 e0 v0 e1 v1 e2 v2 : dt <> 0 -> indicator_total calc e0 <> 0 -> one_field n e0 ->
    lp_first v0 = false -> lp_integral v0 = volume n e0 ->
    lp_step calc rest den ft dt t0 n (e0, v0) = Some (e1, v1) ->
    lp_step calc rest den ft dt t1 n (e1, v1) = Some (e2, v2) ->
    volume n e2 - volume n e1 =
      dt * indicator_total calc e1 * (forcing calc rest den ft n t1 e1 / indicator_total calc e1 - forcing calc rest den ft n t0 e0 / indicator_total calc e0)
    \/ indicator_total calc e1 = 0.
  Proof.
    intros Hdt Hi H1 Hf Hv Ea Eb. destruct (Req_dec (indicator_total calc e1) 0) as [Z|Z]; [right; exact Z|left].
    pose proof (lp_multiplier t0 e0 v0 e1 v1 Hdt Hi H1 Hf Hv Ea) as L.
    destruct (lp_step_spec t0 e0 v0 H1) as (e' & v' & E' & O1 & _). rewrite Ea in E'. injection E' as <- <-.
    destruct (lp_step_spec t1 e1 v1 O1) as (e' & v' & E' & _ & V & _). rewrite Eb in E'. injection E' as <- <-.
    rewrite V, L. field. split; assumption.
  Qed.

  (** The state after the bookkeeping of a step. *)
  Definition tracked (st : env * multiplier) : Prop :=
    one_field n (fst st) /\ lp_first (snd st) = false /\ lp_integral (snd st) = volume n (fst st).

  Lemma lp_step_tracked t e v st' : one_field n e -> lp_step calc rest den ft dt t n (e, v) = Some st' -> tracked st'.
  Proof.
    intros H E. destruct (lp_step_spec t e v H) as (e' & v' & E' & O & _ & F & I & _). rewrite E in E'. injection E' as ->.
    split; [exact O|]. split; assumption.
  Qed.

  Lemma lp_run_tracked k : forall step st st', tracked st -> lp_run calc rest den ft dt n step k st = Some st' -> tracked st'.
  Proof.
    induction k as [|k IH]; intros step [e v] st' T E; cbn [lp_run] in E; [injection E as <-; exact T|].
    destruct (lp_step calc rest den ft dt (time_of dt step) n (e, v)) as [st1|] eqn:E1; [|discriminate].
    apply (IH _ _ _ (lp_step_tracked _ _ _ _ (proj1 T) E1) E).
  Qed.

  Lemma lp_run_total k : forall step st, one_field n (fst st) -> exists st', lp_run calc rest den ft dt n step k st = Some st' /\ one_field n (fst st').
  Proof.
    induction k as [|k IH]; intros step [e v] H; cbn [lp_run]; [eexists; split; [reflexivity|exact H]|].
    destruct (lp_step_spec (time_of dt step) e v H) as (e' & v' & E & O & _). rewrite E. apply (IH (S step) (e', v') O).
  Qed.

  (** Change per step bounded by the change of the ratio forcing / indicator. *)
  Lemma lp_drift k : forall (eps M : R) step e0 v0 e1 v1 e2 v2,
    0 < dt -> one_field n e0 -> lp_first v0 = false -> lp_integral v0 = volume n e0 ->
    lp_step calc rest den ft dt (time_of dt step) n (e0, v0) = Some (e1, v1) ->
    lp_run calc rest den ft dt n (S step) k (e1, v1) = Some (e2, v2) ->
    (forall j e v, (j <= k)%nat -> lp_run calc rest den ft dt n step j (e0, v0) = Some (e, v) ->
       indicator_total calc e <> 0 /\ Rabs (indicator_total calc e) <= M) ->
    (forall j e v e' v', (j < k)%nat -> lp_run calc rest den ft dt n step j (e0, v0) = Some (e, v) ->
       lp_step calc rest den ft dt (time_of dt (step + j)) n (e, v) = Some (e', v') ->
       Rabs (forcing calc rest den ft n (time_of dt (S (step + j))) e' / indicator_total calc e'
             - forcing calc rest den ft n (time_of dt (step + j)) e / indicator_total calc e) <= eps) ->
    Rabs (volume n e2 - volume n e1) <= INR k * (dt * M * eps).
  Proof.
    induction k as [|k IH]; intros eps M step e0 v0 e1 v1 e2 v2 Hdt O0 F0 I0 E01 E12 HI HR.
    - cbn [lp_run] in E12. injection E12 as <- <-. replace (volume n e1 - volume n e1) with 0 by ring. rewrite Rabs_R0. cbn [INR]. lra.
    - cbn [lp_run] in E12. destruct (lp_step calc rest den ft dt (time_of dt (S step)) n (e1, v1)) as [[e1' v1']|] eqn:E1; [|discriminate].
      destruct (lp_step_tracked _ _ _ _ O0 E01) as (O1 & F1 & I1). cbn [fst snd] in *.
      assert (B : Rabs (volume n e2 - volume n e1') <= INR k * (dt * M * eps)).
      { apply (IH eps M (S step) e1 v1 e1' v1' e2 v2 Hdt O1 F1 I1 E1 E12).
        - intros j e v Hj Er. apply (HI (S j) e v ltac:(lia)). cbn [lp_run]. rewrite E01. exact Er.
        - intros j e v e' v' Hj Er Es. replace (S step + j)%nat with (step + S j)%nat in * by lia.
          apply (HR (S j) e v e' v' ltac:(lia)); [|exact Es]. cbn [lp_run]. rewrite E01. exact Er. }
      destruct (HI 0%nat e0 v0 ltac:(lia) eq_refl) as [N0 _].
      assert (R1 : lp_run calc rest den ft dt n step 1 (e0, v0) = Some (e1, v1)) by (cbn [lp_run]; rewrite E01; reflexivity).
      destruct (HI 1%nat e1 v1 ltac:(lia) R1) as [N1 B1].
      destruct (lp_second (time_of dt step) (time_of dt (S step)) e0 v0 e1 v1 e1' v1' ltac:(lra) N0 O0 F0 I0 E01 E1) as [D|Z]; [|contradiction].
      pose proof (HR 0%nat e0 v0 e1 v1 ltac:(lia) eq_refl) as Q. rewrite Nat.add_0_r in Q. specialize (Q E01).
      assert (B2 : Rabs (volume n e1' - volume n e1) <= dt * M * eps).
      { rewrite D, !Rabs_mult. rewrite (Rabs_right dt) by lra. apply Rmult_le_compat; [apply Rmult_le_pos; [lra|apply Rabs_pos]|apply Rabs_pos| |exact Q].
        apply Rmult_le_compat_l; lra. }
      replace (volume n e2 - volume n e1) with ((volume n e2 - volume n e1') + (volume n e1' - volume n e1)) by ring.
      pose proof (Rabs_triang (volume n e2 - volume n e1') (volume n e1' - volume n e1)). rewrite S_INR. lra.
  Qed.

  (** The first two steps run with multiplier zero. *)
  Lemma lp_start t0 t1 e0 e1 v1 e2 v2 : one_field n e0 ->
    lp_step calc rest den ft dt t0 n (e0, new_multiplier) = Some (e1, v1) ->
    lp_step calc rest den ft dt t1 n (e1, v1) = Some (e2, v2) ->
    volume n e2 = volume n e0 + dt * (forcing calc rest den ft n t0 e0 + forcing calc rest den ft n t1 e1) /\
    tracked (e1, v1) /\ lp_value v1 = 0.
  Proof.
    intros O0 Ea Eb.
    destruct (lp_step_spec t0 e0 new_multiplier O0) as (e' & v' & E' & O1 & V1 & F1 & I1 & L1). rewrite Ea in E'. injection E' as <- <-.
    cbn [new_multiplier lp_first lp_value] in *.
    destruct (lp_step_spec t1 e1 v1 O1) as (e' & v' & E' & _ & V & _). rewrite Eb in E'. injection E' as <- <-.
    split; [rewrite V, V1, L1; ring|]. split; [|exact L1]. split; [exact O1|]. split; assumption.
  Qed.
End Step.
