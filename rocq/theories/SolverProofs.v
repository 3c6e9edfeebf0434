From Verif Require Import ListAux SolverModel SolverSpec StepProofs.
Open Scope R_scope.

Lemma flat_map_ext_in {A B} (f g : A -> list B) l : (forall x, In x l -> f x = g x) -> flat_map f l = flat_map g l.
Proof. induction l as [|x l IH]; cbn; intros H; [reflexivity|]. rewrite (H x) by auto. f_equal. apply IH. auto. Qed.

Lemma flat_map_shift {B} (f : nat -> list B) a n : flat_map f (seq (S a) n) = flat_map (fun k => f (S k)) (seq a n).
Proof. revert a. induction n as [|n IH]; intros a; cbn; [reflexivity|]. f_equal. apply IH. Qed.

Lemma propagate_trace {S} (sp : stepper S) sv : forall nsteps hist, history sp hist nsteps ->
  solver_propagate sp sv nsteps (hist 0%nat) =
  Some (hist nsteps, flat_map (fun j => let s := hist (j + 1)%nat in map (fun tm => EFinished tm (st_time sp s) s) (sv_terms sv)) (seq 0 nsteps)).
Proof.
  induction nsteps as [|n IH]; intros hist H; cbn [solver_propagate]; [reflexivity|].
  rewrite (H 0%nat) by lia.
  pose proof (IH (fun k => hist (Datatypes.S k))) as IH'. cbn beta in IH'. rewrite IH'.
  - cbn [seq flat_map]. rewrite flat_map_shift. reflexivity.
  - intros k Hk. apply H. lia.
Qed.

Lemma solve_from_trace {S} (sp : stepper S) sv nsteps : forall ne i hist, history sp hist (ne * nsteps) ->
  solve_from sp sv ne i nsteps (hist 0%nat) =
  Some (hist (ne * nsteps)%nat, flat_map (fun k => epoch_trace sp sv hist nsteps (sv_start sv + i + Z.of_nat k)%Z k) (seq 0 ne)).
Proof.
  induction ne as [|ne IH]; intros i hist H; cbn [solve_from]; [reflexivity|].
  rewrite propagate_trace by (intros k Hk; apply H; cbn; lia).
  pose proof (IH (i + 1)%Z (fun k => hist (nsteps + k)%nat)) as IH'. cbn beta in IH'.
  rewrite Nat.add_0_r in IH'. rewrite IH'.
  - f_equal. f_equal. cbn [seq flat_map]. rewrite flat_map_shift.
    assert (E0 : epoch_trace sp sv hist nsteps (sv_start sv + i + Z.of_nat 0) 0 =
      flat_map (fun j => let s := hist (j + 1)%nat in map (fun tm => EFinished tm (st_time sp s) s) (sv_terms sv)) (seq 0 nsteps)
      ++ map (fun c => ECallback c (i + sv_start sv)%Z (hist nsteps)) (sv_callbacks sv)
      ++ map (fun m => EMonitor m (hist nsteps)) (sv_monitors sv)).
    { unfold epoch_trace. cbn [Nat.mul Nat.add]. rewrite Nat.add_0_r.
      replace (sv_start sv + i + Z.of_nat 0)%Z with (i + sv_start sv)%Z by lia. reflexivity. }
    rewrite E0, <- !app_assoc. f_equal. f_equal.
    f_equal. apply flat_map_ext_in. intros k _. unfold epoch_trace.
    replace (sv_start sv + (i + 1) + Z.of_nat k)%Z with (sv_start sv + i + Z.of_nat (Datatypes.S k))%Z by lia.
    f_equal. apply flat_map_ext_in. intros j _.
    replace (nsteps + (k * nsteps + j + 1))%nat with (Datatypes.S k * nsteps + j + 1)%nat by (cbn; lia). reflexivity.
  - intros k Hk. replace (nsteps + Datatypes.S k)%nat with (Datatypes.S (nsteps + k)) by lia. apply H. cbn. lia.
Qed.

Lemma solve_trace {S} (sp : stepper S) sv nsteps ne hist : history sp hist (ne * nsteps) ->
  solve sp sv ne nsteps (hist 0%nat) = Some (hist (ne * nsteps)%nat, run_trace sp sv hist ne nsteps).
Proof.
  intros H. unfold solve, run_trace. rewrite (solve_from_trace sp sv nsteps ne 0 hist H). f_equal. f_equal.
  apply flat_map_ext_in. intros k _. f_equal. lia.
Qed.

(** A finished run has a history. *)
Lemma propagate_history {S} (sp : stepper S) sv : forall nsteps s s' tr,
  solver_propagate sp sv nsteps s = Some (s', tr) -> exists hist, hist 0%nat = s /\ hist nsteps = s' /\ history sp hist nsteps.
Proof.
  induction nsteps as [|n IH]; intros s s' tr H; cbn [solver_propagate] in H.
  - injection H as <- _. exists (fun _ => s). split; [reflexivity|]. split; [reflexivity|]. intros k Hk. lia.
  - destruct (st_step sp s) as [s1|] eqn:E; [|discriminate].
    destruct (solver_propagate sp sv n s1) as [[s2 tr2]|] eqn:E2; [|discriminate]. injection H as <- _.
    destruct (IH s1 s2 tr2 E2) as (h & H0 & Hn & Hh).
    exists (fun k => match k with O => s | Datatypes.S k' => h k' end).
    split; [reflexivity|]. split; [exact Hn|]. intros [|k] Hk; [rewrite H0; exact E|]. apply Hh. lia.
Qed.

Lemma solve_history {S} (sp : stepper S) sv nsteps : forall ne i s s' tr,
  solve_from sp sv ne i nsteps s = Some (s', tr) ->
  exists hist, hist 0%nat = s /\ hist (ne * nsteps)%nat = s' /\ history sp hist (ne * nsteps).
Proof.
  induction ne as [|ne IH]; intros i s s' tr H; cbn [solve_from] in H.
  - injection H as <- _. exists (fun _ => s). split; [reflexivity|]. split; [reflexivity|]. intros k Hk. cbn in Hk. lia.
  - destruct (solver_propagate sp sv nsteps s) as [[s1 tr1]|] eqn:E; [|discriminate].
    destruct (solve_from sp sv ne (i + 1) nsteps s1) as [[s2 tr2]|] eqn:E2; [|discriminate]. injection H as <- _.
    destruct (propagate_history sp sv nsteps s s1 tr1 E) as (h1 & A0 & An & Ah).
    destruct (IH (i + 1)%Z s1 s2 tr2 E2) as (h2 & B0 & Bn & Bh).
    exists (fun k => if Nat.leb k nsteps then h1 k else h2 (k - nsteps)%nat).
    split; [exact A0|]. cbn [Nat.mul]. split.
    + destruct (Nat.leb_spec (nsteps + ne * nsteps) nsteps) as [Hle|Hgt].
      * assert (Z : (ne * nsteps = 0)%nat) by lia. rewrite Z in *. rewrite Nat.add_0_r, An. congruence.
      * replace (nsteps + ne * nsteps - nsteps)%nat with (ne * nsteps)%nat by lia. exact Bn.
    + intros k Hk. destruct (Nat.leb_spec k nsteps) as [Hle|Hgt], (Nat.leb_spec (Datatypes.S k) nsteps) as [Hle'|Hgt']; try lia.
      * apply Ah. lia.
      * assert (k = nsteps) by lia. subst k. rewrite An. replace (Datatypes.S nsteps - nsteps)%nat with 1%nat by lia.
        rewrite <- B0. apply Bh. lia.
      * replace (Datatypes.S k - nsteps)%nat with (Datatypes.S (k - nsteps)) by lia. apply Bh. lia.
Qed.

Lemma solve_some {S} (sp : stepper S) sv ne nsteps s s' tr :
  solve sp sv ne nsteps s = Some (s', tr) <->
  exists hist, hist 0%nat = s /\ hist (ne * nsteps)%nat = s' /\ history sp hist (ne * nsteps) /\ tr = run_trace sp sv hist ne nsteps.
Proof.
  split.
  - intros H. destruct (solve_history sp sv nsteps ne 0 s s' tr H) as (h & H0 & Hn & Hh). exists h.
    repeat split; auto. pose proof (solve_trace sp sv nsteps ne h Hh) as T. rewrite H0 in T. unfold solve in *. congruence.
  - intros (h & <- & <- & Hh & ->). apply solve_trace. exact Hh.
Qed.

(** Two runs in a row reach the state of one. *)
Lemma solve_consecutive {S} (sp : stepper S) sv ne1 ne2 nsteps s s1 s2 tr1 tr2 :
  solve sp sv ne1 nsteps s = Some (s1, tr1) -> solve sp sv ne2 nsteps s1 = Some (s2, tr2) ->
  exists tr, solve sp sv (ne1 + ne2) nsteps s = Some (s2, tr).
Proof.
  unfold solve. intros H1 H2.
  assert (G : forall ne1 s i tr1, solve_from sp sv ne1 i nsteps s = Some (s1, tr1) ->
              exists tr, solve_from sp sv (ne1 + ne2) i nsteps s = Some (s2, tr)).
  { clear H1 tr1 s ne1. induction ne1 as [|ne1 IH]; intros s i tr1 H; cbn [solve_from Nat.add] in *.
    - injection H as <- _.
      assert (K : forall ne s i j s2 tr, solve_from sp sv ne i nsteps s = Some (s2, tr) -> exists tr', solve_from sp sv ne j nsteps s = Some (s2, tr')).
      { clear. induction ne as [|ne IH]; intros s i j s2 tr H; cbn [solve_from] in *; [injection H as <- _; eauto|].
        destruct (solver_propagate sp sv nsteps s) as [[s1 t1]|]; [|discriminate].
        destruct (solve_from sp sv ne (i + 1) nsteps s1) as [[s3 t3]|] eqn:E; [|discriminate]. injection H as <- _.
        destruct (IH s1 _ (j + 1)%Z _ _ E) as (tr' & ->). eauto. }
      eapply K. exact H2.
    - destruct (solver_propagate sp sv nsteps s) as [[s0 t0]|]; [|discriminate].
      destruct (solve_from sp sv ne1 (i + 1) nsteps s0) as [[s3 t3]|] eqn:E; [|discriminate]. injection H as <- _.
      destruct (IH s0 _ _ E) as (tr & ->). eauto. }
  exact (G ne1 s 0%Z tr1 H1).
Qed.

(** ** Time *)

Lemma euler_history p ft filt dt hist n : history (euler_stepper p ft filt dt) hist n ->
  forall k, (k <= n)%nat -> snd (hist k) = (snd (hist 0%nat) + k)%nat.
Proof.
  intros H. induction k as [|k IH]; intros Hk; [lia|].
  pose proof (H k ltac:(lia)) as E. cbn [st_step euler_stepper] in E.
  destruct (euler_step p ft filt dt (time_of dt (snd (hist k))) (fst (hist k))); [|discriminate].
  injection E as E. rewrite <- E. cbn. rewrite IH by lia. lia.
Qed.

Lemma rk4_history p ft filt dt hist n : history (rk4_stepper p ft filt dt) hist n ->
  forall k, (k <= n)%nat -> snd (hist k) = snd (hist 0%nat).
Proof.
  intros H. induction k as [|k IH]; intros Hk; [lia|].
  pose proof (H k ltac:(lia)) as E. cbn [st_step rk4_stepper] in E.
  destruct (rk4_step p ft filt dt (time_of dt (snd (hist k))) (fst (hist k))); [|discriminate].
  injection E as E. rewrite <- E. cbn. apply IH. lia.
Qed.

Lemma euler_solve_time p ft filt dt sv ne nsteps s s' tr :
  solve (euler_stepper p ft filt dt) sv ne nsteps s = Some (s', tr) ->
  st_time (euler_stepper p ft filt dt) s' = st_time (euler_stepper p ft filt dt) s + INR (ne * nsteps) * dt.
Proof.
  intros H. apply solve_some in H. destruct H as (h & <- & <- & Hh & _).
  cbn [st_time euler_stepper]. unfold time_of. rewrite (euler_history _ _ _ _ _ _ Hh (ne * nsteps)) by lia. rewrite plus_INR. ring.
Qed.

Lemma rk4_solve_time p ft filt dt sv ne nsteps s s' tr :
  solve (rk4_stepper p ft filt dt) sv ne nsteps s = Some (s', tr) ->
  st_time (rk4_stepper p ft filt dt) s' = st_time (rk4_stepper p ft filt dt) s.
Proof.
  intros H. apply solve_some in H. destruct H as (h & <- & <- & Hh & _).
  cbn [st_time rk4_stepper]. rewrite (rk4_history _ _ _ _ _ _ Hh (ne * nsteps)) by lia. reflexivity.
Qed.

(** The Euler stepper under the solver is Euler.Propagate. *)
Lemma solver_euler_propagate p ft filt dt sv : forall nsteps e k,
  option_map fst (solver_propagate (euler_stepper p ft filt dt) sv nsteps (e, k)) =
  euler_propagate p ft filt dt nsteps k e.
Proof.
  induction nsteps as [|n IH]; intros e k; cbn [solver_propagate euler_propagate]; [reflexivity|].
  cbn [st_step euler_stepper fst snd]. destruct (euler_step p ft filt dt (time_of dt k) e) as [e1|]; [|reflexivity].
  rewrite <- IH. destruct (solver_propagate _ sv n (e1, S k)) as [[s2 tr]|]; reflexivity.
Qed.

(** ** Monitors *)

Lemma point_monitor_app {S} (brick : S -> nat -> C) site m tr1 tr2 d :
  point_monitor_run brick site m (tr1 ++ tr2) d = point_monitor_run brick site m tr2 (point_monitor_run brick site m tr1 d).
Proof. unfold point_monitor_run. apply fold_left_app. Qed.

Lemma point_monitor_epoch {S} (sp : stepper S) sv hist nsteps epoch k (brick : S -> nat -> C) site m d :
  NoDup (sv_monitors sv) -> In m (sv_monitors sv) ->
  point_monitor_run brick site m (epoch_trace sp sv hist nsteps epoch k) d = d ++ [Re (brick (hist ((k + 1) * nsteps)%nat) site)].
Proof.
  intros ND Hin. unfold epoch_trace. rewrite !point_monitor_app.
  assert (F : forall l d, point_monitor_run brick site m (flat_map (fun j => let s := hist (k * nsteps + j + 1)%nat in
     map (fun tm => EFinished tm (st_time sp s) s) (sv_terms sv)) l) d = d).
  { induction l as [|j l IH]; intros d0; cbn [flat_map]; [reflexivity|]. rewrite point_monitor_app, IH.
    generalize (hist (k * nsteps + j + 1)%nat). intros s. cbn. generalize (sv_terms sv). intros ts. revert d0.
    induction ts as [|x ts IHt]; intros d0; cbn; [reflexivity|]. apply IHt. }
  rewrite F.
  assert (Cb : forall l d, point_monitor_run brick site m (map (fun c => ECallback c epoch (hist ((k + 1) * nsteps)%nat)) l) d = d).
  { induction l as [|c l IH]; intros d0; cbn; [reflexivity|]. apply IH. }
  rewrite Cb. generalize (hist ((k + 1) * nsteps)%nat). intros s.
  assert (G : forall l d, NoDup l -> point_monitor_run brick site m (map (fun x => EMonitor x s) l) d =
     if existsb (Nat.eqb m) l then d ++ [Re (brick s site)] else d).
  { induction l as [|x l IH]; intros d0 N; cbn [map]; [reflexivity|].
    inversion N as [|? ? Nx Nl]; subst. cbn [point_monitor_run fold_left existsb].
    change (fold_left _ (map (fun x0 : nat => EMonitor x0 s) l) ?z) with (point_monitor_run brick site m (map (fun x0 => EMonitor x0 s) l) z).
    rewrite IH by exact Nl. destruct (Nat.eqb_spec x m) as [->|Hne].
    - rewrite Nat.eqb_refl. cbn [orb].
      assert (E : existsb (Nat.eqb m) l = false).
      { apply Bool.not_true_is_false. intros T. apply existsb_exists in T. destruct T as (y & Hy & E). apply Nat.eqb_eq in E. subst y. contradiction. }
      rewrite E. reflexivity.
    - destruct (Nat.eqb_spec m x); [congruence|]. reflexivity. }
  rewrite G by exact ND.
  assert (E : existsb (Nat.eqb m) (sv_monitors sv) = true) by (apply existsb_exists; exists m; rewrite Nat.eqb_refl; auto).
  rewrite E. reflexivity.
Qed.

Lemma point_monitor_data {S} (sp : stepper S) sv ne nsteps s s' tr (brick : S -> nat -> C) site m d :
  NoDup (sv_monitors sv) -> In m (sv_monitors sv) ->
  solve sp sv ne nsteps s = Some (s', tr) ->
  exists hist, hist 0%nat = s /\ history sp hist (ne * nsteps) /\
    point_monitor_run brick site m tr d = d ++ map (fun k => Re (brick (hist ((k + 1) * nsteps)%nat) site)) (seq 0 ne).
Proof.
  intros ND Hin H. apply solve_some in H. destruct H as (h & H0 & Hn & Hh & ->). exists h. split; [exact H0|]. split; [exact Hh|].
  unfold run_trace. clear Hn Hh.
  assert (G : forall ne a d, point_monitor_run brick site m (flat_map (fun k => epoch_trace sp sv h nsteps (sv_start sv + Z.of_nat k)%Z k) (seq a ne)) d =
     d ++ map (fun k => Re (brick (h ((k + 1) * nsteps)%nat) site)) (seq a ne)).
  { clear d ne. induction ne as [|ne IH]; intros a d; cbn [seq flat_map map].
    - rewrite app_nil_r. reflexivity.
    - rewrite point_monitor_app, point_monitor_epoch by assumption. rewrite IH, <- app_assoc. reflexivity. }
  apply G.
Qed.
