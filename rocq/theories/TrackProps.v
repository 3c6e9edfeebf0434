(** Property C106: what SDD records about its steps and writes to its log file. *)
From Coq Require Import String.
From Verif Require Import ListAux StepProofs SddProofs DftProofs SimProofs SimProofs5 SimProps LinearProps FlowProps RealProofs3 LinearProofs LinearProofs2 SaddleSpec SaddleProps TrackSpec TrackProofs TrackProofs2 TrackProofs3 Vec CVec Complex.
From Coq Require Import Lra Lia.
Open Scope R_scope.

(** Recording changes no search, and every step of a search is recorded. *)
Theorem C106_same_search : forall p ft N s mo e s' e',
  sdd_run p ft N s e = Some (s', e') <-> exists mo', track_run p ft N s mo e = Some (s', mo', e').
Proof. intros. split; [apply track_run_some|intros (mo' & H); exact (track_run_forget _ _ _ _ _ _ _ _ _ H)]. Qed.
Print Assumptions C106_same_search.

(** MaxForce is the largest rate of change of any amplitude of any field,
    ForcePowerSpectrum the root mean square rate of change of the fields in real
    space, MaxTorque the largest entry of the torque that turned the orientation;
    FieldNorm is the sum of the squares of the fields the step started from and
    FieldNormChange how much less that is than the FieldNorm before.  The warning
    about a torque along the orientation never appears. *)
Theorem C106_records : forall n k p ft, unitary_transform n ft -> keeps_length n p ->
  forall s mo e s' mo' e' w, dimer_ready n k s e -> track_step p ft s mo e = Some (s', mo', e', w) ->
  largest k n (fun i j => Cabs (rate (s_dt s) (map (fft ft) (e_fields e)) (map (fft ft) (e_fields e')) i j)) (mo_force mo')
  /\ mo_spectrum mo' = root_mean_square k n (rate (s_dt s) (e_fields e) (e_fields e'))
  /\ (exists T, torque_of k n s s' T /\ largest 1 (k * n) (fun _ j => Rabs (T j)) (mo_torque mo'))
  /\ mo_norm mo' = squares k n (e_fields e)
  /\ mo_change mo' = mo_norm mo - squares k n (e_fields e)
  /\ w = false.
Proof.
  intros n k p ft U KL s mo e s' mo' e' w R H. destruct (track_step_spec n k p ft U KL s mo e s' mo' e' w R H) as (_ & A & B & D & E & F & G). repeat split; try assumption; apply E.
Qed.
Print Assumptions C106_records.

(** A recorded force of zero means that the fields did not change, a torque of
    zero that the orientation did not. *)
Theorem C106_zero_means_rest : forall n k p ft, unitary_transform n ft -> keeps_length n p ->
  forall s mo e s' mo' e' w, dimer_ready n k s e -> track_step p ft s mo e = Some (s', mo', e', w) ->
  (mo_force mo' = 0 <-> e_fields e' = e_fields e)
  /\ (mo_spectrum mo' = 0 <-> e_fields e' = e_fields e)
  /\ (mo_torque mo' = 0 <-> s_orient s' = s_orient s).
Proof.
  intros n k p ft U KL s mo e s' mo' e' w R H. split; [|split].
  - exact (force_still n k p ft U KL s s' mo mo' e e' w R H).
  - exact (spectrum_still n k p ft U KL s s' mo mo' e e' w R H).
  - exact (torque_still n k p ft U KL s s' mo mo' e e' w R H).
Qed.
Print Assumptions C106_zero_means_rest.

(** The two measures of the force bound each other. *)
Theorem C106_forces_agree : forall n k p ft, unitary_transform n ft -> keeps_length n p ->
  forall s mo e s' mo' e' w, dimer_ready n k s e -> track_step p ft s mo e = Some (s', mo', e', w) ->
  INR n * (mo_spectrum mo' * mo_spectrum mo') <= mo_force mo' * mo_force mo' <= INR k * (INR n * INR n) * (mo_spectrum mo' * mo_spectrum mo').
Proof. intros n k p ft U KL s mo e s' mo' e' w R H. exact (force_bounds n k p ft U KL s s' mo mo' e e' w R H). Qed.
Print Assumptions C106_forces_agree.

(** After N + 1 steps FieldNorm belongs to the fields after N steps, and
    FieldNormChange is the norm after N - 1 steps minus the norm after N steps;
    after the first step of a new stepper it is minus the norm. *)
Theorem C106_norms : forall n k p ft, unitary_transform n ft -> keeps_length n p ->
  forall N s mo e s' mo' e', dimer_ready n k s e -> track_run p ft (S N) s mo e = Some (s', mo', e') ->
  exists s1 e1, sdd_run p ft N s e = Some (s1, e1) /\ mo_norm mo' = squares k n (e_fields e1)
  /\ match N with
     | O => mo = new_sdd_monitor -> mo_change mo' = - squares k n (e_fields e)
     | S N' => exists s0 e0, sdd_run p ft N' s e = Some (s0, e0) /\ mo_change mo' = squares k n (e_fields e0) - squares k n (e_fields e1)
     end.
Proof.
  intros n k p ft U KL N s mo e s' mo' e' R H. destruct (run_norm n k p ft U KL N s mo e s' mo' e' R H) as (s1 & e1 & A & B & D). exists s1, e1. split; [exact A|]. split; [exact B|].
  destruct N as [|N'].
  - intros ->. rewrite D. cbn [sdd_run] in A. injection A as _ <-. cbn [new_sdd_monitor mo_norm]. ring.
  - destruct (last_step p ft (S N') s mo e s' mo' e' H) as (s2 & mo2 & e2 & w2 & H2 & _). destruct (last_step p ft N' s mo e s2 mo2 e2 H2) as (s0 & mo0 & e0 & w0 & H0 & _).
    assert (F := track_run_forget _ _ _ _ _ _ _ _ _ H0). exists s0, e0. rewrite F in D. split; [exact F|exact D].
Qed.
Print Assumptions C106_norms.

(** The log file grows by one line per epoch with the quantities at its end; the
    header is written only to an empty file.  Without a file nothing is written. *)
Theorem C106_log : forall p ft show epochs steps s mo e s' mo' e',
  (forall txt file, track_solve p ft show epochs steps s mo e (Some txt) = Some (s', mo', e', file) ->
   exists mos, length mos = epochs
   /\ file = Some (txt ++ (match epochs with O => "" | S _ => if Nat.eqb (String.length txt) 0 then "MaxForce,MaxTorque,ForcePowerSpect,FieldNorm,FieldNormChange" ++ newline else "" end) ++ rows show mos)%string
   /\ forall i, (i < epochs)%nat -> exists si ei, track_run p ft ((i + 1) * steps) s mo e = Some (si, nth i mos mo, ei))
  /\ (forall file, track_solve p ft show epochs steps s mo e None = Some (s', mo', e', file) -> file = None).
Proof.
  intros p ft show epochs steps s mo e s' mo' e'. split.
  - intros txt file H. exact (solve_log p ft show epochs steps s mo e txt s' mo' e' file H).
  - intros file H. exact (solve_nolog p ft show epochs steps s mo e s' mo' e' file H).
Qed.
Print Assumptions C106_log.

(** ** Growth and diffusion on four nodes *)
Definition growth_pde : pde := simulation 4 ft4 (flow_library 4 1) (flow_state growth).
Lemma growth_keeps : keeps_length 4 growth_pde.
Proof. exact (sim_keeps_length Lf (flow_state growth) 4 ft4 (flow_library 4 1) (flow_library_good 4 1)). Qed.
Lemma growth_unitary : unitary_transform 4 ft4.
Proof. exact (fftw_unitary [4; 1]%Z valid41). Qed.
Lemma growth_reaches eps : 0 < eps -> exists N s' e', sdd_run growth_pde ft4 N growth_sdd growth_env = Some (s', e') /\ searching 4 s' e' /\ energy (nth 0 (e_fields e') []) < eps.
Proof.
  intros He. destruct (C105_finds_the_saddle Lf (flow_calls growth) growth_q (flow_state growth) growth_linear growth_run [4; 1]%Z (flow_library 4 1) growth_rate valid41 I (flow_library_good 4 1) growth_symbols 0%nat 1 15 growth_unstable
    growth_sdd growth_env growth_searching growth_fits ltac:(cbn [growth_sdd s_tau_orient]; lra) ltac:(change (0 < share 4 ft4 growth_sdd 0); rewrite growth_share; lra) ltac:(cbn [growth_sdd s_dt]; lra) ltac:(cbn [growth_sdd s_dt s_tau_orient]; lra) eps He) as (N & H).
  destruct (H N (Nat.le_refl N)) as (s' & e' & A & B & _ & _ & D). exists N, s', e'. split; [exact A|]. split; [exact B|exact D].
Qed.
Lemma squares_energy s e : searching 4 s e -> squares 1 4 (e_fields e) = energy (nth 0 (e_fields e) []).
Proof.
  intros [[_ Lk La _ _ _ _] _ _]. unfold squares, energy. cbn [rsum]. destruct (e_fields e) as [|d ds]; [cbn in Lk; lia|]. inversion La as [|? ? Ld _]; subst. cbn [nth]. rewrite Ld. cbn [rsum]. unfold value_at. cbn [nth]. ring.
Qed.

(** The FieldNorm recorded by a step is not the norm of the fields it leaves. *)
Theorem C106_norm_of_new_fields_refuted : exists n k p ft, unitary_transform n ft /\ keeps_length n p
  /\ ~ forall s mo e s' mo' e' w, dimer_ready n k s e -> track_step p ft s mo e = Some (s', mo', e', w) -> mo_norm mo' = squares k n (e_fields e').
Proof.
  exists 4%nat, 1%nat, growth_pde, ft4. split; [exact growth_unitary|]. split; [exact growth_keeps|]. intros A.
  assert (K : forall N s e s' e', dimer_ready 4 1 s e -> sdd_run growth_pde ft4 N s e = Some (s', e') -> squares 1 4 (e_fields e') = squares 1 4 (e_fields e)).
  { induction N as [|N IH]; intros s e s' e' R H; cbn [sdd_run] in H; [injection H as _ <-; reflexivity|].
    destruct (sdd_step growth_pde ft4 s e) as [[s1 e1]|] eqn:E; [|discriminate]. destruct (track_step_some growth_pde ft4 s new_sdd_monitor e s1 e1 E) as (mo1 & w & T).
    rewrite (IH s1 e1 s' e' (proj1 (sdd_step_ready 4 1 growth_pde ft4 s e s1 e1 growth_unitary growth_keeps R E)) H), <- (A _ _ _ _ _ _ _ R T).
    exact (proj1 (proj2 (proj2 (proj2 (C106_records 4 1 growth_pde ft4 growth_unitary growth_keeps _ _ _ _ _ _ _ R T))))). }
  destruct (growth_reaches (/ 2) ltac:(lra)) as (N & s' & e' & H & S & Q). specialize (K N _ _ _ _ (se_ready _ _ _ growth_searching) H).
  rewrite (squares_energy s' e' S), (squares_energy _ _ growth_searching) in K. rewrite K in Q. unfold energy in Q. cbn [growth_env e_fields nth length rsum] in Q. unfold Cnorm2, C1, C0, RtoC in Q. cbn [Re Im fst snd] in Q. lra.
Qed.
Print Assumptions C106_norm_of_new_fields_refuted.

(** The hypotheses are met by a search that moves the fields. *)
Example C106_nonvacuous : unitary_transform 4 ft4 /\ keeps_length 4 growth_pde /\ dimer_ready 4 1 growth_sdd growth_env
  /\ exists N s' mo' e', track_run growth_pde ft4 N growth_sdd new_sdd_monitor growth_env = Some (s', mo', e') /\ e_fields e' <> e_fields growth_env.
Proof.
  split; [exact growth_unitary|]. split; [exact growth_keeps|]. split; [exact (se_ready _ _ _ growth_searching)|].
  destruct (growth_reaches (/ 2) ltac:(lra)) as (N & s' & e' & H & S & Q). destruct (track_run_some growth_pde ft4 N growth_sdd new_sdd_monitor growth_env s' e' H) as (mo' & T).
  exists N, s', mo', e'. split; [exact T|]. intros E. rewrite E in Q. unfold energy in Q. cbn [growth_env e_fields nth length rsum] in Q. unfold Cnorm2, C1, C0, RtoC in Q. cbn [Re Im fst snd] in Q. lra.
Qed.
