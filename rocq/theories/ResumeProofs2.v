(** Runs that are continued, and runs of RK4 under Solve. *)
From Coq Require Import Reals Lia Lra.
From Verif Require Import ListAux FileModel StepProofs SolverProofs ResumeProofs.
From Verif Require Import ResumeSpec.
From Verif Require Import Complex.
Open Scope R_scope.

Section Continue.
  Variables (m : mstate) (sp : stepper (env * nat)) (one : R -> env -> option env) (dt : R) (next : nat -> nat).
  Hypothesis Hsp : forall e k, st_step sp (e, k) = match one (time_of dt k) e with Some e' => Some (e', next k) | None => None end.
  Hypothesis Htime : forall t t' e, one t e = one t' e.
  Hypothesis Hforget : forall t e e', slots m e -> slots m e' -> e_fields e = e_fields e' -> one t e = one t e'.
  Hypothesis Hslots : forall t e e', slots m e -> one t e = Some e' -> slots m e'.

  Lemma iter_slots : forall N e k e' k', slots m e -> iter_step sp N (e, k) = Some (e', k') -> slots m e'.
  Proof.
    induction N as [|N IH]; intros e k e' k' H E; cbn [iter_step] in E; [injection E as <- _; exact H|]. rewrite Hsp in E.
    destruct (one (time_of dt k) e) as [e1|] eqn:E1; [|discriminate]. exact (IH _ _ _ _ (Hslots _ _ _ H E1) E).
  Qed.
  Lemma iter_agree : forall N e k e' k' a ka, slots m e -> slots m e' -> e_fields e = e_fields e' -> iter_step sp N (e, k) = Some (a, ka) ->
    exists b kb, iter_step sp N (e', k') = Some (b, kb) /\ e_fields b = e_fields a.
  Proof.
    induction N as [|N IH]; intros e k e' k' a ka H H' E R; cbn [iter_step] in *; [injection R as <- _; exists e', k'; auto|]. rewrite Hsp in R. rewrite Hsp.
    rewrite (Htime (time_of dt k') (time_of dt k)), <- (Hforget _ e e' H H' E). destruct (one (time_of dt k) e) as [e1|] eqn:E1; [|discriminate].
    exact (IH e1 _ e1 _ a ka (Hslots _ _ _ H E1) (Hslots _ _ _ H E1) eq_refl R).
  Qed.
  Lemma continued sv sv' sv'' ne ns ne' ns' ne'' ns'' fs fs1 fs2 : (ne'' * ns'' = ne * ns + ne' * ns')%nat ->
    run_takes sp m sv ne ns fs fs1 -> run_takes sp m sv' ne' ns' fs1 fs2 -> run_takes sp m sv'' ne'' ns'' fs fs2.
  Proof.
    intros HN H1 H2 ds Hd. destruct (H1 ds Hd) as (e1 & k1 & tr1 & R1 & F1). apply iter_of_solve in R1.
    destruct (H2 ds Hd) as (e2 & k2 & tr2 & R2 & F2). apply iter_of_solve in R2.
    assert (S1 : slots m {| e_fields := fs; e_derived := ds |}) by exact Hd. assert (S2 : slots m {| e_fields := fs1; e_derived := ds |}) by exact Hd.
    destruct (iter_agree _ _ _ e1 k1 _ _ S2 (iter_slots _ _ _ _ _ S1 R1) (eq_sym F1) R2) as (b & kb & R3 & F3).
    assert (R : iter_step sp (ne'' * ns'') ({| e_fields := fs; e_derived := ds |}, 0%nat) = Some (b, kb)) by (rewrite HN, iter_add, R1; exact R3).
    destruct (solve_of_iter sp sv'' ne'' ns'' _ _ R) as (tr & HS). exists b, kb, tr. split; [exact HS|congruence].
  Qed.
End Continue.

Lemma euler_continued n ft lib m filt dt : timeless lib -> let sp := euler_stepper (simulation n ft lib m) ft filt dt in
  forall sv sv' sv'' ne ns ne' ns' ne'' ns'' fs fs1 fs2, (ne'' * ns'' = ne * ns + ne' * ns')%nat ->
  run_takes sp m sv ne ns fs fs1 -> run_takes sp m sv' ne' ns' fs1 fs2 -> run_takes sp m sv'' ne'' ns'' fs fs2.
Proof.
  intros TL sp. apply (continued m sp (fun t e => euler_step (simulation n ft lib m) ft filt dt t e) dt S).
  - reflexivity.
  - intros t t' e. apply al_euler_step. apply timeless_alike. exact TL.
  - intros t e e' H H' E. exact (euler_forgets n ft m lib filt dt t e e' H H' E).
  - intros t e e' H E. exact (euler_slots n ft m lib filt dt t e e' H E).
Qed.
Lemma rk4_continued n ft lib m filt dt : timeless lib -> let sp := rk4_stepper (simulation n ft lib m) ft filt dt in
  forall sv sv' sv'' ne ns ne' ns' ne'' ns'' fs fs1 fs2, (ne'' * ns'' = ne * ns + ne' * ns')%nat ->
  run_takes sp m sv ne ns fs fs1 -> run_takes sp m sv' ne' ns' fs1 fs2 -> run_takes sp m sv'' ne'' ns'' fs fs2.
Proof.
  intros TL sp. apply (continued m sp (fun t e => rk4_step (simulation n ft lib m) ft filt dt t e) dt (fun k => k)).
  - reflexivity.
  - intros t t' e. apply al_rk4_step. apply timeless_alike. exact TL.
  - intros t e e' H H' E. exact (rk4_forgets n ft m lib filt dt t e e' H H' E).
  - intros t e e' H E. exact (rk4_slots n ft m lib filt dt t e e' H E).
Qed.

(** ** RK4 under Solve: time stands still *)
Lemma rk4_iter_frozen n ft lib m filt dt k : forall N j e,
  iter_step (rk4_stepper (simulation n ft lib m) ft filt dt) N (e, k)
  = option_map (fun r => (fst r, k)) (rk4_propagate (simulation n ft (frozen (time_of dt k) lib) m) ft filt dt N j e).
Proof.
  induction N as [|N IH]; intros j e; cbn [iter_step rk4_propagate]; [reflexivity|]. cbn [st_step rk4_stepper fst snd].
  rewrite (al_rk4_step _ _ _ _ (frozen_alike n ft m lib (time_of dt k) (time_of dt j))). destruct (rk4_step _ ft filt dt (time_of dt j) e) as [e1|]; [|reflexivity].
  apply IH.
Qed.
Lemma rk4_iter_timeless n ft lib m filt dt k : timeless lib -> forall N j e,
  iter_step (rk4_stepper (simulation n ft lib m) ft filt dt) N (e, k)
  = option_map (fun r => (fst r, k)) (rk4_propagate (simulation n ft lib m) ft filt dt N j e).
Proof.
  intros TL. induction N as [|N IH]; intros j e; cbn [iter_step rk4_propagate]; [reflexivity|]. cbn [st_step rk4_stepper fst snd].
  rewrite (al_rk4_step _ _ _ _ (timeless_alike n ft m lib (time_of dt k) (time_of dt j) TL)). destruct (rk4_step _ ft filt dt (time_of dt j) e) as [e1|]; [|reflexivity].
  apply IH.
Qed.

(** So a continued run of RK4 does not notice that time starts again. *)
Lemma frozen_timeless t0 lib : timeless (frozen t0 lib).
Proof. constructor; reflexivity. Qed.
Lemma run_takes_frozen n ft lib m filt dt sv ne ns fs fs' :
  run_takes (rk4_stepper (simulation n ft lib m) ft filt dt) m sv ne ns fs fs' <-> run_takes (rk4_stepper (simulation n ft (frozen 0 lib) m) ft filt dt) m sv ne ns fs fs'.
Proof.
  assert (E : forall N e, iter_step (rk4_stepper (simulation n ft lib m) ft filt dt) N (e, 0%nat) = iter_step (rk4_stepper (simulation n ft (frozen 0 lib) m) ft filt dt) N (e, 0%nat)).
  { intros N e. rewrite (rk4_iter_frozen n ft lib m filt dt 0 N 0), (rk4_iter_timeless n ft (frozen 0 lib) m filt dt 0 (frozen_timeless 0 lib) N 0).
    replace (time_of dt 0) with 0 by (unfold time_of; cbn [INR]; ring). reflexivity. }
  split; intros H ds Hd; destruct (H ds Hd) as (e' & k & tr & HS & HF); apply iter_of_solve in HS.
  - rewrite E in HS. destruct (solve_of_iter _ sv _ _ _ _ HS) as (tr' & HS'). exists e', k, tr'. auto.
  - rewrite <- E in HS. destruct (solve_of_iter _ sv _ _ _ _ HS) as (tr' & HS'). exists e', k, tr'. auto.
Qed.
Lemma rk4_continued_always n ft lib m filt dt : let sp := rk4_stepper (simulation n ft lib m) ft filt dt in
  forall sv sv' sv'' ne ns ne' ns' ne'' ns'' fs fs1 fs2, (ne'' * ns'' = ne * ns + ne' * ns')%nat ->
  run_takes sp m sv ne ns fs fs1 -> run_takes sp m sv' ne' ns' fs1 fs2 -> run_takes sp m sv'' ne'' ns'' fs fs2.
Proof.
  intros sp sv sv' sv'' ne ns ne' ns' ne'' ns'' fs fs1 fs2 HN H1 H2. unfold sp in *. apply run_takes_frozen in H1, H2. apply run_takes_frozen.
  exact (rk4_continued n ft (frozen 0 lib) m filt dt (frozen_timeless 0 lib) sv sv' sv'' ne ns ne' ns' ne'' ns'' fs fs1 fs2 HN H1 H2).
Qed.
