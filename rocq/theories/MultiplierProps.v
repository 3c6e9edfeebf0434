(** C49, continued: the times at which a run with a multiplier evaluates its terms. *)
From Verif Require Import ListAux EnergyModel EnergyProps.
From Coq Require Import Lia.
Open Scope R_scope.

(** A run is a sequence of states in which state j + 1 is the step of state j at
    time (step + j) dt. *)
Theorem C49_run_in_time : forall calc rest den ft dt n step k st st', lp_run calc rest den ft dt n step k st = Some st' <->
  exists s : nat -> env * multiplier, s 0%nat = st /\ s k = st' /\ forall j, (j < k)%nat -> lp_step calc rest den ft dt (INR (step + j) * dt) n (s j) = Some (s (S j)).
Proof.
  intros calc rest den ft dt n step k. revert step. induction k as [|k IH]; intros step st st'; cbn [lp_run].
  - split; [intros E; injection E as <-; exists (fun _ => st); split; [reflexivity|split; [reflexivity|intros; lia]]|]. intros (s & <- & <- & _). reflexivity.
  - change (time_of dt step) with (INR step * dt). split.
    + destruct (lp_step calc rest den ft dt (INR step * dt) n st) as [st1|] eqn:E; [|discriminate]. intros R. apply IH in R. destruct R as (s & S0 & Sk & SS). exists (fun j => match j with O => st | S j' => s j' end). split; [reflexivity|]. split; [exact Sk|].
      intros [|j] Hj; [rewrite Nat.add_0_r, S0; exact E|]. rewrite Nat.add_succ_r. apply (SS j). lia.
    + intros (s & S0 & Sk & SS). assert (E := SS 0%nat ltac:(lia)). rewrite Nat.add_0_r, S0 in E. rewrite E. apply IH. exists (fun j => s (S j)). split; [reflexivity|]. split; [exact Sk|]. intros j Hj. rewrite Nat.add_succ_l, <- Nat.add_succ_r. apply SS. lia.
Qed.
Print Assumptions C49_run_in_time.
