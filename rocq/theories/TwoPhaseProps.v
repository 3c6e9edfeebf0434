(** C72: the correlation function of two coexisting phases. *)
From Coq Require Import Lra.
From Verif Require Import TwoPhaseSpec TwoPhaseProofs.
From Verif Require Import TwoPhaseModel.
Open Scope R_scope.

(** Indicator is a smooth step from 0 to 1 and IndicatorDeriv its derivative
    everywhere, also at 0 and 1. *)
Theorem C72_indicator : 
  (forall x, x <= 0 -> indicator x = 0) /\ (forall x, 1 <= x -> indicator x = 1) /\
  (forall x, 0 <= x <= 1 -> indicator x = 3 * x ^ 2 - 2 * x ^ 3) /\
  (forall x y, x <= y -> indicator x <= indicator y) /\ (forall x, indicator (1 - x) = 1 - indicator x) /\
  (forall x, derivable_pt_lim indicator x (indicator_deriv x)).
Proof.
  split; [exact indicator_low|]. split; [exact indicator_high|]. split; [exact indicator_mid|]. split; [exact indicator_mono|].
  split; [exact indicator_symmetric|exact indicator_dlim].
Qed.
Print Assumptions C72_indicator.
(** Dot of a vector with itself is its squared length. *)
Theorem C72_dot : forall x, dot x x = Some (norm_sq x).
Proof. intros x. unfold dot. rewrite dot_loop_sq. f_equal. ring. Qed.
Print Assumptions C72_dot.

(** Evaluate mixes the real space correlation functions of the two phases with
    the weights X(c) and 1 - X(c); the argument is replaced by the real space
    concentration. *)
Theorem C72_evaluate_partial : forall dom f1 f2 c r1 r2, valid_domain dom -> length c = nodes dom ->
  real_space_form dom f1 r1 -> real_space_form dom f2 r2 ->
  exists ceff, two_phase_evaluate (fftw_transform dom) [f1; f2] (fft (fftw_transform dom) c) = Some (ceff, c) /\ length ceff = nodes dom /\
  forall i, (i < nodes dom)%nat ->
    nth i ceff C0 = Cadd (Cmul (RtoC (indicator (Re (nth i c C0)))) (nth i r1 C0)) (Cmul (RtoC (1 - indicator (Re (nth i c C0)))) (nth i r2 C0)).
Proof. intros dom f1 f2 c r1 r2 V. exact (evaluate_nth dom V f1 f2 c r1 r2). Qed.
Print Assumptions C72_evaluate_partial.
(** Every correlation function has one real space form and the result is real. *)
Theorem C72_real : forall dom f1 f2 c ceff arg, valid_domain dom -> square_layout dom -> length c = nodes dom ->
  (exists! r, real_space_form dom f1 r) /\
  (two_phase_evaluate (fftw_transform dom) [f1; f2] (fft (fftw_transform dom) c) = Some (ceff, arg) -> real_field ceff).
Proof.
  intros dom f1 f2 c ceff arg V Sq L. split.
  - eexists. split; [exact (form_exists dom V f1)|]. intros r H. symmetry. exact (form_unique dom V f1 r H).
  - exact (evaluate_real dom V f1 f2 c ceff arg Sq L).
Qed.
Print Assumptions C72_real.
(** In a pure phase EvaluateFT returns the correlation function of that phase:
    the first one where the concentration is at least 1, the second one where
    it is at most 0. *)
Theorem C72_pure_phase : forall dom f1 f2 c (first : bool), valid_domain dom -> length c = nodes dom ->
  (forall i, (i < nodes dom)%nat -> if first then 1 <= Re (nth i c C0) else Re (nth i c C0) <= 0) ->
  exists ceff arg, two_phase_evaluate_ft (fftw_transform dom) [f1; f2] (fft (fftw_transform dom) c) = Some (ceff, arg) /\ length ceff = nodes dom /\
  forall k, (k < nodes dom)%nat ->
    nth k ceff C0 = RtoC (pair_eval (cf_temp (if first then f1 else f2)) (cf_peaks (if first then f1 else f2)) (2 * PI * norm (tfreq (fftw_transform dom) k))).
Proof. intros dom f1 f2 c first V. exact (evaluate_pure dom V f1 f2 c first). Qed.
Print Assumptions C72_pure_phase.
Theorem C72_needs_two : forall ft cfs cft, length cfs <> 2%nat -> two_phase_evaluate ft cfs cft = None /\ two_phase_evaluate_ft ft cfs cft = None.
Proof. intros ft [|a [|b [|d cfs]]] cft H; try (split; reflexivity). contradiction H. reflexivity. Qed.
Print Assumptions C72_needs_two.
(** The amplitudes passed in are lost. *)
Theorem C72_argument_kept_refuted : forall f1 f2, exists c, length c = nodes [2; 1]%Z /\ real_field c /\
  exists ceff arg, two_phase_evaluate (fftw_transform [2; 1]%Z) [f1; f2] (fft (fftw_transform [2; 1]%Z) c) = Some (ceff, arg) /\ arg <> fft (fftw_transform [2; 1]%Z) c.
Proof. exact argument_overwritten. Qed.
Print Assumptions C72_argument_kept_refuted.

Example C72_nonvacuous : valid_domain [4; 3]%Z /\ square_layout [4; 3]%Z /\ indicator (1 / 2) = 1 / 2 /\
  (forall i, (i < nodes [4; 3]%Z)%nat -> 1 <= Re (nth i (repeat C1 12) C0)).
Proof.
  split; [split; [left; reflexivity|repeat constructor; lia]|]. split; [exact I|]. split; [rewrite indicator_mid by lra; lra|].
  intros i Hi. change (nodes [4; 3]%Z) with 12%nat in Hi. do 12 (destruct i as [|i]; [cbn; lra|]). lia.
Qed.
