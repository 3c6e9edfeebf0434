(** C24 for the transform of the program: nothing is assumed about the transform, so
    the normalisation of the inverse is part of what is proved. *)
From Verif Require Import ListAux StepModel StepSpec StepProofs ConserveProofs StepProps IndexSpec DftModel DftSpec DftProofs.
From Coq Require Import Reals List Lia Lra. Import ListNotations.
From Verif Require Import Complex.
Open Scope R_scope.

(** What many theorems assume of a transform holds for the transform of the program on
    every domain.  [good_transform] speaks of the normalised inverse of the model; a
    wrong normalisation makes this theorem fail. *)
Theorem C07_assumed_of_transforms : forall dom, valid_domain dom -> good_transform (nodes dom) (fftw_transform dom).
Proof. exact fftw_good. Qed.
Print Assumptions C07_assumed_of_transforms.

Lemma nodes_positive dom : valid_domain dom -> (0 < nodes dom)%nat.
Proof. intros [_ Hd]. rewrite <- (nprod_nodes dom Hd). apply nprod_pos, fftw_dims_pos, Hd. Qed.

Theorem C24_euler_on_domains : forall dom, valid_domain dom ->
  forall (p : pde) (filt : option (R -> R)) (dt : R) (i : nat),
  keeps_length (nodes dom) p -> keeps_zero filt -> conserved (nodes dom) p i ->
  forall (nsteps step : nat) (e : env), all_length (nodes dom) (e_fields e) ->
  (length (e_fields e) <= length (p_eqns p))%nat ->
  exists e' step', euler_propagate p (fftw_transform dom) filt dt nsteps step e = Some (e', step') /\
    forall d, nth_error (e_fields e) i = Some d ->
      exists d', nth_error (e_fields e') i = Some d' /\ mean d' = mean d.
Proof. intros dom Hv p filt dt i. apply (C24_euler_conserves_mean (nodes dom) p (fftw_transform dom) filt dt i (nodes_positive dom Hv) (fftw_good dom Hv)). Qed.
Print Assumptions C24_euler_on_domains.

Theorem C24_rk4_on_domains : forall dom, valid_domain dom ->
  forall (p : pde) (filt : option (R -> R)) (dt : R) (i : nat),
  keeps_length (nodes dom) p -> keeps_zero filt -> conserved (nodes dom) p i ->
  constant_denum p -> derived_from_fields p ->
  forall (nsteps step : nat) (e : env), all_length (nodes dom) (e_fields e) ->
  (length (e_fields e) <= length (p_eqns p))%nat -> length (e_derived e) = length (p_calc p) ->
  exists e' step', rk4_propagate p (fftw_transform dom) filt dt nsteps step e = Some (e', step') /\
    forall d, nth_error (e_fields e) i = Some d ->
      exists d', nth_error (e_fields e') i = Some d' /\ mean d' = mean d.
Proof. intros dom Hv p filt dt i. apply (C24_rk4_conserves_mean (nodes dom) p (fftw_transform dom) filt dt i (nodes_positive dom Hv) (fftw_good dom Hv)). Qed.
Print Assumptions C24_rk4_on_domains.

(** A conserved field with a cubic term on two nodes. *)
Example C24_on_domains_nonvacuous : valid_domain [2; 1]%Z /\ nodes [2; 1]%Z = 2%nat /\ keeps_length (nodes [2; 1]%Z) pde2 /\ conserved (nodes [2; 1]%Z) pde2 0
  /\ keeps_zero (Some (fun x => 1 - x)) /\ constant_denum pde2 /\ derived_from_fields pde2 /\ all_length (nodes [2; 1]%Z) (e_fields env2).
Proof.
  split; [repeat constructor|]. split; [reflexivity|]. split; [exact pde2_lengths|]. split; [exact pde2_conserved|]. split; [cbn; ring|]. split; [exact pde2_denum|]. split; [exact pde2_derived|repeat constructor].
Qed.
