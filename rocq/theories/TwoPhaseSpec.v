(** Vocabulary for the statements about the two phase correlation function. *)
From Verif Require Export TwoPhaseModel EnergySpec RealSpec.
Open Scope R_scope.

(** [r] is the real space form of the correlation function [c]: its amplitude
    at every frequency f is the value of the function at 2 pi |f|. *)
Definition real_space_form (dom : list Z) (c : corr_func) (r : data) : Prop :=
  length r = nodes dom /\
  forall k, (k < nodes dom)%nat ->
    nth k (fft (fftw_transform dom) r) C0 = RtoC (pair_eval (cf_temp c) (cf_peaks c) (2 * PI * norm (tfreq (fftw_transform dom) k))).
