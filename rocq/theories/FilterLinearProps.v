(** C116, continued: modal filters and equations that do not read the fields
    before them, in particular linear equations. *)
From Verif Require Import ListAux FileModel ParseProofs StepProofs ConserveProofs EquationProps RegistryProps SimProps.
From Verif Require Import SimProofs SimProofs2 SimProofs3 SimProofs4 SimProofs5 SimProofs6 LinearProofs LinearProofs2 LinearProofs3 DftProofs LinearProps ConvergeProofs ConvergeProps.
From Verif Require Import DftSpec ConvergeSpec FilterSpec FilterProofs FilterProofs2.
From Verif Require FlowProofs3.
From Coq Require Import Reals Lia Lra.
From Verif Require Import Complex.
Open Scope nat_scope.

(** Euler filters last if no equation reads a field that is updated before its
    own. *)
Theorem C116_euler_filter_last_independent : forall n p ft dt g t e e', good_transform n ft -> keeps_length n p -> all_length n (e_fields e) ->
  length (e_fields e) <= length (p_eqns p) -> unaffected_by_earlier p t (spectrum p ft e) ->
  euler_step p ft None dt t e = Some e' ->
  euler_step p ft (Some g) dt t e = Some {| e_fields := map (filtered g ft n) (e_fields e'); e_derived := e_derived e' |}.
Proof. exact euler_last_independent. Qed.
Print Assumptions C116_euler_filter_last_independent.

(** Linear equations: after [steps] steps of either stepper every mode is
    (factor / (1 - dt symbol))^steps times its initial value. *)
Theorem C116_linear_modes : forall L cs es m, linear_model L cs es -> run_calls new_mstate (cs ++ [CInit]) = Ok m ->
  forall n ft lib g, good_library L n lib -> good_transform n ft ->
  forall propagate, propagate = euler_propagate \/ propagate = rk4_propagate ->
  forall dt steps step e, fits L n m e ->
  exists e', propagate (simulation n ft lib m) ft (Some g) dt steps step e = Some (e', step + steps) /\ fits L n m e'
  /\ forall i q k, nth_error es i = Some q -> k < n -> Csub C1 (Cmul (RtoC dt) (symbol L lib (tfreq ft k) q)) <> C0 ->
     Cmul (Cpow (Csub C1 (Cmul (RtoC dt) (symbol L lib (tfreq ft k) q))) steps) (mode ft e' i k) = Cmul (Cpow (RtoC (gain g ft k)) steps) (mode ft e i k).
Proof.
  intros L cs es m LM Em n ft lib g GL GT propagate HP dt steps step e Hf.
  assert (HE : exists e', propagate (simulation n ft lib m) ft (Some g) dt steps step e = Some (e', step + steps) /\ filtered_steps L es m n ft lib g dt steps e e').
  { destruct HP as [-> | ->]; [apply (euler_filtered_run L cs es LM m Em n ft lib GL GT g)|apply (rk4_filtered_run L cs es LM m Em n ft lib GL GT g)]; exact Hf. }
  destruct HE as (e' & E & HM). exists e'. split; [exact E|]. split; [exact (filtered_run_fits L es m n ft lib g dt steps e e' Hf HM)|].
  intros i q k Hq Hk Hz. exact (filtered_closed L es m n ft lib g dt i q k Hq Hk Hz steps e e' HM).
Qed.
Print Assumptions C116_linear_modes.

Lemma powers_vanish (c M eps : R) : (Rabs c < 1)%R -> (0 <= M)%R -> (0 < eps)%R -> exists N0, forall N, N0 <= N -> (M * (c ^ 2) ^ N <= eps)%R.
Proof.
  intros Hc HM He. assert (Ha := Rabs_pos c). assert (H2 : (Rabs (c ^ 2) < 1)%R) by (rewrite <- RPow_abs; nra).
  destruct (pow_lt_1_zero (c ^ 2) H2 (eps / (M + 1))%R) as (N0 & H0); [apply Rdiv_lt_0_compat; lra|].
  exists N0. intros N HN. specialize (H0 N ltac:(lia)). rewrite Rabs_pos_eq in H0 by (apply pow_le, pow2_ge_0).
  assert (Hp : (0 <= (c ^ 2) ^ N)%R) by (apply pow_le, pow2_ge_0).
  apply Rle_trans with ((M + 1) * (c ^ 2) ^ N)%R; [lra|]. apply Rle_trans with ((M + 1) * (eps / (M + 1)))%R; [apply Rmult_le_compat_l; lra|].
  right. field. lra.
Qed.

(** How much a filter damps depends on the number of steps and not on the
    time: a mode with a factor smaller than one goes to zero when the same time
    T is covered with more and more steps. *)
Theorem C116_filtered_mode_vanishes : forall L cs es m, linear_model L cs es -> run_calls new_mstate (cs ++ [CInit]) = Ok m ->
  forall n ft lib g, good_library L n lib -> good_transform n ft ->
  forall propagate, propagate = euler_propagate \/ propagate = rk4_propagate ->
  forall e i q k T, fits L n m e -> nth_error es i = Some q -> k < n -> (Rabs (gain g ft k) < 1)%R -> (0 <= T)%R ->
  forall eps, (0 < eps)%R -> exists N0, forall N, N0 <= N ->
  exists e', propagate (simulation n ft lib m) ft (Some g) (T / INR N)%R N 0 e = Some (e', N) /\ fits L n m e' /\ (Cnorm2 (mode ft e' i k) <= eps)%R.
Proof.
  intros L cs es m LM Em n ft lib g GL GT propagate HP e i q k T Hf Hq Hk Hg HT eps Heps.
  set (a := Rabs (Re (symbol L lib (tfreq ft k) q))). assert (Ha := Rabs_pos (Re (symbol L lib (tfreq ft k) q))). fold a in Ha.
  destruct (powers_vanish (gain g ft k) (exp (4 * (T * a)) * Cnorm2 (mode ft e i k)) eps Hg) as (N1 & H1); [apply Rmult_le_pos; [left; apply exp_pos|apply Cnorm2_nonneg]|exact Heps|].
  destruct (above (2 * (T * a))) as (N2 & H2). exists (S (N1 + N2)). intros N HN.
  assert (HN2 : (INR N2 <= INR N)%R) by (apply le_INR; lia). assert (HN' : (0 < INR N)%R) by (apply lt_0_INR; lia).
  destruct (C116_linear_modes L cs es m LM Em n ft lib g GL GT propagate HP (T / INR N)%R N 0 e Hf) as (e' & E & F & HM).
  exists e'. split; [exact E|]. split; [exact F|].
  assert (Hdt : (0 <= T / INR N)%R) by (apply Rmult_le_pos; [exact HT|left; apply Rinv_0_lt_compat, HN']).
  assert (Hs : (2 * (T / INR N * a) <= 1)%R).
  { apply Rmult_le_reg_r with (1 := HN'). replace (2 * (T / INR N * a) * INR N)%R with (2 * (T * a))%R by (field; lra). lra. }
  destruct (growth_bound (T / INR N) a (symbol L lib (tfreq ft k) q) Hdt (Rle_refl _) Hs) as [_ Hz].
  assert (HB := mode_bound (T / INR N) a (gain g ft k) _ _ _ N Hdt (Rle_refl _) Hs (HM i q k Hq Hk Hz)).
  apply Rle_trans with (1 := HB). replace (INR N * (T / INR N) * a)%R with (T * a)%R by (field; lra).
  apply Rle_trans with (2 := H1 N ltac:(lia)). right. ring.
Qed.
Print Assumptions C116_filtered_mode_vanishes.

Lemma norm_apart (y z : C) : (Cnorm2 y <= Cnorm2 z / 4)%R -> (Cnorm2 z / 4 <= Cnorm2 (Cadd y (Cmul (RtoC (-1)) z)))%R.
Proof.
  destruct y as [a b], z as [u v]. unfold Cnorm2, Cadd, Cmul, RtoC, Re, Im. cbn [fst snd]. intros H.
  assert (H1 := pow2_ge_0 (2 * a - u)). assert (H2 := pow2_ge_0 (2 * b - v)). nra.
Qed.

(** Hence runs with a filter do not converge to the solution (compare
    C91_limit) if the initial state has a mode with such a factor. *)
Theorem C116_no_convergence : forall L cs es m, linear_model L cs es -> run_calls new_mstate (cs ++ [CInit]) = Ok m ->
  forall n ft lib g, good_library L n lib -> unitary_transform n ft ->
  forall propagate, propagate = euler_propagate \/ propagate = rk4_propagate ->
  forall U e i q k T, solution L cs es n ft lib U -> fits L n m e -> e_fields e = U 0%R -> nth_error es i = Some q -> k < n ->
  Im (symbol L lib (tfreq ft k) q) = 0%R -> (Rabs (gain g ft k) < 1)%R -> mode ft e i k <> C0 -> (0 <= T)%R ->
  exists delta N0, (0 < delta)%R /\ forall N, N0 <= N ->
  exists e' d, propagate (simulation n ft lib m) ft (Some g) (T / INR N)%R N 0 e = Some (e', N) /\ nth_error (e_fields e') i = Some d
    /\ (delta <= distance2 d (nth i (U T) []))%R.
Proof.
  intros L cs es m LM Em n ft lib g GL UT propagate HP U e i q k T HS Hf HU Hq Hk Him Hg Hm HT. assert (GT := ut_good n ft UT).
  set (s := Re (symbol L lib (tfreq ft k) q)).
  assert (Es : symbol L lib (tfreq ft k) q = RtoC s) by (apply C_eq; [reflexivity|exact Him]).
  assert (HX := solution_amplitude L cs es LM n ft lib U i q k s HS Hq Hk Es T). unfold amplitude_of in HX.
  assert (E0 : mode ft e i k = nth k (fft ft (nth i (U 0%R) [])) C0) by (unfold mode; rewrite HU; reflexivity). rewrite <- E0 in HX.
  set (z := nth k (fft ft (nth i (U T) [])) C0) in *.
  assert (Hpos : (0 < Cnorm2 z)%R).
  { rewrite HX, Cnorm2_scale. apply Rmult_lt_0_compat; [apply pow_lt, exp_pos|]. assert (P := Cnorm2_nonneg (mode ft e i k)).
    destruct (Rle_lt_or_eq_dec _ _ P) as [X|X]; [exact X|]. exfalso. apply Hm. unfold Cnorm2 in X. apply C_eq; cbn; nra. }
  assert (Hn : (0 < INR n)%R) by (apply lt_0_INR; lia).
  destruct (C116_filtered_mode_vanishes L cs es m LM Em n ft lib g GL GT propagate HP e i q k T Hf Hq Hk Hg HT (Cnorm2 z / 4)%R ltac:(lra)) as (N0 & H0).
  exists (Cnorm2 z / 4 / INR n)%R, N0. split; [apply Rdiv_lt_0_compat; lra|]. intros N HN. destruct (H0 N HN) as (e' & E & F & HB).
  destruct (fits_nth L cs es LM m n e' i q F Hq) as (d & Hd & Ld). exists e', d. split; [exact E|]. split; [exact Hd|].
  rewrite (mode_nth ft e' i d k Hd) in HB.
  assert (LU : length (nth i (U T) []) = n).
  { destruct (proj1 HS T) as [X1 X2]. unfold all_length in X2. rewrite Forall_forall in X2. apply X2, nth_In. rewrite X1. exact (linear_order L cs es LM i q Hq). }
  rewrite <- (energy_difference n d _ Ld LU). set (D := map2 _ d _).
  assert (LD : length D = n) by (apply StepProofs.map2_length; assumption).
  apply Rmult_le_reg_l with (1 := Hn). rewrite (energy_modes n ft D UT LD). replace (INR n * (Cnorm2 z / 4 / INR n))%R with (Cnorm2 z / 4)%R by (field; lra).
  apply Rle_trans with (2 := FlowProofs3.rsum_term n (fun k => Cnorm2 (nth k (fft ft D) C0)) k (fun j _ => Cnorm2_nonneg _) Hk). cbv beta.
  unfold D. rewrite (ut_fft_add n ft UT (RtoC (-1)) d _ Ld LU).
  rewrite (map2_at _ _ _ n k (gt_fft_len n ft GT _ Ld) (gt_fft_len n ft GT _ LU) Hk). apply norm_apart. exact HB.
Qed.
Print Assumptions C116_no_convergence.

(** Diffusion of conc, diffusion and decay of eta (C89), with a filter that
    halves every mode. *)
Example C116_linear_nonvacuous : exists U, linear_model Ld diff_calls diff_eqs /\ run_calls new_mstate (diff_calls ++ [CInit]) = Ok diff_state
  /\ good_library Ld 6 (no_library 6 keep) /\ unitary_transform 6 (fftw_transform [2; 3]%Z)
  /\ solution Ld diff_calls diff_eqs 6 (fftw_transform [2; 3]%Z) (no_library 6 keep) U /\ fits Ld 6 diff_state diff_env /\ e_fields diff_env = U 0%R
  /\ (forall q k, nth_error diff_eqs 1 = Some q -> k < 6 -> Im (symbol Ld (no_library 6 keep) (tfreq (fftw_transform [2; 3]%Z) k) q) = 0%R)
  /\ (forall k, (Rabs (gain (fun _ => / 2) (fftw_transform [2; 3]%Z) k) < 1)%R) /\ mode (fftw_transform [2; 3]%Z) diff_env 1 0 <> C0.
Proof.
  destruct C91_nonvacuous as (U & H1 & H2 & H3 & H4 & H5 & H6 & H7 & H8). exists U. repeat (split; [assumption|]). split.
  - intros k. unfold gain. rewrite Rabs_pos_eq; lra.
  - unfold mode. rewrite (gt_zero 6 _ (ut_good 6 _ H4)) by reflexivity. intros X. apply (f_equal Re) in X. cbn in X. lra.
Qed.
