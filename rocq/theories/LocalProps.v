(** C115: declared equations have a solution for a short time, and it lasts as
    long as the runs of Euler stay bounded. *)
From Verif Require Import ListAux FileModel ParseProofs StepProofs ConserveProofs EquationProps RegistryProps SimProps.
From Verif Require Import SimProofs SimProofs2 LinearProofs2 LinearProofs3 ConvergeProofs KeepProps.
From Verif Require Import LimitProofs LimitProofs2 LimitProofs3 LimitProofs4 LimitProps DisturbProofs2 UniqueProps LocalProofs LocalProofs2.
From Verif Require ConvergeProps IndexProofs.
From Verif Require Import DftSpec LimitSpec KeepSpec.
From Coq Require Import Reals ZArith Lia Lra.
From Verif Require Import Complex.
Open Scope R_scope.

(** For every start there is a solution for some time. *)
Theorem C115_short_time : forall L cs es m, declared L cs es -> run_calls new_mstate (cs ++ [CInit]) = Ok m ->
  forall n ft lib, good_library L n lib -> unitary_transform n ft -> map q_field es = l_fields L -> (0 < n)%nat ->
  forall T, 0 < T -> smooth L cs es n lib T ->
  forall fs, shaped (length (l_fields L)) n fs ->
  exists s U, 0 < s <= T /\ solution_until L cs es n ft lib s U /\ U 0 = fs.
Proof. intros L cs es m HD Em n ft lib GL UT HO Hn T HT SM fs Hs. exact (local_solution L cs es m HD Em n ft lib GL UT HO Hn T HT SM fs Hs). Qed.
Print Assumptions C115_short_time.

(** So the runs over that time converge, whatever the start: no solution has to
    be given. *)
Theorem C115_runs_converge : forall L cs es m, declared L cs es -> run_calls new_mstate (cs ++ [CInit]) = Ok m ->
  forall n ft lib, good_library L n lib -> unitary_transform n ft -> map q_field es = l_fields L -> (0 < n)%nat ->
  forall T, 0 < T -> smooth L cs es n lib T ->
  forall propagate, propagate = euler_propagate \/ (propagate = rk4_propagate /\ field_independent cs lib) ->
  forall e, fits L n m e ->
  exists s U D N0, 0 < s <= T /\ solution_until L cs es n ft lib s U /\ U 0 = e_fields e /\ 0 <= D
  /\ forall N k, (N0 <= N)%nat -> (0 < N)%nat -> (k <= N)%nat ->
     exists e', propagate (simulation n ft lib m) ft None (s / INR N) k 0%nat e = Some (e', k)
     /\ forall i, (i < length (l_fields L))%nat ->
        exists d, nth_error (e_fields e') i = Some d /\ distance2 d (nth i (U (INR k * (s / INR N))) []) <= (D / INR N) ^ 2.
Proof.
  intros L cs es m HD Em n ft lib GL UT HO Hn T HT SM propagate Hp e Hf.
  destruct (local_solution L cs es m HD Em n ft lib GL UT HO Hn T HT SM (e_fields e) (fits_shaped L m n e Hf)) as (s & U & Hs & HU & E0).
  destruct (C98_error_bound L cs es m HD Em n ft lib GL UT HO Hn s (proj1 Hs) (smooth_until _ _ _ _ _ T s SM (proj2 Hs)) U HU propagate Hp) as (D & N0 & HD0 & H).
  exists s, U, D, N0. split; [exact Hs|]. split; [exact HU|]. split; [exact E0|]. split; [exact HD0|]. intros N k HN HN1 Hk.
  destruct (H e N HN HN1 Hf (eq_sym E0) k Hk) as (e' & E1 & _ & H1). exists e'. split; [exact E1|exact H1].
Qed.
Print Assumptions C115_runs_converge.

(** It is enough that the runs stay bounded under repeated halving of one time
    step. *)
Theorem C115_halving : forall L cs es m, declared L cs es -> run_calls new_mstate (cs ++ [CInit]) = Ok m ->
  forall n ft lib, good_library L n lib -> unitary_transform n ft -> map q_field es = l_fields L -> (0 < n)%nat ->
  forall T, 0 < T -> smooth L cs es n lib T ->
  forall e, fits L n m e -> forall N0 r, (0 < N0)%nat ->
  (forall j k e', (k <= N0 * 2 ^ j)%nat -> euler_propagate (simulation n ft lib m) ft None (T / INR (N0 * 2 ^ j)) k 0%nat e = Some (e', k) ->
     bounded_by (length (l_fields L)) n r (e_fields e')) ->
  exists U, solution_until L cs es n ft lib T U /\ U 0 = e_fields e.
Proof. intros L cs es m HD Em n ft lib GL UT HO Hn T HT SM e Hf N0 r HN0 HB. exact (bounded_solution L cs es m HD Em n ft lib GL UT HO Hn T HT SM e N0 r Hf HN0 HB). Qed.
Print Assumptions C115_halving.

(** There is a solution up to the time T exactly if the runs of Euler up to T
    stay below one bound for all sufficiently small time steps. *)
Theorem C115_bounded_runs : forall L cs es m, declared L cs es -> run_calls new_mstate (cs ++ [CInit]) = Ok m ->
  forall n ft lib, good_library L n lib -> unitary_transform n ft -> map q_field es = l_fields L -> (0 < n)%nat ->
  forall T, 0 < T -> smooth L cs es n lib T ->
  forall e, fits L n m e ->
  (exists U, solution_until L cs es n ft lib T U /\ U 0 = e_fields e)
  <-> exists N0 r, forall N k, (N0 <= N)%nat -> (0 < N)%nat -> (k <= N)%nat ->
      exists e', euler_propagate (simulation n ft lib m) ft None (T / INR N) k 0%nat e = Some (e', k) /\ bounded_by (length (l_fields L)) n r (e_fields e').
Proof.
  intros L cs es m HD Em n ft lib GL UT HO Hn T HT SM e Hf. set (nf := length (l_fields L)). split.
  - intros (U & HU & E0).
    destruct (C98_error_bound L cs es m HD Em n ft lib GL UT HO Hn T HT SM U HU euler_propagate (or_introl eq_refl)) as (D & N0 & HD0 & H).
    destruct (solution_bound L cs es m HD Em n ft lib GL UT HO Hn T HT SM U HU) as (B & HB0 & HB). fold nf in HB.
    exists N0, ((B + 2 * D) ^ 2). intros N k HN HN1 Hk. destruct (H e N HN HN1 Hf (eq_sym E0) k Hk) as (e' & E1 & Hf' & H1). exists e'. split; [exact E1|].
    assert (HNr : 1 <= INR N) by (change 1 with (INR 1); apply le_INR; lia).
    intros i j Hi Hj. destruct (H1 i Hi) as (d & Ed & Q). assert (Ld : length d = n). { pose proof (proj1 (proj2 Hf')) as F. unfold all_length in F. rewrite Forall_forall in F. apply F. apply nth_error_In in Ed. exact Ed. }
    assert (Hdn : 0 <= D / INR N) by (apply Rmult_le_pos; [lra|left; apply Rinv_0_lt_compat; lra]).
    assert (HDN : D / INR N <= D). { apply Rmult_le_reg_r with (INR N); [lra|]. replace (D / INR N * INR N) with D by (field; lra). assert (D * 1 <= D * INR N) by (apply Rmult_le_compat_l; lra). lra. }
    apply (node_of_distance d _ _ j Hdn ltac:(lia)) in Q. assert (Ht : 0 <= INR k * (T / INR N) <= T).
    { assert (0 < T / INR N) by (apply Rdiv_lt_0_compat; lra). split; [apply Rmult_le_pos; [apply pos_INR|lra]|]. apply le_INR in Hk. apply Rle_trans with (INR N * (T / INR N)); [apply Rmult_le_compat_r; lra|right; field; lra]. }
    pose proof (HB _ Ht i j Hi Hj) as Q2. unfold at_ in Q2. apply norm_of_size. unfold at_. rewrite (nth_error_nth _ _ [] Ed).
    pose proof (size_of_sub (nth j d C0) (nth j (nth i (U (INR k * (T / INR N))) []) C0)). lra.
  - intros (N0 & r & H). apply (bounded_solution L cs es m HD Em n ft lib GL UT HO Hn T HT SM e (S N0) r Hf ltac:(lia)).
    intros j k e' Hk E. assert (P : (1 <= 2 ^ j)%nat) by (apply (Nat.pow_le_mono_r 2 0 j); lia). destruct (H (S N0 * 2 ^ j)%nat k ltac:(nia) ltac:(nia) Hk) as (e1 & E1 & HB). assert (e1 = e') by congruence. subst e1. exact HB.
Qed.
Print Assumptions C115_bounded_runs.

(** The Allen-Cahn equation on an arbitrary domain meets the hypotheses: from
    every start it has a solution for some time. From the steady patterns of
    C98 there is one up to every T, so the runs stay bounded. *)
Example C115_nonvacuous : forall dom T, valid_domain dom -> 0 < T ->
  let n := nodes dom in let ft := fftw_transform dom in let lib := no_library n principal_power in
  (forall d, length d = n -> exists s U, 0 < s <= T /\ solution_until La ac_calls ac_eqs n ft lib s U /\ U 0 = [d])
  /\ forall w, (forall j, w j ^ 3 = w j) -> exists N0 r, forall N k, (N0 <= N)%nat -> (0 < N)%nat -> (k <= N)%nat ->
     exists e', euler_propagate (simulation n ft lib ac_state) ft None (T / INR N) k 0%nat {| e_fields := pattern w n 0; e_derived := [[]] |} = Some (e', k) /\ bounded_by 1 n r (e_fields e').
Proof.
  intros dom T Hv HT n ft lib. split.
  - intros d Hd. destruct (C98_nonvacuous dom (fun _ => 0) T Hv ltac:(intros; simpl; lra)) as (H1 & H2 & H3 & H4 & H5 & H6 & H7 & _). fold n ft lib in H3, H4, H6, H7.
    apply (C115_short_time La ac_calls ac_eqs ac_state H1 H2 n ft lib H3 H4 H5 H6 T HT H7 [d]). split; [reflexivity|repeat constructor; exact Hd].
  - intros w Hw. destruct (C98_nonvacuous dom w T Hv Hw) as (H1 & H2 & H3 & H4 & H5 & H6 & H7 & H8 & _ & H9 & _). fold n ft lib in H3, H4, H6, H7, H8, H9.
    apply (proj1 (C115_bounded_runs La ac_calls ac_eqs ac_state H1 H2 n ft lib H3 H4 H5 H6 T HT H7 _ H9)). exists (pattern w n). split; [exact H8|reflexivity].
Qed.
