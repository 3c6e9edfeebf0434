(** The declared equations determine the fields (C98), and the fields depend
    continuously on the initial values (C111). *)
From Verif Require Import ListAux FileModel ParseProofs StepProofs ConserveProofs EquationProps RegistryProps SimProps.
From Verif Require Import SimProofs SimProofs2 LinearProofs2 LinearProofs3 ConvergeProofs KeepProps.
From Verif Require Import LimitProofs LimitProofs2 LimitProofs3 LimitProofs4 LimitProps ResumeProofs DisturbProofs DisturbProofs2 DisturbProps.
From Verif Require ConvergeProps IndexProofs.
From Verif Require Import DftSpec LimitSpec KeepSpec DisturbSpec.
From Coq Require Import Reals ZArith Lia Lra.
From Verif Require Import Complex.
Open Scope R_scope.

Lemma smooth_until L cs es n lib T t : smooth L cs es n lib T -> t <= T -> smooth L cs es n lib t.
Proof.
  intros [S1 S2 S3 S4] Ht. constructor; [exact S1|exact S2|exact S3|].
  intros i s k Hs Hk. destruct (S4 i s k Hs Hk) as (K & H). exists K. intros u u' Hu Hu'. apply H; lra.
Qed.
Lemma solution_restrict L cs es n ft lib T t U : solution_until L cs es n ft lib T U -> t <= T -> solution_until L cs es n ft lib t U.
Proof. intros [H1 H2] Ht. split; [exact H1|]. intros s i q k Hs. apply H2. lra. Qed.

Lemma one_of_sum (m : nat) (f : nat -> R) j : (forall i, 0 <= f i) -> (j < m)%nat -> f j <= Vec.rsum m f.
Proof.
  intros H. induction m as [|m IH]; intros Hj; [lia|]. cbn [Vec.rsum]. pose proof (H m).
  assert (S0 : 0 <= Vec.rsum m f) by (clear IH Hj; induction m as [|m IH]; cbn [Vec.rsum]; [lra|]; pose proof (H m); lra).
  destruct (Nat.eq_dec j m) as [->|N]; [lra|]. pose proof (IH ltac:(lia)). lra.
Qed.
(** From the distance of two fields to their nodes. *)
Lemma node_of_distance (d u : data) e j : 0 <= e -> (j < length d)%nat -> distance2 d u <= e ^ 2 -> size (Csub (nth j d C0) (nth j u C0)) <= 2 * e.
Proof.
  intros He Hj H. apply size_of_norm; [exact He|]. apply Rle_trans with (2 := H). unfold distance2.
  apply (one_of_sum (length d) (fun j => Cnorm2 (Csub (nth j d C0) (nth j u C0))) j); [intros i; apply Cnorm2_nonneg|exact Hj].
Qed.
Lemma below_all a b c : (forall N : nat, (0 < N)%nat -> a <= b + c / INR N) -> a <= b.
Proof.
  intros H. destruct (Rle_lt_dec a b) as [Hle|Hlt]; [exact Hle|exfalso].
  destruct (ConvergeProps.above (c / (a - b))) as (N & HN). specialize (H (S N) ltac:(lia)). assert (HN1 : 0 < INR (S N)) by (apply lt_0_INR; lia).
  assert (HS : INR N <= INR (S N)) by (apply le_INR; lia). assert (a - b <= c / INR (S N)) by lra.
  assert (Hc : (a - b) * INR (S N) <= c). { apply Rle_trans with (c / INR (S N) * INR (S N)); [apply Rmult_le_compat_r; lra|right; field; lra]. }
  assert (c < (a - b) * INR N). { replace c with ((a - b) * (c / (a - b))) by (field; lra). apply Rmult_lt_compat_l; lra. }
  assert ((a - b) * INR N <= (a - b) * INR (S N)) by (apply Rmult_le_compat_l; lra). lra.
Qed.

(** C111, for solutions: two solutions whose initial values differ by at most
    [delta] at every node (delta small enough) differ by at most D delta at the
    time T. *)
Theorem C111_solutions : forall L cs es m, declared L cs es -> run_calls new_mstate (cs ++ [CInit]) = Ok m ->
  forall n ft lib, good_library L n lib -> unitary_transform n ft -> map q_field es = l_fields L -> (0 < n)%nat ->
  forall T, 0 < T -> smooth L cs es n lib T ->
  forall U, solution_until L cs es n ft lib T U ->
  exists D s, 0 <= D /\ 0 < s /\
  forall V delta, solution_until L cs es n ft lib T V -> 0 <= delta <= s -> close (length (l_fields L)) n (delta ^ 2) (V 0) (U 0) ->
  close (length (l_fields L)) n ((D * delta) ^ 2) (V T) (U T).
Proof.
  intros L cs es m HD Em n ft lib GL UT HO Hn T HT SM U HU. set (nf := length (l_fields L)).
  destruct (C111_initial_values L cs es m HD Em n ft lib GL UT HO Hn T HT SM U HU euler_step euler_propagate (or_introl (conj eq_refl eq_refl))) as (D & s & N0 & H1 & H2 & H).
  exists (2 * D), s. split; [lra|]. split; [exact H2|]. intros V delta HV Hd Hc.
  destruct (C98_error_bound L cs es m HD Em n ft lib GL UT HO Hn T HT SM V HV euler_propagate (or_introl eq_refl)) as (D' & N1 & H1' & H').
  intros i j Hi Hj. apply norm_of_size.
  apply (below_all _ _ (2 * D + 2 * D')). intros N HN. set (M := (N0 + N1 + N)%nat).
  set (e := {| e_fields := V 0; e_derived := repeat [] (length (pm_derived (ms_names m))) |}).
  assert (He : fits L n m e). { split; [exact (proj1 (proj1 HV 0))|]. split; [exact (proj2 (proj1 HV 0))|apply repeat_length]. }
  destruct (H M delta e ltac:(unfold M; lia) ltac:(unfold M; lia) Hd He Hc M (le_n M)) as (e1 & E1 & Hf1 & K1).
  destruct (H' e M ltac:(unfold M; lia) ltac:(unfold M; lia) He eq_refl M (le_n M)) as (e2 & E2 & _ & K2).
  assert (e2 = e1) by congruence. subst e2. destruct (K1 i Hi) as (d & Ed & Q1). destruct (K2 i Hi) as (d2 & Ed2 & Q2). assert (d2 = d) by congruence. subst d2.
  assert (HM : 0 < INR M) by (apply lt_0_INR; unfold M; lia). assert (HNr : 0 < INR N) by (apply lt_0_INR; exact HN). assert (HNM : INR N <= INR M) by (apply le_INR; unfold M; lia).
  replace (INR M * (T / INR M)) with T in * by (field; lra). assert (Hinv : / INR M <= / INR N) by (apply Rinv_le_contravar; assumption). assert (0 < / INR M) by (apply Rinv_0_lt_compat; exact HM).
  assert (Ld : length d = n). { pose proof (proj1 (proj2 Hf1)) as F. unfold all_length in F. rewrite Forall_forall in F. apply F. apply nth_error_In in Ed. exact Ed. }
  assert (P1 : 0 <= D * (/ INR M + delta)) by (apply Rmult_le_pos; lra). assert (P2 : 0 <= D' / INR M) by (apply Rmult_le_pos; lra).
  apply (node_of_distance d _ _ j P1 ltac:(lia)) in Q1. apply (node_of_distance d _ _ j P2 ltac:(lia)) in Q2. unfold at_.
  pose proof (size_tri (nth j (nth i (V T) []) C0) (nth j d C0) (nth j (nth i (U T) []) C0)) as Q3. rewrite (size_sub_sym (nth j (nth i (V T) []) C0) (nth j d C0)) in Q3.
  assert (D * / INR M <= D * / INR N) by (apply Rmult_le_compat_l; lra). assert (D' * / INR M <= D' * / INR N) by (apply Rmult_le_compat_l; lra). unfold Rdiv in *. lra.
Qed.
Print Assumptions C111_solutions.

(** C98, uniqueness: solutions with the same initial values are the same at all
    times up to T, so the limit of the runs does not depend on the choice of the
    solution. *)
Theorem C98_unique : forall L cs es m, declared L cs es -> run_calls new_mstate (cs ++ [CInit]) = Ok m ->
  forall n ft lib, good_library L n lib -> unitary_transform n ft -> map q_field es = l_fields L -> (0 < n)%nat ->
  forall T, smooth L cs es n lib T ->
  forall U V, solution_until L cs es n ft lib T U -> solution_until L cs es n ft lib T V -> U 0 = V 0 ->
  forall t, 0 <= t <= T -> U t = V t.
Proof.
  intros L cs es m HD Em n ft lib GL UT HO Hn T SM U V HU HV E0 t Ht. destruct (Req_dec t 0) as [->|Hne]; [exact E0|].
  destruct (C111_solutions L cs es m HD Em n ft lib GL UT HO Hn t ltac:(lra) (smooth_until _ _ _ _ _ T t SM ltac:(lra)) U (solution_restrict _ _ _ _ _ _ T t U HU ltac:(lra)))
    as (D & s & _ & Hs & H).
  specialize (H V 0 (solution_restrict _ _ _ _ _ _ T t V HV ltac:(lra)) ltac:(lra)).
  assert (Hc : close (length (l_fields L)) n (0 ^ 2) (V 0) (U 0)). { intros i j _ _. rewrite E0. replace (Csub _ _) with C0 by csolve. unfold Cnorm2, C0. cbn. lra. }
  specialize (H Hc). destruct (proj1 HU t) as [Lu Su]. destruct (proj1 HV t) as [Lv Sv]. unfold all_length in Su, Sv. rewrite Forall_forall in Su, Sv.
  apply (nth_ext _ _ [] []); [congruence|]. intros i Hi. assert (Li : length (nth i (U t) []) = n) by (apply Su, nth_In; exact Hi). assert (Lj : length (nth i (V t) []) = n) by (apply Sv, nth_In; lia).
  apply (nth_ext _ _ C0 C0); [congruence|]. intros j Hj. specialize (H i j ltac:(lia) ltac:(lia)). unfold at_ in H.
  replace ((D * 0) ^ 2) with 0 in H by ring. set (x := nth j (nth i (U t) []) C0) in *. set (y := nth j (nth i (V t) []) C0) in *. clearbody x y.
  destruct x as [a b], y as [c d]. unfold Cnorm2, Csub, Cadd, Copp, Re, Im in H. cbn [fst snd] in H.
  assert (E : (c - a) * (c - a) + (d - b) * (d - b) <= 0) by lra. pose proof (Rle_0_sqr (c - a)) as S1. pose proof (Rle_0_sqr (d - b)) as S2. unfold Rsqr in S1, S2.
  assert (Z1 : c - a = 0) by (apply Rsqr_0_uniq; unfold Rsqr; lra). assert (Z2 : d - b = 0) by (apply Rsqr_0_uniq; unfold Rsqr; lra). f_equal; lra.
Qed.
Print Assumptions C98_unique.

(** The Allen-Cahn equation of the other examples meets the hypotheses: a pattern
    of walls is its only solution with these initial values. *)
Example C98_unique_nonvacuous : forall dom w T, valid_domain dom -> (forall j, w j ^ 3 = w j) ->
  let n := nodes dom in let ft := fftw_transform dom in let lib := no_library n principal_power in
  solution_until La ac_calls ac_eqs n ft lib T (pattern w n)
  /\ forall V, solution_until La ac_calls ac_eqs n ft lib T V -> V 0 = pattern w n 0 -> forall t, 0 <= t <= T -> V t = pattern w n t.
Proof.
  intros dom w T Hv Hw n ft lib. destruct (C98_nonvacuous dom w T Hv Hw) as (H1 & H2 & H3 & H4 & H5 & H6 & H7 & H8 & _). fold n ft lib in H3, H4, H6, H7, H8.
  split; [exact H8|]. intros V HV E t Ht. exact (C98_unique La ac_calls ac_eqs ac_state H1 H2 n ft lib H3 H4 H5 H6 T H7 V (pattern w n) HV H8 E t Ht).
Qed.
