(** Property C109: ImplicitEuler converges to the solution of the declared
    equations, linear or not. *)
From Verif Require Import ListAux FileModel ParseProofs StepProofs EquationProps RegistryProps SimProps SimSpec DftSpec DftProofs RealSpec RealProofs KeepProps ConvergeProps LimitProps ImplicitProps.
From Verif Require Import SddModel ApproachSpec ApproachProofs2 ApproachProofs4.
From Coq Require Import Reals Permutation Lia Lra.
From Verif Require Import Complex.
Open Scope R_scope.

(** C109. Let the fields [U] solve the declared equations, with their sources,
    from time 0 to T.  Suppose that on states close to [U] the solver returns a
    vector not farther than [r] from the old values at which no entry of the
    residual exceeds [c] times the square of the time step.  Then there is a
    constant D such that with N steps of size T/N (N large enough) a run that
    starts from U 0 completes and after every one of the N steps every field
    differs from [U] at that time by at most D/N. *)
Theorem C109_error_bound : forall L cs es m, declared L cs es -> run_calls new_mstate (cs ++ [CInit]) = Ok m ->
  forall dom lib, let n := nodes dom in let ft := fftw_transform dom in let p := simulation n ft lib m in
  valid_domain dom -> square_layout dom -> good_library L n lib -> real_library L cs es dom (length (pm_derived (ms_names m))) lib -> map q_field es = l_fields L ->
  forall T, 0 < T -> smooth L cs es n lib T ->
  forall U, solution_until L cs es n ft lib T U ->
  forall delta r c, 0 < delta -> 0 <= r -> 0 <= c ->
  exists D N0, 0 <= D /\ forall filt solve e N, (N0 <= N)%nat -> (0 < N)%nat ->
  fits L n m e -> real_fields dom (e_fields e) -> e_fields e = U 0 ->
  (forall t e F x0 e2, 0 <= t -> t + T / INR N <= T -> fits L n m e -> real_fields dom (e_fields e) -> close_to (length (l_fields L)) delta (e_fields e) (U t) ->
     ie_problem p ft filt (T / INR N) t e = Some (F, x0, e2) -> nearly_solves r (c * (T / INR N) ^ 2) solve F x0 (values (e_fields e))) ->
  forall k, (k <= N)%nat ->
  exists e', ie_propagate solve p ft filt (T / INR N) k 0%nat e = Some (e', k) /\ fits L n m e' /\ real_fields dom (e_fields e')
    /\ close_to (length (l_fields L)) ((D / INR N) ^ 2) (e_fields e') (U (INR k * (T / INR N))).
Proof.
  intros L cs es m HD Em dom lib n ft p Hv Hsq GL RL HO T HT SM U HU delta r c Hd Hr Hc.
  destruct (error_bound L cs es m HD Em dom lib Hv Hsq GL RL HO (nodes_pos dom Hv) T HT SM U HU delta r c Hd Hr Hc) as (D & N0 & HD0 & H).
  exists D, N0. split; [exact HD0|]. intros filt solve e N HN HN1 Hf He E0 HS k Hk.
  destruct (H filt solve e N HN HN1 (conj Hf He) E0) with (k := k) as (e' & EP & [Hf' He'] & HC); [|exact Hk|].
  - intros t e1 F x0 e2 H1 H2 [H3 H4] H5 H6. exact (HS t e1 F x0 e2 H1 H2 H3 H4 H5 H6).
  - exists e'. auto.
Qed.
Print Assumptions C109_error_bound.

(** The solver that subtracts the residual two or more times from the guess
    meets that hypothesis for all small time steps. *)
Theorem C109_fixed_point : forall L cs es m, declared L cs es -> run_calls new_mstate (cs ++ [CInit]) = Ok m ->
  forall dom lib, let n := nodes dom in let ft := fftw_transform dom in let p := simulation n ft lib m in
  valid_domain dom -> square_layout dom -> good_library L n lib -> real_library L cs es dom (length (pm_derived (ms_names m))) lib -> map q_field es = l_fields L ->
  forall T, 0 < T -> smooth L cs es n lib T ->
  forall U, solution_until L cs es n ft lib T U ->
  exists delta r c h1, 0 < delta /\ 0 <= r /\ 0 <= c /\ 0 < h1 /\ forall steps dt t e F x0 e2, (2 <= steps)%nat -> 0 < dt <= h1 -> 0 <= t -> t + dt <= T ->
  fits L n m e -> real_fields dom (e_fields e) -> close_to (length (l_fields L)) delta (e_fields e) (U t) ->
  ie_problem p ft None dt t e = Some (F, x0, e2) -> nearly_solves r (c * dt ^ 2) (fixed_point steps) F x0 (values (e_fields e)).
Proof.
  intros L cs es m HD Em dom lib n ft p Hv Hsq GL RL HO T HT SM U HU.
  destruct (fixed_point_solves L cs es m HD Em dom lib Hv Hsq GL RL HO (nodes_pos dom Hv) T HT SM U HU 2) as (delta & r & c & h1 & Hd & Hr & Hc & Hh & H).
  exists delta, r, c, h1. split; [exact Hd|]. split; [exact Hr|]. split; [exact Hc|]. split; [exact Hh|].
  intros steps dt t e F x0 e2 Hs Hdt Ht HtT Hf He Hcl EQ. exact (H steps dt t e Hs Hdt Ht HtT (conj Hf He) Hcl F x0 e2 EQ).
Qed.
Print Assumptions C109_fixed_point.

(** So runs with that solver converge, with no hypothesis on what it finds. *)
Theorem C109_converges : forall L cs es m, declared L cs es -> run_calls new_mstate (cs ++ [CInit]) = Ok m ->
  forall dom lib, let n := nodes dom in let ft := fftw_transform dom in let p := simulation n ft lib m in
  valid_domain dom -> square_layout dom -> good_library L n lib -> real_library L cs es dom (length (pm_derived (ms_names m))) lib -> map q_field es = l_fields L ->
  forall T, 0 < T -> smooth L cs es n lib T ->
  forall U, solution_until L cs es n ft lib T U ->
  exists D N0, 0 <= D /\ forall steps e N, (2 <= steps)%nat -> (N0 <= N)%nat -> (0 < N)%nat ->
  fits L n m e -> real_fields dom (e_fields e) -> e_fields e = U 0 -> forall k, (k <= N)%nat ->
  exists e', ie_propagate (fixed_point steps) p ft None (T / INR N) k 0%nat e = Some (e', k) /\ fits L n m e' /\ real_fields dom (e_fields e')
    /\ close_to (length (l_fields L)) ((D / INR N) ^ 2) (e_fields e') (U (INR k * (T / INR N))).
Proof.
  intros L cs es m HD Em dom lib n ft p Hv Hsq GL RL HO T HT SM U HU.
  destruct (C109_fixed_point L cs es m HD Em dom lib Hv Hsq GL RL HO T HT SM U HU) as (delta & r & c & h1 & Hd & Hr & Hc & Hh & H). fold n ft p in H.
  destruct (C109_error_bound L cs es m HD Em dom lib Hv Hsq GL RL HO T HT SM U HU delta r c Hd Hr Hc) as (D & N0 & HD0 & HE). fold n ft p in HE.
  destruct (above (T / h1)) as (N1 & HN1). exists D, (N0 + N1)%nat. split; [exact HD0|]. intros steps e N Hs HN HNp Hf He E0 k Hk.
  assert (HNr : 0 < INR N) by (apply lt_0_INR; exact HNp). assert (HN1' : INR N1 <= INR N) by (apply le_INR; lia).
  apply (HE None (fixed_point steps) e N ltac:(lia) HNp Hf He E0); [|exact Hk].
  intros t e1 F x0 e2 Ht HtT Hf1 He1 Hcl EQ. apply (H steps (T / INR N) t e1 F x0 e2 Hs); try assumption.
  split; [apply Rdiv_lt_0_compat; assumption|]. apply Rmult_le_reg_r with (INR N); [exact HNr|]. replace (T / INR N * INR N) with T by (field; lra).
  replace T with (h1 * (T / h1)) at 1 by (field; lra). apply Rmult_le_compat_l; lra.
Qed.
Print Assumptions C109_converges.

(** The hypotheses hold for Allen-Cahn on any domain of the kind; the solution
    is not constant (see C98_nonvacuous). *)
Example C109_nonvacuous : forall dom w T, valid_domain dom -> square_layout dom -> 0 < T -> (forall j, w j ^ 3 = w j) ->
  let n := nodes dom in let ft := fftw_transform dom in let lib := no_library n principal_power in
  declared La ac_calls ac_eqs /\ run_calls new_mstate (ac_calls ++ [CInit]) = Ok ac_state /\ good_library La n lib
  /\ real_library La ac_calls ac_eqs dom (length (pm_derived (ms_names ac_state))) lib
  /\ map q_field ac_eqs = l_fields La /\ smooth La ac_calls ac_eqs n lib T /\ solution_until La ac_calls ac_eqs n ft lib T (pattern w n)
  /\ (let e := {| e_fields := pattern w n 0; e_derived := [[]] |} in fits La n ac_state e /\ real_fields dom (e_fields e))
  /\ derivable_pt_lim follow 0 (sqrt (/ 2) / 2)
  /\ exists D N0, 0 <= D /\ forall N, (N0 <= N)%nat -> (0 < N)%nat ->
     exists e', ie_propagate (fixed_point 2) (simulation n ft lib ac_state) ft None (T / INR N) N 0%nat {| e_fields := pattern w n 0; e_derived := [[]] |} = Some (e', N)
     /\ close_to 1 ((D / INR N) ^ 2) (e_fields e') (pattern w n T).
Proof.
  intros dom w T Hv Hsq HT Hw n ft lib. destruct (C98_nonvacuous dom w T Hv Hw) as (HD & Em & GL & _ & HO & _ & SM & HS & _ & Hf & DV). fold n ft lib in GL, SM, HS, Hf.
  destruct (C97_whole_exponents La ac_calls ac_eqs dom (length (pm_derived (ms_names ac_state))) lib ac_declared eq_refl eq_refl)
    as [RL _]; [intros i; reflexivity|exact GL|reflexivity|intros s []| |].
  { intros q t s w' [<-|[]] Ht Hin. cbn in Ht. destruct Ht as [Ht|[Ht|[]]]; injection Ht as <- _; destruct Hin as [<-|[]]; reflexivity || exact I. }
  assert (HR : real_fields dom (pattern w n 0)).
  { constructor; [|constructor]. split; [rewrite map_length, seq_length; reflexivity|]. apply Forall_forall. intros z Hz. apply in_map_iff in Hz. destruct Hz as (j & <- & _). reflexivity. }
  split; [exact HD|]. split; [exact Em|]. split; [exact GL|]. split; [exact RL|]. split; [exact HO|]. split; [exact SM|]. split; [exact HS|]. split; [split; [exact Hf|exact HR]|]. split; [exact DV|].
  destruct (C109_converges La ac_calls ac_eqs ac_state HD Em dom lib Hv Hsq GL RL HO T HT SM (pattern w n) HS) as (D & N0 & HD0 & H). fold n ft in H.
  exists D, N0. split; [exact HD0|]. intros N HN HNp.
  destruct (H 2%nat {| e_fields := pattern w n 0; e_derived := [[]] |} N (le_n 2) HN HNp Hf HR eq_refl N (le_n N)) as (e' & EP & _ & _ & HC).
  exists e'. split; [exact EP|]. assert (0 < INR N) by (apply lt_0_INR; exact HNp). replace (INR N * (T / INR N)) with T in HC by (field; lra). exact HC.
Qed.
