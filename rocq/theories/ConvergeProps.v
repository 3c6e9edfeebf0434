(** Property C91: the solver converges to the solution of linear equations. *)
From Verif Require Import ListAux FileModel ParseProofs StepProofs ConserveProofs EquationProps RegistryProps SimProps.
From Verif Require Import SimProofs SimProofs2 SimProofs3 SimProofs4 SimProofs5 SimProofs6 LinearProofs LinearProofs2 LinearProofs3 DftProofs LinearProps ConvergeProofs.
From Verif Require Import DftSpec ConvergeSpec.
From Coq Require Import Permutation Lia Lra.
Open Scope nat_scope.

(** [N] steps of size T/N, with Euler or Runge-Kutta, differ from the solution
    at time T by at most 2 (A T)^2 exp(2 A T) / N times the size of the initial
    field, where A bounds the symbol of the equation. *)
Theorem C91_error_bound : forall L cs es m, linear_model L cs es -> run_calls new_mstate (cs ++ [CInit]) = Ok m ->
  forall n ft lib, good_library L n lib -> unitary_transform n ft -> 0 < n ->
  forall propagate, propagate = euler_propagate \/ propagate = rk4_propagate ->
  forall U e i q A T N, solution L cs es n ft lib U -> fits L n m e -> e_fields e = U 0%R -> nth_error es i = Some q ->
  (forall k, k < n -> exists s, symbol L lib (tfreq ft k) q = RtoC s /\ (Rabs s <= A)%R) ->
  (0 <= T)%R -> 0 < N -> (2 * (A * T) <= INR N)%R ->
  exists e' d, propagate (simulation n ft lib m) ft None (T / INR N)%R N 0 e = Some (e', N) /\ fits L n m e' /\ nth_error (e_fields e') i = Some d
    /\ (distance2 d (nth i (U T) []) <= (2 * (A * T) ^ 2 * exp (2 * (A * T)) / INR N) ^ 2 * energy (nth i (U 0) []))%R.
Proof.
  intros L cs es m LM Em n ft lib GL UT Hn propagate HP U e i q A T N HS Hf HU Hq Hs HT HN HB. assert (GT := ut_good n ft UT).
  assert (HE : exists e', propagate (simulation n ft lib m) ft None (T / INR N)%R N 0 e = Some (e', 0 + N) /\ many_steps L es m n ft lib (T / INR N) N e e').
  { destruct HP as [-> | ->]; [apply (euler_many L cs es LM)|apply (rk4_many L cs es LM)]; assumption. }
  destruct HE as (e' & E & HM). assert (Hf' := many_fits L es m n ft lib _ N e e' Hf HM).
  destruct (fits_nth L cs es LM m n e' i q Hf' Hq) as (d & Hd & _). exists e', d. split; [exact E|]. split; [exact Hf'|]. split; [exact Hd|].
  assert (HA : (0 <= A)%R) by (destruct (Hs 0 Hn) as (s & _ & X); assert (Y := Rabs_pos s); lra).
  exact (converges L cs es LM m n ft lib UT Hn U i q A T N e e' d HS Hq HA HT HN Hs HB Hf HU HM Hd).
Qed.
Print Assumptions C91_error_bound.

Lemma above (r : R) : exists N, (INR N > r)%R.
Proof.
  exists (Z.to_nat (up r)). assert (H := archimed r). destruct (Z_lt_le_dec (up r) 0) as [Hz|Hz].
  - assert (E : Z.to_nat (up r) = 0) by lia. rewrite E. cbn. apply IZR_lt in Hz. lra.
  - rewrite INR_IZR_INZ, Z2Nat.id by exact Hz. lra.
Qed.
Lemma bounded_rates (n : nat) (f : nat -> R) : exists A, forall k, k < n -> (Rabs (f k) <= A)%R.
Proof.
  induction n as [|n (A & HA)]; [exists 0%R; intros k Hk; lia|]. exists (A + Rabs (f n) + Rabs A)%R. intros k Hk.
  assert (P1 := Rabs_pos (f n)). assert (P2 := Rle_abs (- A)). assert (P3 := Rle_abs A). rewrite Rabs_Ropp in P2. assert (P4 := Rabs_pos A).
  destruct (Nat.eq_dec k n) as [->|Hd]; [lra|]. assert (X := HA k ltac:(lia)). lra.
Qed.

(** So the result at a fixed time T tends to the solution when the number of
    steps grows. *)
Theorem C91_limit : forall L cs es m, linear_model L cs es -> run_calls new_mstate (cs ++ [CInit]) = Ok m ->
  forall n ft lib, good_library L n lib -> unitary_transform n ft -> 0 < n ->
  forall propagate, propagate = euler_propagate \/ propagate = rk4_propagate ->
  forall U e i q T, solution L cs es n ft lib U -> fits L n m e -> e_fields e = U 0%R -> nth_error es i = Some q ->
  (forall k, k < n -> Im (symbol L lib (tfreq ft k) q) = 0%R) -> (0 <= T)%R ->
  forall eps, (0 < eps)%R -> exists N0, forall N, N0 <= N ->
  exists e' d, propagate (simulation n ft lib m) ft None (T / INR N)%R N 0 e = Some (e', N) /\ fits L n m e' /\ nth_error (e_fields e') i = Some d
    /\ (distance2 d (nth i (U T) []) <= eps)%R.
Proof.
  intros L cs es m LM Em n ft lib GL UT Hn propagate HP U e i q T HS Hf HU Hq Hi HT eps Heps.
  destruct (bounded_rates n (fun k => Re (symbol L lib (tfreq ft k) q))) as (A & HA).
  set (B := (2 * (A * T) ^ 2 * exp (2 * (A * T)))%R). set (En := energy (nth i (U 0%R) [])).
  assert (HEn : (0 <= En)%R).
  { unfold En, energy. apply Rle_trans with (Vec.rsum (length (nth i (U 0%R) [])) (fun _ => 0%R)).
    - right. induction (length (nth i (U 0%R) [])) as [|k IH]; cbn [Vec.rsum]; [reflexivity|rewrite <- IH; ring].
    - apply rsum_le. intros j _. apply Cnorm2_nonneg. }
  destruct (above (2 * (A * T))) as (N1 & H1). destruct (above (B ^ 2 * En / eps)) as (N2 & H2).
  exists (S (N1 + N2)). intros N HN. assert (HN1 : (INR N1 <= INR N)%R) by (apply le_INR; lia). assert (HN2 : (INR N2 <= INR N)%R) by (apply le_INR; lia).
  assert (HN3 : (1 <= INR N)%R) by (change 1%R with (INR 1); apply le_INR; lia).
  assert (Hs : forall k, k < n -> exists s, symbol L lib (tfreq ft k) q = RtoC s /\ (Rabs s <= A)%R).
  { intros k Hk. exists (Re (symbol L lib (tfreq ft k) q)). split; [apply C_eq; [reflexivity|exact (Hi k Hk)]|exact (HA k Hk)]. }
  destruct (C91_error_bound L cs es m LM Em n ft lib GL UT Hn propagate HP U e i q A T N HS Hf HU Hq Hs HT ltac:(lia) ltac:(lra)) as (e' & d & E & Hf' & Hd & HD).
  exists e', d. split; [exact E|]. split; [exact Hf'|]. split; [exact Hd|]. apply Rle_trans with (1 := HD). fold B En.
  assert (X : (B ^ 2 * En <= eps * INR N)%R).
  { apply Rmult_le_reg_r with (/ eps)%R; [apply Rinv_0_lt_compat, Heps|]. replace (eps * INR N * / eps)%R with (INR N) by (field; lra). apply Rle_trans with (INR N2); [left; exact H2|exact HN2]. }
  replace ((B / INR N) ^ 2 * En)%R with (B ^ 2 * En / (INR N * INR N))%R by (field; lra).
  apply Rmult_le_reg_r with (INR N * INR N)%R; [nra|]. unfold Rdiv. rewrite Rmult_assoc, Rinv_l by nra. rewrite Rmult_1_r. apply Rle_trans with (1 := X).
  apply Rmult_le_compat_l; [lra|]. rewrite <- (Rmult_1_r (INR N)) at 1. apply Rmult_le_compat_l; lra.
Qed.
Print Assumptions C91_limit.

(** There is such a solution for every initial state: the statements above are
    about something. *)
Theorem C91_solution_exists : forall L cs es m, linear_model L cs es -> run_calls new_mstate (cs ++ [CInit]) = Ok m ->
  forall n ft lib fields, unitary_transform n ft -> 0 < n -> length fields = length (l_fields L) -> all_length n fields ->
  (forall i q k, nth_error es i = Some q -> k < n -> Im (symbol L lib (tfreq ft k) q) = 0%R) ->
  exists U, solution L cs es n ft lib U /\ U 0%R = fields.
Proof.
  intros L cs es m LM Em n ft lib fields UT Hn HL HA Hi. exists (flow L es n ft lib fields).
  split; [apply (flow_solves L cs es LM m Em n ft lib UT); assumption|apply (flow_start L es n ft lib UT); assumption].
Qed.
Print Assumptions C91_solution_exists.

(** Diffusion of conc, diffusion and decay of eta (C89). *)
Example C91_nonvacuous : exists U, linear_model Ld diff_calls diff_eqs /\ run_calls new_mstate (diff_calls ++ [CInit]) = Ok diff_state
  /\ good_library Ld 6 (no_library 6 keep) /\ unitary_transform 6 (fftw_transform [2; 3]%Z)
  /\ solution Ld diff_calls diff_eqs 6 (fftw_transform [2; 3]%Z) (no_library 6 keep) U /\ fits Ld 6 diff_state diff_env /\ e_fields diff_env = U 0%R
  /\ (forall q k, nth_error diff_eqs 1 = Some q -> k < 6 -> Im (symbol Ld (no_library 6 keep) (tfreq (fftw_transform [2; 3]%Z) k) q) = 0%R).
Proof.
  destruct C89_nonvacuous as (H1 & H2 & H3 & H4 & H5 & H6).
  assert (UT : unitary_transform 6 (fftw_transform [2; 3]%Z)) by (apply (fftw_unitary [2; 3]%Z); repeat constructor).
  assert (Him : forall i q k, nth_error diff_eqs i = Some q -> k < 6 -> Im (symbol Ld (no_library 6 keep) (tfreq (fftw_transform [2; 3]%Z) k) q) = 0%R).
  { intros i q k Hq _. destruct i as [|[|i]]; cbn [nth_error diff_eqs] in Hq; [| |destruct i; discriminate Hq].
    - injection Hq as <-. unfold symbol. cbn [signed_items q_first q_lead q_more map Csum fst snd item_symbol].
      change (scalar_factors Ld [plainw "diff" None; lapw "conc" None]) with [fac "diff" None].
      cbn [product_value no_library lb_pow lb_scalar sign_value total_power plainw lapw wf_op oper_power Nat.add pow]. unfold keep.
      unfold Cadd, Cmul, RtoC, C0, C1, Im, Re. cbn [fst snd]. ring.
    - injection Hq as <-. cbn [nth diff_eqs] in H6. rewrite H6. reflexivity. }
  destruct (C91_solution_exists Ld diff_calls diff_eqs diff_state H1 H2 6 (fftw_transform [2; 3]%Z) (no_library 6 keep) (e_fields diff_env) UT ltac:(lia)) as (U & HU & H0);
    [reflexivity|repeat constructor|exact Him|].
  exists U. split; [exact H1|]. split; [exact H2|]. split; [exact H3|]. split; [exact UT|]. split; [exact HU|]. split; [exact H5|]. split; [symmetry; exact H0|].
  intros q k Hq Hk. exact (Him 1 q k Hq Hk).
Qed.
