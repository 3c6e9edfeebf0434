(** Property C98: the solver converges to the solution of the declared
    equations, linear or not. *)
From Verif Require Import ListAux FileModel ParseProofs StepProofs ConserveProofs EquationProps RegistryProps SimProps.
From Verif Require Import SimProofs SimProofs2 SimProofs3 SimProofs4 SimProofs5 SimProofs6 LinearProofs LinearProofs2 LinearProofs3 DftProofs ConvergeProofs ConvergeProps KeepProps.
From Verif Require EnergyProofs3 IndexProofs.
From Verif Require Import LimitProofs LimitProofs2 LimitProofs3 LimitProofs4 DftSpec LimitSpec KeepSpec.
From Coq Require Import Reals Permutation Lia Lra.
From Verif Require Import Complex.
Open Scope R_scope.

(** C98. Let the fields [U] solve the declared equations, with their sources,
    from time 0 to T.  There is a constant D such that with N steps of size T/N
    (N large enough), Euler and Runge-Kutta runs that start from U 0 complete
    and after every one of the N steps every field differs from [U] at that
    time by at most D/N. *)
Theorem C98_error_bound : forall L cs es m, declared L cs es -> run_calls new_mstate (cs ++ [CInit]) = Ok m ->
  forall n ft lib, good_library L n lib -> unitary_transform n ft -> map q_field es = l_fields L -> (0 < n)%nat ->
  forall T, 0 < T -> smooth L cs es n lib T ->
  forall U, solution_until L cs es n ft lib T U ->
  forall propagate, propagate = euler_propagate \/ (propagate = rk4_propagate /\ field_independent cs lib) ->
  exists D N0, 0 <= D /\ forall e N, (N0 <= N)%nat -> (0 < N)%nat -> fits L n m e -> e_fields e = U 0 -> forall k, (k <= N)%nat ->
  exists e', propagate (simulation n ft lib m) ft None (T / INR N) k 0%nat e = Some (e', k) /\ fits L n m e'
  /\ forall i, (i < length (l_fields L))%nat ->
     exists d, nth_error (e_fields e') i = Some d /\ distance2 d (nth i (U (INR k * (T / INR N))) []) <= (D / INR N) ^ 2.
Proof. exact limit_bound. Qed.
Print Assumptions C98_error_bound.

(** So at the time T the fields tend to those of the solution. *)
Theorem C98_limit : forall L cs es m, declared L cs es -> run_calls new_mstate (cs ++ [CInit]) = Ok m ->
  forall n ft lib, good_library L n lib -> unitary_transform n ft -> map q_field es = l_fields L -> (0 < n)%nat ->
  forall T, 0 < T -> smooth L cs es n lib T ->
  forall U, solution_until L cs es n ft lib T U ->
  forall propagate, propagate = euler_propagate \/ (propagate = rk4_propagate /\ field_independent cs lib) ->
  forall eps, 0 < eps -> exists N0, forall e N, (N0 <= N)%nat -> fits L n m e -> e_fields e = U 0 ->
  exists e', propagate (simulation n ft lib m) ft None (T / INR N) N 0%nat e = Some (e', N) /\ fits L n m e'
  /\ forall i, (i < length (l_fields L))%nat -> exists d, nth_error (e_fields e') i = Some d /\ distance2 d (nth i (U T) []) <= eps.
Proof.
  intros L cs es m HD Em n ft lib GL UT HO Hn T HT SM U HU propagate HP eps Heps.
  destruct (C98_error_bound L cs es m HD Em n ft lib GL UT HO Hn T HT SM U HU propagate HP) as (D & N0 & HD0 & H).
  destruct (above (D ^ 2 / eps)) as (N1 & HN1). exists (S (N0 + N1)). intros e N HN Hf He.
  assert (HNr : 1 <= INR N) by (change 1 with (INR 1); apply le_INR; lia). assert (HN1' : INR N1 <= INR N) by (apply le_INR; lia).
  destruct (H e N ltac:(lia) ltac:(lia) Hf He N (le_n N)) as (e' & E & Hf' & Hi). exists e'. split; [exact E|]. split; [exact Hf'|]. intros i Hl.
  destruct (Hi i Hl) as (d & Ed & Hd). exists d. split; [exact Ed|]. replace (INR N * (T / INR N)) with T in Hd by (field; lra).
  apply Rle_trans with (1 := Hd). replace ((D / INR N) ^ 2) with (D ^ 2 / (INR N * INR N)) by (field; lra).
  assert (X : D ^ 2 <= eps * INR N).
  { replace (D ^ 2) with (eps * (D ^ 2 / eps)) by (field; lra). apply Rmult_le_compat_l; lra. }
  apply Rmult_le_reg_r with (INR N * INR N); [nra|]. replace (D ^ 2 / (INR N * INR N) * (INR N * INR N)) with (D ^ 2) by (field; lra). nra.
Qed.
Print Assumptions C98_limit.

(** The power function of the program with a natural exponent meets the
    hypothesis. *)
Theorem C98_natural_powers : forall k, lipschitz (fun z => principal_power z (INR k)).
Proof. exact lipschitz_principal. Qed.
Print Assumptions C98_natural_powers.

(** So does a model without functions, registered terms and sources whose
    exponents are whole numbers. *)
Theorem C98_whole_exponents : forall L cs es n lib T, declared L cs es -> l_functions L = [] -> user_terms L = [] -> (forall i, sources_of i cs = []) ->
  good_library L n lib -> lb_pow lib = principal_power ->
  (forall q t s w, In q es -> In (IProduct t, s) (signed_items q) -> In w t -> match fa_exp (wf_fac w) with Some e => ex_frac e = None | None => True end) ->
  smooth L cs es n lib T.
Proof.
  intros L cs es n lib T HD HF HU HS GL HP Hw. assert (Hg := dc_good _ _ _ HD). rewrite Forall_forall in Hg.
  assert (Hit : forall q x, In q es -> In x (signed_items q) -> good_item L (fst x)).
  { intros q x Hq Hx. destruct (EquationProofs8.items_good L q (Hg q Hq) _ (Permutation_refl _)) as [Hgs _]. rewrite Forall_forall in Hgs. exact (Hgs _ (in_map fst _ _ Hx)). }
  constructor.
  - intros q x Hq Hx. specialize (Hit q x Hq Hx). destruct (fst x) as [t|os nm]; [exists t; reflexivity|]. destruct Hit as [Hin _]. rewrite HU in Hin. destruct Hin.
  - intros q t s f Hq Ht Hf. unfold field_factors in Hf. apply in_map_iff in Hf. destruct Hf as (w & <- & Hin). apply filter_In in Hin. destruct Hin as [Hin _].
    destruct (Hit q _ Hq Ht) as [(before & fs & after & GP) _].
    destruct (whole_power (wf_fac w) (gp_factors _ _ _ _ _ GP w Hin) (Hw q t s w Hq Ht Hin)) as (k & ->). rewrite HP. apply lipschitz_principal.
  - intros name c r Hc. assert (Hin : In name (l_functions L)) by (apply (lb_functions _ _ _ GL); eauto). rewrite HF in Hin. destruct Hin.
  - intros i s k H. rewrite HS in H. destruct H.
Qed.
Print Assumptions C98_whole_exponents.

(** *** Allen-Cahn, dconc/dt = conc - conc^3, on any domain: node [j] follows
    [w j] times the solution that starts from 1/sqrt 2, where [w j] is 0, 1 or
    -1. *)
Definition logistic (t : R) : R := / (1 + exp (- (2 * t))).
Definition follow (t : R) : R := sqrt (logistic t).
Lemma logistic_pos t : 0 < logistic t.
Proof. unfold logistic. apply Rinv_0_lt_compat. pose proof (exp_pos (- (2 * t))). lra. Qed.
Lemma logistic_changes t : derivable_pt_lim logistic t (2 * logistic t * (1 - logistic t)).
Proof.
  assert (D1 : derivable_pt_lim (fun t => 1 + exp (- (2 * t))) t (0 + exp (- (2 * t)) * (- (2 * 1)))).
  { apply (derivable_pt_lim_plus (fun _ => 1) (fun t => exp (- (2 * t)))); [apply derivable_pt_lim_const|].
    apply (derivable_pt_lim_comp (fun t => - (2 * t)) exp t); [|apply derivable_pt_lim_exp].
    apply (derivable_pt_lim_opp (fun t => 2 * t)). apply (derivable_pt_lim_scal (fun t => t) 2). apply derivable_pt_lim_id. }
  pose proof (exp_pos (- (2 * t))) as P.
  assert (D2 := derivable_pt_lim_div (fun _ => 1) (fun t => 1 + exp (- (2 * t))) t 0 _ (derivable_pt_lim_const 1 t) D1 ltac:(lra)).
  apply (derivable_ext (fun u => 1 / (1 + exp (- (2 * u))))); [intros u; unfold logistic, Rdiv; rewrite Rmult_1_l; reflexivity|].
  replace (2 * logistic t * (1 - logistic t)) with ((0 * (1 + exp (- (2 * t))) - (0 + exp (- (2 * t)) * - (2 * 1)) * 1) / Rsqr (1 + exp (- (2 * t)))); [exact D2|].
  unfold logistic, Rsqr. field. lra.
Qed.
Lemma follow_changes t : derivable_pt_lim follow t (follow t - follow t ^ 3).
Proof.
  assert (D := derivable_pt_lim_comp logistic sqrt t _ _ (logistic_changes t) (derivable_pt_lim_sqrt (logistic t) (logistic_pos t))).
  pose proof (sqrt_lt_R0 _ (logistic_pos t)) as P. pose proof (sqrt_sqrt (logistic t) ltac:(pose proof (logistic_pos t); lra)) as S.
  replace (follow t - follow t ^ 3) with (/ (2 * sqrt (logistic t)) * (2 * logistic t * (1 - logistic t))); [exact D|].
  unfold follow. set (s := sqrt (logistic t)) in *. rewrite <- S. field. lra.
Qed.
Definition pattern (w : nat -> R) (n : nat) (t : R) : list data := [map (fun j => RtoC (w j * follow t)) (seq 0 n)].

Lemma amplitude_linear n ft k a x y : unitary_transform n ft -> (k < n)%nat ->
  amplitude_at n ft k (fun j => Cadd (x j) (Cmul a (y j))) = Cadd (amplitude_at n ft k x) (Cmul a (amplitude_at n ft k y)).
Proof.
  intros UT Hk. unfold amplitude_at. assert (GT := ut_good n ft UT).
  replace (map (fun j => Cadd (x j) (Cmul a (y j))) (seq 0 n)) with (map2 (fun u v => Cadd u (Cmul a v)) (map x (seq 0 n)) (map y (seq 0 n))).
  - rewrite (ut_fft_add n ft UT) by apply map_seq_length. rewrite EnergyProofs3.nth_map2 by (rewrite !(gt_fft_len n ft GT) by apply map_seq_length; lia). reflexivity.
  - induction (seq 0 n) as [|j l IH]; cbn [map map2]; [reflexivity|]. rewrite IH. reflexivity.
Qed.
Lemma amplitude_ext n ft k x y : (forall j, (j < n)%nat -> x j = y j) -> amplitude_at n ft k x = amplitude_at n ft k y.
Proof. intros H. unfold amplitude_at. f_equal. f_equal. apply map_ext_in. intros j Hj. apply in_seq in Hj. apply H. lia. Qed.
Lemma amplitude_scale n ft k a y : unitary_transform n ft -> (k < n)%nat -> amplitude_at n ft k (fun j => Cmul a (y j)) = Cmul a (amplitude_at n ft k y).
Proof.
  intros UT Hk. set (z := fun _ : nat => C0).
  assert (Z : amplitude_at n ft k z = C0).
  { assert (E := amplitude_linear n ft k (RtoC (-1)) z z UT Hk). rewrite (amplitude_ext n ft k _ z) in E by (intros j _; unfold z; csolve).
    transitivity (Cadd (amplitude_at n ft k z) (Cmul (RtoC (-1)) (amplitude_at n ft k z))); [exact E|csolve]. }
  assert (E := amplitude_linear n ft k a z y UT Hk). rewrite Z in E. rewrite (amplitude_ext n ft k _ (fun j => Cmul a (y j))) in E by (intros j _; unfold z; csolve).
  rewrite E. csolve.
Qed.

Section AllenCahn.
  Variables (n : nat) (ft : transform) (w : nat -> R).
  Hypothesis UT : unitary_transform n ft.
  Hypothesis Hw : forall j, w j ^ 3 = w j.
  Let lib := no_library n principal_power.

  Lemma pattern_amplitude t k : (k < n)%nat -> amplitude_of ft (pattern w n t) 0 k = Cmul (RtoC (follow t)) (amplitude_at n ft k (fun j => RtoC (w j))).
  Proof.
    intros Hk. rewrite <- amplitude_scale by assumption. unfold amplitude_of, pattern. cbn [nth].
    change (nth k (fft ft (map (fun j => RtoC (w j * follow t)) (seq 0 n))) C0) with (amplitude_at n ft k (fun j => RtoC (w j * follow t))).
    apply amplitude_ext. intros j _. csolve.
  Qed.
  Lemma pattern_written E t q k : nth_error ac_eqs 0 = Some q -> (k < n)%nat ->
    written La ac_calls n ft lib (pattern w n t) E t q k (Cmul (RtoC (follow t - follow t ^ 3)) (amplitude_at n ft k (fun j => RtoC (w j)))).
  Proof.
    intros Hq Hk. destruct (written_exists La ac_calls ac_eqs ac_state ac_declared ac_run n ft lib E t q k (pattern w n t))
      as (M & val & im & ex & li & nl & HV & R1 & R2 & R3 & EM).
    exists val, im, ex, li, nl. split; [exact HV|]. split; [exact R1|]. split; [exact R2|]. split; [exact R3|].
    assert (V : forall j, (j < n)%nat -> val (lit "conc") j = RtoC (w j * follow t)).
    { intros j Hj. destruct HV as [HV _]. rewrite (HV 0%nat (lit "conc") (map (fun j => RtoC (w j * follow t)) (seq 0 n)) eq_refl eq_refl j).
      apply (nth_map_seq n (fun j => RtoC (w j * follow t))). exact Hj. }
    injection Hq as <-. cbn [rhs_meaning signed_items q_first q_lead q_more map Csum snd fst item_meaning]. unfold product_meaning.
    change (scalar_factors La [plainw "conc" None]) with (@nil factor). change (field_factors La [plainw "conc" None]) with [fac "conc" None].
    change (scalar_factors La [plainw "conc" (Some 3%nat)]) with (@nil factor). change (field_factors La [plainw "conc" (Some 3%nat)]) with [fac "conc" (Some 3%nat)].
    cbn [EquationSpec.amplitude fac fa_exp option_map fa_name].
    assert (A3 : amplitude_at n ft k (fun j => product_value (lb_pow lib) (fun nm => val nm j) [fac "conc" (Some 3%nat)]) = Cmul (RtoC (follow t ^ 3)) (amplitude_at n ft k (fun j => RtoC (w j)))).
    { rewrite <- amplitude_scale by assumption. apply amplitude_ext. intros j Hj. cbn [product_value]. change (lb_pow lib) with principal_power.
      replace (factor_power (fac "conc" (Some 3%nat))) with (INR 3) by (cbn; lra). change (fa_name (fac "conc" (Some 3%nat))) with (lit "conc"). rewrite V by exact Hj.
      rewrite C97_natural_powers. rewrite Rpow_mult_distr, Hw. csolve. }
    assert (A1 : amplitude_at n ft k (val (lit "conc")) = Cmul (RtoC (follow t)) (amplitude_at n ft k (fun j => RtoC (w j)))).
    { rewrite <- amplitude_scale by assumption. apply amplitude_ext. intros j Hj. rewrite V by exact Hj. csolve. }
    rewrite A3. change (fa_name (wf_fac (plainw "conc" None))) with (lit "conc"). rewrite A1.
    cbn [sign_value]. change (Ascii.eqb minus_c minus_c) with true. cbn [total_power oper_power plainw wf_op Nat.add pow product_value]. csolve.
  Qed.
  Lemma pattern_solution T : solution_until La ac_calls ac_eqs n ft lib T (pattern w n).
  Proof.
    split.
    - intros t. split; [reflexivity|]. repeat constructor. apply map_seq_length.
    - intros t i q k _ Hq Hk. destruct i as [|i]; [|destruct i; discriminate]. 
      exists (Cmul (RtoC (follow t - follow t ^ 3)) (amplitude_at n ft k (fun j => RtoC (w j)))). split; [exact (pattern_written _ t q k Hq Hk)|].
      replace (source_sum ac_calls lib t 0 k) with C0 by reflexivity.
      set (z := amplitude_at n ft k (fun j => RtoC (w j))).
      assert (E : forall s, amplitude_of ft (pattern w n s) 0 k = Cmul (RtoC (follow s)) z) by (intros s; exact (pattern_amplitude s k Hk)).
      assert (DD : forall c, derivable_pt_lim (fun s => follow s * c) t ((follow t - follow t ^ 3) * c)).
      { intros c. apply (derivable_ext (fun s => c * follow s)); [intros u; ring|]. rewrite Rmult_comm. apply (derivable_pt_lim_scal follow c). apply follow_changes. }
      split.
      + apply (derivable_ext (fun s => follow s * Re z)); [intros u; rewrite E; unfold Cmul, RtoC; cbn [Re Im fst snd]; ring|].
        replace (Re (Cadd (Cmul (RtoC (follow t - follow t ^ 3)) z) C0)) with ((follow t - follow t ^ 3) * Re z) by (unfold Cadd, Cmul, RtoC, C0; cbn [Re Im fst snd]; ring). apply DD.
      + apply (derivable_ext (fun s => follow s * Im z)); [intros u; rewrite E; unfold Cmul, RtoC; cbn [Re Im fst snd]; ring|].
        replace (Im (Cadd (Cmul (RtoC (follow t - follow t ^ 3)) z) C0)) with ((follow t - follow t ^ 3) * Im z) by (unfold Cadd, Cmul, RtoC, C0; cbn [Re Im fst snd]; ring). apply DD.
  Qed.
End AllenCahn.

(** The hypotheses hold for Allen-Cahn on any domain with the transforms of the
    program, and the result is not a restatement: the solution is not constant. *)
Example C98_nonvacuous : forall dom w T, valid_domain dom -> (forall j, w j ^ 3 = w j) ->
  let n := nodes dom in let ft := fftw_transform dom in let lib := no_library n principal_power in
  declared La ac_calls ac_eqs /\ run_calls new_mstate (ac_calls ++ [CInit]) = Ok ac_state /\ good_library La n lib /\ unitary_transform n ft
  /\ map q_field ac_eqs = l_fields La /\ (0 < n)%nat /\ smooth La ac_calls ac_eqs n lib T /\ solution_until La ac_calls ac_eqs n ft lib T (pattern w n)
  /\ field_independent ac_calls lib /\ fits La n ac_state {| e_fields := pattern w n 0; e_derived := [[]] |}
  /\ derivable_pt_lim follow 0 (sqrt (/ 2) / 2).
Proof.
  intros dom w T Hv Hw n ft lib. assert (UT := fftw_unitary dom Hv). assert (GL := no_library_good La n principal_power eq_refl).
  assert (Hn : (0 < n)%nat) by (unfold n, nodes; pose proof (IndexProofs.num_nodes_pos dom (proj2 Hv)); lia).
  split; [exact ac_declared|]. split; [exact ac_run|]. split; [exact GL|]. split; [exact UT|]. split; [reflexivity|]. split; [exact Hn|].
  split. { apply C98_whole_exponents; try reflexivity; [exact ac_declared|exact GL|].
    intros q t s w' [<-|[]] Ht Hin. cbn in Ht. destruct Ht as [Ht|[Ht|[]]]; injection Ht as <- _; destruct Hin as [<-|[]]; reflexivity || exact I. }
  split; [exact (pattern_solution n ft w UT Hw T)|].
  split; [split; reflexivity|].
  split. { split; [reflexivity|]. split; [repeat constructor; apply map_seq_length|reflexivity]. }
  pose proof (follow_changes 0) as D. replace (sqrt (/ 2) / 2) with (follow 0 - follow 0 ^ 3); [exact D|].
  assert (L0 : logistic 0 = / 2) by (unfold logistic; rewrite Rmult_0_r, Ropp_0, exp_0; f_equal; ring). unfold follow. rewrite L0.
  pose proof (sqrt_sqrt (/ 2) ltac:(lra)) as S. set (s := sqrt (/ 2)) in *. replace (s ^ 3) with (s * (s * s)) by ring. rewrite S. field.
Qed.
