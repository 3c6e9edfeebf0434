(** Property C110: runs of RK4 are accurate to fourth order if there are no
    implicit terms and nothing depends on time. *)
From Verif Require Import ListAux FileModel ParseProofs StepProofs ConserveProofs EquationProps RegistryProps SimProps.
From Verif Require Import SimProofs SimProofs2 SimProofs3 SimProofs4 SimProofs5 SimProofs6 LinearProofs LinearProofs2 LinearProofs3 LinearProps DftProofs ConvergeProofs ConvergeProps KeepProps.
From Verif Require EnergyProofs3 IndexProofs.
From Verif Require Import SplitSpec LimitProofs LimitProofs2 LimitProofs3 LimitProofs4 LimitProps ResumeProofs ResumeProofs2 DftSpec LimitSpec KeepSpec ResumeSpec ResumeProps OrderSpec OrderProofs4.
From Coq Require Import Reals Permutation Lia Lra.
From Verif Require Import Complex.
Open Scope R_scope.

(** C110. Let the fields [U] solve the declared equations from time 0 to T, and
    let the right-hand sides be polynomials without implicit terms and with
    constant sources.  There is a constant D such that with N steps of size T/N
    (N large enough), Runge-Kutta runs that start from U 0 complete and after
    every one of the N steps every field differs from [U] at that time by at
    most D/N^4. *)
Theorem C110_fourth_order_partial : forall L cs es m, declared L cs es -> run_calls new_mstate (cs ++ [CInit]) = Ok m ->
  forall n ft lib, good_library L n lib -> unitary_transform n ft -> map q_field es = l_fields L -> (0 < n)%nat ->
  explicit_polynomial L cs es lib -> field_independent cs lib ->
  forall T, 0 < T -> forall U, solution_until L cs es n ft lib T U ->
  exists D N0, 0 <= D /\ forall e N, (N0 <= N)%nat -> (0 < N)%nat -> fits L n m e -> e_fields e = U 0 -> forall k, (k <= N)%nat ->
  exists e', rk4_propagate (simulation n ft lib m) ft None (T / INR N) k 0%nat e = Some (e', k) /\ fits L n m e'
  /\ forall i, (i < length (l_fields L))%nat ->
     exists d, nth_error (e_fields e') i = Some d /\ distance2 d (nth i (U (INR k * (T / INR N))) []) <= (D / INR N ^ 4) ^ 2.
Proof.
  intros L cs es m HD Em n ft lib GL UT HO Hn EP HI T HT U HU. exact (order_bound L cs es m HD Em n ft lib GL UT HO Hn (explicit_rates _ _ _ _ EP) EP T U HT HI HU).
Qed.
Print Assumptions C110_fourth_order_partial.

(** The same holds for the solver, however the N steps are divided into epochs. *)
Theorem C110_solver_partial : forall L cs es m, declared L cs es -> run_calls new_mstate (cs ++ [CInit]) = Ok m ->
  forall n ft lib, good_library L n lib -> unitary_transform n ft -> map q_field es = l_fields L -> (0 < n)%nat ->
  explicit_polynomial L cs es lib -> timeless lib -> field_independent cs lib ->
  forall T, 0 < T -> forall U, solution_until L cs es n ft lib T U ->
  exists D N0, 0 <= D /\ forall sv ne ns e, (N0 <= ne * ns)%nat -> (0 < ne * ns)%nat -> fits L n m e -> e_fields e = U 0 ->
  exists e' tr, solve (rk4_stepper (simulation n ft lib m) ft None (T / INR (ne * ns))) sv ne ns (e, 0%nat) = Some ((e', 0%nat), tr) /\ fits L n m e'
  /\ forall i, (i < length (l_fields L))%nat ->
     exists d, nth_error (e_fields e') i = Some d /\ distance2 d (nth i (U T) []) <= (D / INR (ne * ns) ^ 4) ^ 2.
Proof.
  intros L cs es m HD Em n ft lib GL UT HO Hn EP TL HI T HT U HU.
  destruct (C110_fourth_order_partial L cs es m HD Em n ft lib GL UT HO Hn EP HI T HT U HU) as (D & N0 & HD0 & H). exists D, N0. split; [exact HD0|].
  intros sv ne ns e HN HN1 Hf He. destruct (H e (ne * ns)%nat HN HN1 Hf He (ne * ns)%nat (le_n _)) as (e' & E & Hf' & Hi).
  assert (R := rk4_iter_timeless n ft lib m None (T / INR (ne * ns)) 0 TL (ne * ns) 0 e). rewrite E in R. cbn [option_map fst] in R.
  destruct (solve_of_iter _ sv ne ns _ _ R) as (tr & HS). exists e', tr. split; [exact HS|]. split; [exact Hf'|]. intros i Hl. destruct (Hi i Hl) as (d & Ed & Hd). exists d. split; [exact Ed|].
  replace (INR (ne * ns) * (T / INR (ne * ns))) with T in Hd; [exact Hd|]. field. apply not_0_INR. lia.
Qed.
Print Assumptions C110_solver_partial.

(** *** dconc/dt = -rate*conc^3 with a source *)
Definition cubic_calls : list call := [CField (lit "conc"); CScalar (lit "rate"); CEquation (lit "dconc/dt = -rate*conc^3"); CSource 0 0].
Definition cubic_eqs : list eqtext :=
  [{| q_field := lit "conc"; q_lead := Some minus_c; q_first := IProduct [plainw "rate" None; plainw "conc" (Some 3%nat)]; q_more := [] |}].
Definition cubic_state : mstate := match run_calls new_mstate (cubic_calls ++ [CInit]) with Ok m => m | _ => new_mstate end.
Lemma cubic_run : run_calls new_mstate (cubic_calls ++ [CInit]) = Ok cubic_state.
Proof. vm_compute. reflexivity. Qed.
Lemma cubic_declared : declared Lr cubic_calls cubic_eqs.
Proof.
  constructor.
  - good_language.
  - split; [reflexivity|]. intros n. cbn. tauto.
  - exists (firstn 2 cubic_calls), (skipn 2 cubic_calls). split; [reflexivity|]. split; [|split].
    + intros c H. cbn in H. repeat (destruct H as [<-|H]; [exact (fun x => x)|]). destruct H.
    + intros c H. cbn in H. repeat (destruct H as [<-|H]; [exact (fun x => x)|]). destruct H.
    + discriminate.
  - intros b a eq s E. unfold cubic_calls in E.
    do 3 (destruct b as [|? b]; [discriminate E|injection E as <- E]). destruct b as [|? b]; [|destruct b; discriminate E]. injection E as <- <- <-. cbn. lia.
  - cbn. intuition discriminate.
  - intros k name t ds H. cbn in H. intuition discriminate.
  - constructor; [reflexivity|constructor].
  - constructor; [|constructor]. split; [cbn; auto|]. split; [intros c E; injection E as <-; right; reflexivity|]. split; [|constructor].
    split; [exists [], [plainw "conc" (Some 3%nat)], [plainw "rate" None]; good_prod|vm_compute; intuition discriminate].
Qed.
Lemma cubic_own : forall q t s, In q cubic_eqs -> In (IProduct t, s) (signed_items q) -> linear_in Lr (q_field q) t = false.
Proof. intros q t s [<-|[]] [Ht|[]]. injection Ht as <- _. reflexivity. Qed.
Lemma cubic_whole : forall q t s w, In q cubic_eqs -> In (IProduct t, s) (signed_items q) -> In w t -> match fa_exp (wf_fac w) with Some e => ex_frac e = None | None => True end.
Proof. intros q t s w [<-|[]] [Ht|[]] Hw. injection Ht as <- _. destruct Hw as [<-|[<-|[]]]; exact I || reflexivity. Qed.

Section Cubic.
  Variables (n : nat) (ft : transform) (lib : library) (w : nat -> R) (rate : R) (y src : R -> R).
  Hypothesis UT : unitary_transform n ft.
  Hypothesis Hw : forall j, w j ^ 3 = w j.
  Hypothesis Hscalar : forall name, lb_scalar lib name = RtoC rate.
  Hypothesis Hpow : lb_pow lib = principal_power.
  Hypothesis Hs : forall t k, (k < n)%nat -> source_sum cubic_calls lib t 0 k = Cmul (RtoC (src t)) (amplitude_at n ft k (fun j => RtoC (w j))).
  Definition shape (t : R) : list data := [map (fun j => RtoC (w j * y t)) (seq 0 n)].

  Lemma shape_amplitude t k : (k < n)%nat -> amplitude_of ft (shape t) 0 k = Cmul (RtoC (y t)) (amplitude_at n ft k (fun j => RtoC (w j))).
  Proof.
    intros Hk. rewrite <- amplitude_scale by assumption. unfold amplitude_of, shape. cbn [nth].
    change (nth k (fft ft (map (fun j => RtoC (w j * y t)) (seq 0 n))) C0) with (amplitude_at n ft k (fun j => RtoC (w j * y t))).
    apply amplitude_ext. intros j _. csolve.
  Qed.
  Lemma shape_written E t q k : nth_error cubic_eqs 0 = Some q -> (k < n)%nat ->
    written Lr cubic_calls n ft lib (shape t) E t q k (Cmul (RtoC (- (rate * y t ^ 3))) (amplitude_at n ft k (fun j => RtoC (w j)))).
  Proof.
    intros Hq Hk. destruct (written_exists Lr cubic_calls cubic_eqs cubic_state cubic_declared cubic_run n ft lib E t q k (shape t))
      as (M & val & im & ex & li & nl & HV & R1 & R2 & R3 & EM).
    exists val, im, ex, li, nl. split; [exact HV|]. split; [exact R1|]. split; [exact R2|]. split; [exact R3|].
    assert (V : forall j, (j < n)%nat -> val (lit "conc") j = RtoC (w j * y t)).
    { intros j Hj. destruct HV as [HV _]. rewrite (HV 0%nat (lit "conc") (map (fun j => RtoC (w j * y t)) (seq 0 n)) eq_refl eq_refl j).
      apply (nth_map_seq n (fun j => RtoC (w j * y t))). exact Hj. }
    injection Hq as <-. cbn [rhs_meaning signed_items q_first q_lead q_more map Csum snd fst item_meaning]. unfold product_meaning.
    change (scalar_factors Lr [plainw "rate" None; plainw "conc" (Some 3%nat)]) with [fac "rate" None]. change (field_factors Lr [plainw "rate" None; plainw "conc" (Some 3%nat)]) with [fac "conc" (Some 3%nat)].
    cbn [EquationSpec.amplitude fac fa_exp option_map fa_name].
    assert (A3 : amplitude_at n ft k (fun j => product_value (lb_pow lib) (fun nm => val nm j) [fac "conc" (Some 3%nat)]) = Cmul (RtoC (y t ^ 3)) (amplitude_at n ft k (fun j => RtoC (w j)))).
    { rewrite <- amplitude_scale by assumption. apply amplitude_ext. intros j Hj. cbn [product_value]. rewrite Hpow.
      replace (factor_power (fac "conc" (Some 3%nat))) with (INR 3) by (cbn; lra). change (fa_name (fac "conc" (Some 3%nat))) with (lit "conc"). rewrite V by exact Hj.
      rewrite C97_natural_powers. rewrite Rpow_mult_distr, Hw. csolve. }
    rewrite A3. cbn [product_value]. rewrite Hscalar, Hpow. replace (factor_power (fac "rate" None)) with (INR 1) by (cbn; lra). rewrite principal_natural. cbn [Cpow sign_value]. change (Ascii.eqb minus_c minus_c) with true.
    cbn [total_power oper_power plainw wf_op Nat.add pow]. csolve.
  Qed.
  Lemma shape_solution T : (forall t, 0 <= t <= T -> derivable_pt_lim y t (- (rate * y t ^ 3) + src t)) -> solution_until Lr cubic_calls cubic_eqs n ft lib T shape.
  Proof.
    intros Hy. split.
    - intros t. split; [reflexivity|]. repeat constructor. apply map_seq_length.
    - intros t i q k Ht Hq Hk. destruct i as [|i]; [|destruct i; discriminate].
      exists (Cmul (RtoC (- (rate * y t ^ 3))) (amplitude_at n ft k (fun j => RtoC (w j)))). split; [exact (shape_written _ t q k Hq Hk)|].
      rewrite Hs by exact Hk. set (z := amplitude_at n ft k (fun j => RtoC (w j))).
      assert (E : forall s, amplitude_of ft (shape s) 0 k = Cmul (RtoC (y s)) z) by (intros s; exact (shape_amplitude s k Hk)).
      assert (DD : forall c, derivable_pt_lim (fun s => y s * c) t ((- (rate * y t ^ 3) + src t) * c)).
      { intros c. apply (derivable_ext (fun s => c * y s)); [intros u; ring|]. rewrite Rmult_comm. apply (derivable_pt_lim_scal y c). apply Hy, Ht. }
      split.
      + apply (derivable_ext (fun s => y s * Re z)); [intros u; rewrite E; unfold Cmul, RtoC; cbn [Re Im fst snd]; ring|].
        replace (Re (Cadd _ _)) with ((- (rate * y t ^ 3) + src t) * Re z) by (unfold Cadd, Cmul, RtoC, C0; cbn [Re Im fst snd]; ring). apply DD.
      + apply (derivable_ext (fun s => y s * Im z)); [intros u; rewrite E; unfold Cmul, RtoC; cbn [Re Im fst snd]; ring|].
        replace (Im (Cadd _ _)) with ((- (rate * y t ^ 3) + src t) * Im z) by (unfold Cadd, Cmul, RtoC, C0; cbn [Re Im fst snd]; ring). apply DD.
  Qed.
  Lemma shape_fits t : fits Lr n cubic_state {| e_fields := shape t; e_derived := [[]] |}.
  Proof. split; [reflexivity|]. split; [repeat constructor; apply map_seq_length|reflexivity]. Qed.
End Cubic.

(** The hypotheses hold for dconc/dt = -conc^3 on any domain with the transforms
    of the program, and the solution is not constant: node [j] follows [w j]
    (0, 1 or -1) times 1/sqrt (1 + 2 t). *)
Definition decay (t : R) : R := / sqrt (1 + 2 * t).
Lemma decay_changes t : 0 <= t -> derivable_pt_lim decay t (- (1 * decay t ^ 3) + 0).
Proof.
  intros Ht. assert (P : 0 < 1 + 2 * t) by lra. assert (Q := sqrt_lt_R0 _ P). assert (S := sqrt_sqrt (1 + 2 * t) ltac:(lra)).
  assert (D1 : derivable_pt_lim (fun t => 1 + 2 * t) t (0 + 2 * 1)).
  { apply (derivable_pt_lim_plus (fun _ => 1) (fun t => 2 * t)); [apply derivable_pt_lim_const|]. apply (derivable_pt_lim_scal (fun t => t) 2). apply derivable_pt_lim_id. }
  assert (D2 := derivable_pt_lim_comp _ sqrt t _ _ D1 (derivable_pt_lim_sqrt _ P)). unfold comp in D2.
  assert (D3 := derivable_pt_lim_div (fun _ => 1) (fun t => sqrt (1 + 2 * t)) t 0 _ (derivable_pt_lim_const 1 t) D2 ltac:(lra)).
  apply (derivable_ext (fun u => 1 / sqrt (1 + 2 * u))); [intros u; unfold decay, Rdiv; rewrite Rmult_1_l; reflexivity|].
  match type of D3 with derivable_pt_lim _ _ ?v => replace (- (1 * decay t ^ 3) + 0) with v; [exact D3|] end.
  unfold decay, Rsqr. set (s := sqrt (1 + 2 * t)) in *. field. lra.
Qed.
Example C110_nonvacuous : forall dom w T, valid_domain dom -> (forall j, w j ^ 3 = w j) ->
  let n := nodes dom in let ft := fftw_transform dom in let lib := no_library n principal_power in
  declared Lr cubic_calls cubic_eqs /\ run_calls new_mstate (cubic_calls ++ [CInit]) = Ok cubic_state /\ good_library Lr n lib /\ unitary_transform n ft
  /\ map q_field cubic_eqs = l_fields Lr /\ (0 < n)%nat /\ explicit_polynomial Lr cubic_calls cubic_eqs lib /\ timeless lib /\ field_independent cubic_calls lib
  /\ solution_until Lr cubic_calls cubic_eqs n ft lib T (shape n w decay)
  /\ fits Lr n cubic_state {| e_fields := shape n w decay 0; e_derived := [[]] |} /\ decay 0 = 1 /\ decay 4 = / 3.
Proof.
  intros dom w T Hv Hw n ft lib. assert (UT := fftw_unitary dom Hv). assert (GL := no_library_good Lr n principal_power eq_refl).
  assert (Hn : (0 < n)%nat) by (unfold n, nodes; pose proof (IndexProofs.num_nodes_pos dom (proj2 Hv)); lia).
  split; [exact cubic_declared|]. split; [exact cubic_run|]. split; [exact GL|]. split; [exact UT|]. split; [reflexivity|]. split; [exact Hn|].
  split. { constructor; try reflexivity; [exact cubic_whole|exact cubic_own]. }
  split; [repeat split|]. split; [split; reflexivity|].
  split. { apply (shape_solution n ft lib w 1 decay (fun _ => 0) UT Hw); try reflexivity.
    - intros t k Hk. unfold source_sum. change (sources_of 0 cubic_calls) with [0%nat]. cbn [map Csum lib no_library lb_source]. rewrite nth_repeat. csolve.
    - intros t [Ht _]. exact (decay_changes t Ht). }
  split; [apply shape_fits|]. unfold decay. split.
  - rewrite Rmult_0_r, Rplus_0_r, sqrt_1. apply Rinv_1.
  - f_equal. replace (1 + 2 * 4) with (3 * 3) by ring. apply sqrt_square. lra.
Qed.

(** *** A source that depends on time: dconc/dt = t (and - rate conc^3 with
    rate = 0).  The propagation evaluates the source at the start of the step in
    all four stages, so it computes a left sum and its error is exactly
    T^2/(2 N): with sources that depend on time RK4 is of first order. *)
Theorem C110_time_dependent_refuted : forall dom, valid_domain dom ->
  exists L cs es m lib U, let n := nodes dom in let ft := fftw_transform dom in
  declared L cs es /\ run_calls new_mstate (cs ++ [CInit]) = Ok m /\ good_library L n lib /\ unitary_transform n ft /\ map q_field es = l_fields L
  /\ field_independent cs lib /\ (forall q t s, In q es -> In (IProduct t, s) (signed_items q) -> linear_in L (q_field q) t = false)
  /\ (forall T, solution_until L cs es n ft lib T U)
  /\ (exists e, fits L n m e /\ e_fields e = U 0)
  /\ forall T N e, 0 < T -> (0 < N)%nat -> fits L n m e -> e_fields e = U 0 ->
     exists e' d, rk4_propagate (simulation n ft lib m) ft None (T / INR N) N 0%nat e = Some (e', N) /\ fits L n m e'
     /\ nth_error (e_fields e') 0 = Some d /\ forall j, (j < n)%nat -> Csub (nth j (nth 0 (U T) []) C0) (nth j d C0) = RtoC (T ^ 2 / (2 * INR N)).
Proof.
  intros dom Hv. assert (UT := fftw_unitary dom Hv). assert (Hn : (0 < nodes dom)%nat) by (unfold nodes; pose proof (IndexProofs.num_nodes_pos dom (proj2 Hv)); lia).
  set (n := nodes dom) in *. set (ft := fftw_transform dom) in *. set (lib := fed_library n ft).
  exists Lr, cubic_calls, cubic_eqs, cubic_state, lib, (shape n (fun _ => 1) (fun t => t ^ 2 / 2)). cbv zeta.
  assert (HI : field_independent cubic_calls lib) by (split; reflexivity). assert (GL : good_library Lr n lib) by apply fed_good.
  assert (HS : forall t k, (k < n)%nat -> source_sum cubic_calls lib t 0 k = Cmul (RtoC t) (amplitude_at n ft k (fun _ => RtoC 1))).
  { intros t k Hk. unfold source_sum. change (sources_of 0 cubic_calls) with [0%nat]. cbn [map Csum lib fed_library lb_source].
    rewrite (nth_map_seq n (fun k => Cmul (RtoC t) (amplitude_at n ft k (fun _ => C1)))) by exact Hk. change (RtoC 1) with C1. csolve. }
  split; [exact cubic_declared|]. split; [exact cubic_run|]. split; [exact GL|]. split; [exact UT|]. split; [reflexivity|]. split; [exact HI|]. split; [exact cubic_own|].
  split. { intros T. apply (shape_solution n ft lib (fun _ => 1) 0 (fun t => t ^ 2 / 2) (fun t => t) UT); try reflexivity.
    - intros _. ring.
    - exact HS.
    - intros t _. replace (- (0 * (t ^ 2 / 2) ^ 3) + t) with t by ring. apply (derivable_ext (fun t => / 2 * (t ^ 2))); [intros u; field|]. replace t with (/ 2 * (INR 2 * t ^ pred 2)) at 2 by (cbn; field).
      apply (derivable_pt_lim_scal (fun t => t ^ 2)). apply derivable_pt_lim_pow. }
  split; [eexists; split; [apply (shape_fits n (fun _ => 1) (fun t => t ^ 2 / 2) 0)|reflexivity]|].
  intros T N e HT HN Hf He. assert (HNr : 0 < INR N) by (apply lt_0_INR; exact HN). set (h := T / INR N).
  assert (SM : smooth Lr cubic_calls cubic_eqs n lib T).
  { constructor.
    - intros q x [<-|[]] [<-|[]]. eexists. reflexivity.
    - intros q t s f [<-|[]] [Ht|[]] Hf'. injection Ht as <- <-. destruct Hf' as [<-|[]]. cbn [lib fed_library lb_pow].
      replace (factor_power (wf_fac (plainw "conc" (Some 3%nat)))) with (INR 3) by (cbn; lra). apply lipschitz_principal.
    - discriminate.
    - intros i s k _ Hk. exists (Cnorm2 (amplitude_at n ft k (fun _ => C1))). intros t t' _ _. cbn [lib fed_library lb_source].
      rewrite !(nth_map_seq n (fun k => Cmul (RtoC _) (amplitude_at n ft k (fun _ => C1)))) by exact Hk.
      set (z := amplitude_at n ft k (fun _ => C1)). apply Req_le. unfold Cnorm2, Csub, Cadd, Copp, Cmul, RtoC. cbn. ring. }
  assert (HA : forall k, AA Lr cubic_eqs ft lib 0 k = C0).
  { intros k. unfold AA. cbn [nth_error cubic_eqs]. unfold AF, sum_signed. cbn [signed_items q_first q_lead q_more map fst snd Csum implicit_item].
    change (linear_in Lr _ [plainw "rate" None; plainw "conc" (Some 3%nat)]) with false. csolve. }
  assert (HF : forall k t x s, (k < n)%nat -> FF Lr cubic_calls cubic_eqs n ft lib 0 k t x s = Cmul (RtoC t) (amplitude_at n ft k (fun _ => RtoC 1))).
  { intros k t x s Hk. unfold FF. cbn [nth_error cubic_eqs]. fold cubic_eqs. rewrite (HS t k Hk). unfold XF, sum_signed. cbn [signed_items q_first q_lead q_more map fst snd Csum explicit_item].
    change (linear_in Lr _ [plainw "rate" None; plainw "conc" (Some 3%nat)]) with false. unfold coefficient.
    change (scalar_factors Lr [plainw "rate" None; plainw "conc" (Some 3%nat)]) with [fac "rate" None]. cbn [product_value].
    replace (factor_power (fac "rate" None)) with (INR 1) by (cbn; lra). change (lb_pow lib) with principal_power. change (lb_scalar lib (fa_name (fac "rate" None))) with C0. rewrite principal_natural. cbn [Cpow]. csolve. }
  assert (Hz : forall h i k, (i < length (l_fields Lr))%nat -> (k < n)%nat -> Csub C1 (Cmul (RtoC h) (AA Lr cubic_eqs ft lib i k)) <> C0).
  { intros h' i k Hi Hk. cbn in Hi. replace i with 0%nat by lia. rewrite HA. intros H. apply (f_equal Re) in H. unfold Csub, Cadd, Copp, Cmul, C1, C0, RtoC, Re, Im in H. cbn [fst snd] in H. lra. }
  destruct (run_states (rk4_step (simulation n ft lib cubic_state) ft None h) h (fits Lr n cubic_state) (fun t e e' => rk_scheme (length (l_fields Lr)) n (AA Lr cubic_eqs ft lib) (FF Lr cubic_calls cubic_eqs n ft lib) h t (amplitude_of ft (e_fields e)) (amplitude_of ft (e_fields e')))) with (e := e) as (st & E0 & H); [|exact Hf|].
  { intros t e1 Hf1. apply (rk4_scheme Lr cubic_calls cubic_eqs cubic_state cubic_declared cubic_run n ft lib GL UT eq_refl Hn T SM HI h t e1 Hf1); apply Hz. }
  assert (HK : forall m k, (k < n)%nat -> amplitude_of ft (e_fields (st m)) 0 k = Cmul (RtoC (h ^ 2 * (INR m * (INR m - 1) / 2))) (amplitude_at n ft k (fun _ => RtoC 1))).
  { induction m as [|m IH]; intros k Hk.
    - rewrite E0, He, (shape_amplitude n ft (fun _ => 1) (fun t => t ^ 2 / 2) UT 0 k Hk). f_equal. f_equal. cbn. field.
    - destruct (H m) as (_ & (s2 & s3 & s4 & _ & _ & _ & SX) & _). specialize (SX 0%nat k ltac:(cbn; lia) Hk). rewrite HA, !HF, IH in SX by exact Hk.
      replace (amplitude_of ft (e_fields (st (S m))) 0 k) with (Cmul (amplitude_of ft (e_fields (st (S m))) 0 k) (Csub C1 (Cmul (RtoC h) C0))) by csolve. rewrite SX, S_INR.
      set (z := amplitude_at n ft k (fun _ => RtoC 1)). csolve; field. }
  exists (st N), (map (fun _ => RtoC (1 * (h ^ 2 * (INR N * (INR N - 1) / 2)))) (seq 0 n)). split; [rewrite rk4_iterate; apply H|]. split; [apply H|].
  assert (EF : e_fields (st N) = shape n (fun _ => 1) (fun _ => h ^ 2 * (INR N * (INR N - 1) / 2)) 0).
  { assert (S1 := fits_shaped Lr cubic_state n (st N) (proj1 (H N))). assert (S2 := fits_shaped Lr cubic_state n _ (shape_fits n (fun _ => 1) (fun _ => h ^ 2 * (INR N * (INR N - 1) / 2)) 0)). cbn [e_fields] in S2.
    transitivity (reals Lr n ft (amplitude_of ft (e_fields (st N)))); [symmetry; exact (reals_of Lr n ft UT Hn _ S1)|].
    transitivity (reals Lr n ft (amplitude_of ft (shape n (fun _ => 1) (fun _ => h ^ 2 * (INR N * (INR N - 1) / 2)) 0))); [|exact (reals_of Lr n ft UT Hn _ S2)].
    apply (reals_ext Lr n ft); [exact Hn|]. intros i k Hi Hk. cbn in Hi. replace i with 0%nat by lia.
    rewrite (HK N k Hk), (shape_amplitude n ft (fun _ => 1) (fun _ => h ^ 2 * (INR N * (INR N - 1) / 2)) UT 0 k Hk). reflexivity. }
  split; [rewrite EF; reflexivity|]. intros j Hj. unfold shape. cbn [nth]. rewrite (nth_map_seq n (fun _ => RtoC (1 * (T ^ 2 / 2)))), (nth_map_seq n (fun _ => RtoC (1 * (h ^ 2 * (INR N * (INR N - 1) / 2))))) by exact Hj.
  unfold h. csolve. field. lra.
Qed.
Print Assumptions C110_time_dependent_refuted.
