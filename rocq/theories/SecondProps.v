(** Property C114: runs of ImplicitEuler are accurate to second order if nothing
    depends on time. *)
From Verif Require Import SplitSpec OrderSpec LinearProofs LinearProofs2 LinearProofs3 LinearProps LimitProofs2 LimitProofs4 ResumeProofs ResumeProofs2 ResumeProps.
From Verif Require Import ListAux FileModel ParseProofs StepProofs EquationProps RegistryProps SimProps SimSpec DftSpec DftProofs RealSpec RealProofs KeepProps ConvergeProofs ConvergeProps LimitProps ImplicitProps.
From Verif Require Import LimitProofs LimitProofs3 OrderProofs4 OrderProps SddModel SddProofs ApproachSpec ApproachProofs ApproachProofs2 ApproachProofs4 ApproachProps SecondProofs2.
From Coq Require Import Reals Permutation Lia Lra.
From Verif Require Import Complex.
Open Scope R_scope.

(** C114. Let the fields [U] solve the declared equations from time 0 to T, and
    let the right-hand sides be polynomials with constant sources (implicit
    terms are allowed).  Suppose that on states close to [U] the solver returns
    a vector not farther than [r] from the old values at which no entry of the
    residual exceeds [c] times the cube of the time step.  Then there is a
    constant D such that with N steps of size T/N (N large enough) a run that
    starts from U 0 completes and after every one of the N steps every field
    differs from [U] at that time by at most D/N^2. *)
Theorem C114_second_order_partial : forall L cs es m, declared L cs es -> run_calls new_mstate (cs ++ [CInit]) = Ok m ->
  forall dom lib, let n := nodes dom in let ft := fftw_transform dom in let p := simulation n ft lib m in
  valid_domain dom -> square_layout dom -> good_library L n lib -> real_library L cs es dom (length (pm_derived (ms_names m))) lib -> map q_field es = l_fields L ->
  polynomial_rates L cs es lib ->
  forall T, 0 < T -> forall U, solution_until L cs es n ft lib T U ->
  forall delta r c, 0 < delta -> 0 <= r -> 0 <= c ->
  exists D N0, 0 <= D /\ forall filt solve e N, (N0 <= N)%nat -> (0 < N)%nat ->
  fits L n m e -> real_fields dom (e_fields e) -> e_fields e = U 0 ->
  (forall t e F x0 e2, 0 <= t -> t + T / INR N <= T -> fits L n m e -> real_fields dom (e_fields e) -> close_to (length (l_fields L)) delta (e_fields e) (U t) ->
     ie_problem p ft filt (T / INR N) t e = Some (F, x0, e2) -> nearly_solves r (c * (T / INR N) ^ 3) solve F x0 (values (e_fields e))) ->
  forall k, (k <= N)%nat ->
  exists e', ie_propagate solve p ft filt (T / INR N) k 0%nat e = Some (e', k) /\ fits L n m e' /\ real_fields dom (e_fields e')
    /\ close_to (length (l_fields L)) ((D / INR N ^ 2) ^ 2) (e_fields e') (U (INR k * (T / INR N))).
Proof.
  intros L cs es m HD Em dom lib n ft p Hv Hsq GL RL HO PR T HT U HU delta r c Hd Hr Hc.
  destruct (error_bound2 L cs es m HD Em dom lib Hv Hsq GL RL HO (nodes_pos dom Hv) T HT PR U HU delta r c Hd Hr Hc) as (D & N0 & HD0 & H).
  exists D, N0. split; [exact HD0|]. intros filt solve e N HN HN1 Hf He E0 HS k Hk.
  destruct (H filt solve e N HN HN1 (conj Hf He) E0) with (k := k) as (e' & EP & [Hf' He'] & HC); [|exact Hk|].
  - intros t e1 F x0 e2 H1 H2 [H3 H4] H5 H6. exact (HS t e1 F x0 e2 H1 H2 H3 H4 H5 H6).
  - exists e'. auto.
Qed.
Print Assumptions C114_second_order_partial.

(** The solver that subtracts the residual three or more times from the guess
    meets that hypothesis for all small time steps, so runs with that solver
    are of second order with no hypothesis on what it finds. *)
Theorem C114_fixed_point_partial : forall L cs es m, declared L cs es -> run_calls new_mstate (cs ++ [CInit]) = Ok m ->
  forall dom lib, let n := nodes dom in let ft := fftw_transform dom in let p := simulation n ft lib m in
  valid_domain dom -> square_layout dom -> good_library L n lib -> real_library L cs es dom (length (pm_derived (ms_names m))) lib -> map q_field es = l_fields L ->
  polynomial_rates L cs es lib ->
  forall T, 0 < T -> forall U, solution_until L cs es n ft lib T U ->
  exists D N0, 0 <= D /\ forall steps e N, (3 <= steps)%nat -> (N0 <= N)%nat -> (0 < N)%nat ->
  fits L n m e -> real_fields dom (e_fields e) -> e_fields e = U 0 -> forall k, (k <= N)%nat ->
  exists e', ie_propagate (fixed_point steps) p ft None (T / INR N) k 0%nat e = Some (e', k) /\ fits L n m e' /\ real_fields dom (e_fields e')
    /\ close_to (length (l_fields L)) ((D / INR N ^ 2) ^ 2) (e_fields e') (U (INR k * (T / INR N))).
Proof.
  intros L cs es m HD Em dom lib n ft p Hv Hsq GL RL HO PR T HT U HU. assert (SM := rates_smooth L cs es n lib T HD GL PR).
  destruct (fixed_point_solves L cs es m HD Em dom lib Hv Hsq GL RL HO (nodes_pos dom Hv) T HT SM U HU 3) as (delta & r & c & h1 & Hd & Hr & Hc & Hh & H). fold n ft p in H.
  destruct (C114_second_order_partial L cs es m HD Em dom lib Hv Hsq GL RL HO PR T HT U HU delta r c Hd Hr Hc) as (D & N0 & HD0 & HE). fold n ft p in HE.
  destruct (above (T / h1)) as (N1 & HN1). exists D, (N0 + N1)%nat. split; [exact HD0|]. intros steps e N Hs HN HNp Hf He E0 k Hk.
  assert (HNr : 0 < INR N) by (apply lt_0_INR; exact HNp). assert (HN1' : INR N1 <= INR N) by (apply le_INR; lia).
  apply (HE None (fixed_point steps) e N ltac:(lia) HNp Hf He E0); [|exact Hk].
  intros t e1 F x0 e2 Ht HtT Hf1 He1 Hcl EQ. refine (H steps (T / INR N) t e1 Hs _ Ht HtT (conj Hf1 He1) Hcl F x0 e2 EQ).
  split; [apply Rdiv_lt_0_compat; assumption|]. apply Rmult_le_reg_r with (INR N); [exact HNr|]. replace (T / INR N * INR N) with T by (field; lra).
  replace T with (h1 * (T / h1)) at 1 by (field; lra). apply Rmult_le_compat_l; lra.
Qed.
Print Assumptions C114_fixed_point_partial.

(** The hypotheses hold for Allen-Cahn on any domain of the kind; the solution
    is not constant. *)
Example C114_nonvacuous : forall dom w T, valid_domain dom -> square_layout dom -> 0 < T -> (forall j, w j ^ 3 = w j) ->
  let n := nodes dom in let ft := fftw_transform dom in let lib := no_library n principal_power in
  declared La ac_calls ac_eqs /\ run_calls new_mstate (ac_calls ++ [CInit]) = Ok ac_state /\ good_library La n lib
  /\ real_library La ac_calls ac_eqs dom (length (pm_derived (ms_names ac_state))) lib
  /\ map q_field ac_eqs = l_fields La /\ polynomial_rates La ac_calls ac_eqs lib /\ solution_until La ac_calls ac_eqs n ft lib T (pattern w n)
  /\ (exists q t s, In q ac_eqs /\ In (IProduct t, s) (signed_items q) /\ linear_in La (q_field q) t = true)
  /\ (let e := {| e_fields := pattern w n 0; e_derived := [[]] |} in fits La n ac_state e /\ real_fields dom (e_fields e))
  /\ derivable_pt_lim follow 0 (sqrt (/ 2) / 2)
  /\ exists D N0, 0 <= D /\ forall N, (N0 <= N)%nat -> (0 < N)%nat ->
     exists e', ie_propagate (fixed_point 3) (simulation n ft lib ac_state) ft None (T / INR N) N 0%nat {| e_fields := pattern w n 0; e_derived := [[]] |} = Some (e', N)
     /\ close_to 1 ((D / INR N ^ 2) ^ 2) (e_fields e') (pattern w n T).
Proof.
  intros dom w T Hv Hsq HT Hw n ft lib. destruct (C109_nonvacuous dom w T Hv Hsq HT Hw) as (HD & Em & GL & RL & HO & _ & HS & [Hf HR] & DV & _). fold n ft lib in GL, RL, HS, Hf, HR.
  assert (PR : polynomial_rates La ac_calls ac_eqs lib).
  { constructor; try reflexivity.
    intros q t s w' [<-|[]] Ht Hin. cbn in Ht. destruct Ht as [Ht|[Ht|[]]]; injection Ht as <- _; destruct Hin as [<-|[]]; reflexivity || exact I. }
  split; [exact HD|]. split; [exact Em|]. split; [exact GL|]. split; [exact RL|]. split; [exact HO|]. split; [exact PR|]. split; [exact HS|].
  split. { do 3 eexists. split; [left; reflexivity|]. split; [left; reflexivity|]. vm_compute. reflexivity. }
  split; [split; [exact Hf|exact HR]|]. split; [exact DV|].
  destruct (C114_fixed_point_partial La ac_calls ac_eqs ac_state HD Em dom lib Hv Hsq GL RL HO PR T HT (pattern w n) HS) as (D & N0 & HD0 & H). fold n ft in H.
  exists D, N0. split; [exact HD0|]. intros N HN HNp.
  destruct (H 3%nat {| e_fields := pattern w n 0; e_derived := [[]] |} N (le_n 3) HN HNp Hf HR eq_refl N (le_n N)) as (e' & EP & _ & _ & HC).
  exists e'. split; [exact EP|]. assert (0 < INR N) by (apply lt_0_INR; exact HNp). replace (INR N * (T / INR N)) with T in HC by (field; lra). exact HC.
Qed.

(** *** A source that depends on time: dconc/dt = t.  Both ends of the integral
    are evaluated with the source at the start of the step, so the equation
    that is solved in a step is a left sum.  Even with a solver that leaves no
    residual the error is exactly T^2/(2 N). *)
Lemma fed_real dom nd : valid_domain dom -> square_layout dom -> real_library Lr cubic_calls cubic_eqs dom nd (fed_library (nodes dom) (fftw_transform dom)).
Proof.
  intros Hv Hsq. set (n := nodes dom). set (ft := fftw_transform dom). assert (UT := fftw_unitary dom Hv). constructor.
  - intros q t s f [<-|[]] [Ht|[]] Hf. injection Ht as <- <-. destruct Hf as [<-|[]]. cbn [fed_library lb_pow lb_scalar].
    replace (factor_power (wf_fac (plainw "rate" None))) with (INR 1) by (cbn; lra). change C0 with (RtoC 0). rewrite C97_natural_powers. reflexivity.
  - intros q t s f x [<-|[]] [Ht|[]] Hf. injection Ht as <- <-. destruct Hf as [<-|[]]. cbn [fed_library lb_pow].
    replace (factor_power (wf_fac (plainw "conc" (Some 3%nat)))) with (INR 3) by (cbn; lra). rewrite C97_natural_powers. reflexivity.
  - discriminate.
  - intros k name s E t _ (before & after & ds & Q & _). exfalso. assert (H : In (CTerm k name s ds) cubic_calls) by (rewrite Q; apply in_or_app; right; left; reflexivity). cbn in H. intuition discriminate.
  - intros name s E t (before & after & ds & Q & _). exfalso. assert (H : In (CTerm KMixed name s ds) cubic_calls) by (rewrite Q; apply in_or_app; right; left; reflexivity). cbn in H. intuition discriminate.
  - intros i s t _. cbn [fed_library lb_source].
    assert (H : hermitian dom (fft ft (map (fun _ => RtoC t) (seq 0 n)))).
    { apply hermitian_of_real; [exact Hv|exact Hsq|]. apply Forall_forall. intros z Hz. apply in_map_iff in Hz. destruct Hz as (j & <- & _). reflexivity. }
    apply (herm_ext dom _ (fun k => nth k (fft ft (map (fun _ => RtoC t) (seq 0 n))) C0) Hv); [|apply (herm_iff dom _ Hv), H].
    intros k Hk. rewrite (LimitProofs2.nth_map_seq n (fun k => Cmul (RtoC t) (amplitude_at n ft k (fun _ => C1)))) by exact Hk. rewrite <- (amplitude_scale n ft k (RtoC t) (fun _ => C1) UT Hk).
    unfold amplitude_at. f_equal. f_equal. apply map_ext. intros _. csolve.
Qed.
Theorem C114_time_dependent_refuted : forall dom, valid_domain dom -> square_layout dom ->
  exists L cs es m lib U, let n := nodes dom in let ft := fftw_transform dom in let p := simulation n ft lib m in
  declared L cs es /\ run_calls new_mstate (cs ++ [CInit]) = Ok m /\ good_library L n lib /\ real_library L cs es dom (length (pm_derived (ms_names m))) lib /\ map q_field es = l_fields L
  /\ (forall T, smooth L cs es n lib T /\ solution_until L cs es n ft lib T U)
  /\ (exists e, fits L n m e /\ real_fields dom (e_fields e) /\ e_fields e = U 0)
  /\ (forall steps h t e F x0 e2, (1 <= steps)%nat -> 0 < h -> fits L n m e -> real_fields dom (e_fields e) -> ie_problem p ft None h t e = Some (F, x0, e2) ->
       exists out, F (fixed_point steps F x0) = Some out /\ forall j, nth j out 0 = 0)
  /\ forall steps T N e, (1 <= steps)%nat -> 0 < T -> (0 < N)%nat -> fits L n m e -> real_fields dom (e_fields e) -> e_fields e = U 0 ->
     exists e' d, ie_propagate (fixed_point steps) p ft None (T / INR N) N 0%nat e = Some (e', N) /\ fits L n m e'
     /\ nth_error (e_fields e') 0 = Some d /\ forall j, (j < n)%nat -> Csub (nth j (nth 0 (U T) []) C0) (nth j d C0) = RtoC (T ^ 2 / (2 * INR N)).
Proof.
  intros dom Hv Hsq. assert (UT := fftw_unitary dom Hv). assert (Hn := nodes_pos dom Hv).
  set (n := nodes dom) in *. set (ft := fftw_transform dom) in *. set (lib := fed_library n ft).
  exists Lr, cubic_calls, cubic_eqs, cubic_state, lib, (shape n (fun _ => 1) (fun t => t ^ 2 / 2)). cbv zeta. fold n ft. set (p := simulation n ft lib cubic_state).
  assert (GL : good_library Lr n lib) by apply fed_good. assert (RL := fed_real dom (length (pm_derived (ms_names cubic_state))) Hv Hsq). fold n ft lib in RL.
  assert (HS : forall t k, (k < n)%nat -> source_sum cubic_calls lib t 0 k = Cmul (RtoC t) (amplitude_at n ft k (fun _ => RtoC 1))).
  { intros t k Hk. unfold source_sum. change (sources_of 0 cubic_calls) with [0%nat]. cbn [map Csum lib fed_library lb_source].
    rewrite (LimitProofs2.nth_map_seq n (fun k => Cmul (RtoC t) (amplitude_at n ft k (fun _ => C1)))) by exact Hk. change (RtoC 1) with C1. csolve. }
  assert (SM : forall T, smooth Lr cubic_calls cubic_eqs n lib T).
  { intros T. constructor.
    - intros q x [<-|[]] [<-|[]]. eexists. reflexivity.
    - intros q t s f [<-|[]] [Ht|[]] Hf'. injection Ht as <- <-. destruct Hf' as [<-|[]]. cbn [lib fed_library lb_pow].
      replace (factor_power (wf_fac (plainw "conc" (Some 3%nat)))) with (INR 3) by (cbn; lra). apply lipschitz_principal.
    - discriminate.
    - intros i s k _ Hk. exists (Cnorm2 (amplitude_at n ft k (fun _ => C1))). intros t t' _ _. cbn [lib fed_library lb_source].
      rewrite !(LimitProofs2.nth_map_seq n (fun k => Cmul (RtoC _) (amplitude_at n ft k (fun _ => C1)))) by exact Hk.
      set (z := amplitude_at n ft k (fun _ => C1)). apply Req_le. unfold Cnorm2, Csub, Cadd, Copp, Cmul, RtoC. cbn. ring. }
  assert (SOL : forall T, solution_until Lr cubic_calls cubic_eqs n ft lib T (shape n (fun _ => 1) (fun t => t ^ 2 / 2))).
  { intros T. apply (shape_solution n ft lib (fun _ => 1) 0 (fun t => t ^ 2 / 2) (fun t => t) UT); try reflexivity.
    - intros _. ring.
    - exact HS.
    - intros t _. replace (- (0 * (t ^ 2 / 2) ^ 3) + t) with t by ring. apply (derivable_ext (fun t => / 2 * (t ^ 2))); [intros u; field|]. replace t with (/ 2 * (INR 2 * t ^ pred 2)) at 2 by (cbn; field).
      apply (derivable_pt_lim_scal (fun t => t ^ 2)). apply derivable_pt_lim_pow. }
  assert (HA : forall k, AA Lr cubic_eqs ft lib 0 k = C0).
  { intros k. unfold AA. cbn [nth_error cubic_eqs]. unfold AF, sum_signed. cbn [signed_items q_first q_lead q_more map fst snd Csum implicit_item].
    change (linear_in Lr _ [plainw "rate" None; plainw "conc" (Some 3%nat)]) with false. csolve. }
  assert (HF : forall k t x s, (k < n)%nat -> FF Lr cubic_calls cubic_eqs n ft lib 0 k t x s = Cmul (RtoC t) (amplitude_at n ft k (fun _ => RtoC 1))).
  { intros k t x s Hk. unfold FF. cbn [nth_error cubic_eqs]. fold cubic_eqs. rewrite (HS t k Hk). unfold XF, sum_signed. cbn [signed_items q_first q_lead q_more map fst snd Csum explicit_item].
    change (linear_in Lr _ [plainw "rate" None; plainw "conc" (Some 3%nat)]) with false. unfold coefficient.
    change (scalar_factors Lr [plainw "rate" None; plainw "conc" (Some 3%nat)]) with [fac "rate" None]. cbn [product_value].
    replace (factor_power (fac "rate" None)) with (INR 1) by (cbn; lra). change (lb_pow lib) with principal_power. change (lb_scalar lib (fa_name (fac "rate" None))) with C0. rewrite principal_natural. cbn [Cpow]. csolve. }
  (* the new value does not depend on the guess *)
  assert (TG : forall h t x v k, (k < n)%nat -> target (AA Lr cubic_eqs ft lib) (FF Lr cubic_calls cubic_eqs n ft lib) h t x v 0%nat k = Cadd (x 0%nat k) (Cmul (RtoC (h * t)) (amplitude_at n ft k (fun _ => RtoC 1)))).
  { intros h t x v k Hk. unfold target. rewrite HA, !HF by exact Hk. unfold ie_update, nonlinear_integral. set (z := amplitude_at n ft k (fun _ => RtoC 1)).
    destruct (Rlt_dec (Cabs C0) (/ 10 ^ 5)) as [_|Q]; [|exfalso; exact (SecondProofs.not_small C0 Q eq_refl)].
    replace (Cmul C0 (RtoC h)) with C0 by csolve. rewrite Cexp_0. csolve; field. }
  split; [exact cubic_declared|]. split; [exact cubic_run|]. split; [exact GL|]. split; [exact RL|]. split; [reflexivity|]. split; [auto|].
  split. { eexists. split; [apply (shape_fits n (fun _ => 1) (fun t => t ^ 2 / 2) 0)|]. split; [|reflexivity]. constructor; [|constructor].
    split; [rewrite map_length, seq_length; reflexivity|]. apply Forall_forall. intros z Hz. apply in_map_iff in Hz. destruct Hz as (j & <- & _). reflexivity. }
  split.
  { intros steps h t e F x0 e2 Hs Hh Hf Hr EP. destruct steps as [|steps]; [lia|].
    destruct (iteration_fields Lr cubic_calls cubic_eqs cubic_state cubic_declared cubic_run dom lib Hv Hsq GL RL eq_refl Hn 1 (SM 1) h t e (conj Hf Hr) F x0 e2 EP) as (_ & _ & _ & fs & _ & Hfs).
    fold n ft in Hfs. destruct (Hfs (S steps)) as (Sh & Re & Va & (res & ER & Shr & HR) & _). destruct (Hfs steps) as (_ & _ & _ & _ & HN).
    rewrite Va in ER. exists (values res). split; [exact ER|].
    assert (Z : forall i k, (i < length (l_fields Lr))%nat -> (k < n)%nat -> amplitude_of ft res i k = C0).
    { intros i k Hi Hk. rewrite (HR i k Hi Hk). cbn in Hi. replace i with 0%nat by lia. rewrite (HN 0%nat k ltac:(cbn; lia) Hk), !TG by exact Hk. csolve. }
    intros j. destruct (le_lt_dec (length (values res)) j) as [Q|Q]; [apply nth_overflow, Q|]. rewrite (ImplicitProofs2.values_length n) in Q by exact (proj2 Shr). rewrite (proj1 Shr) in Q.
    assert (W : within (length (l_fields Lr)) n 0 (amplitude_of ft res)) by (intros i k Hi Hk; rewrite (Z i k Hi Hk), size_0; lra).
    pose proof (ApproachProofs3.entries_of_small dom (length (l_fields Lr)) Hv Hn 0 res ltac:(lra) Shr W j Q) as B. pose proof (Rabs_pos (nth j (values res) 0)).
    assert (B0 : Rabs (nth j (values res) 0) = 0) by lra. destruct (Req_dec (nth j (values res) 0) 0) as [E|NE]; [exact E|]. exfalso. apply Rabs_no_R0 in NE. exact (NE B0). }
  intros steps T N e Hs HT HN Hf Hr He. assert (HNr : 0 < INR N) by (apply lt_0_INR; exact HN). set (h := T / INR N). destruct steps as [|steps]; [lia|].
  assert (HK : forall m, exists e', ie_propagate (fixed_point (S steps)) p ft None h m 0%nat e = Some (e', m) /\ real_env Lr cubic_state dom e'
    /\ forall k, (k < n)%nat -> amplitude_of ft (e_fields e') 0 k = Cmul (RtoC (h ^ 2 * (INR m * (INR m - 1) / 2))) (amplitude_at n ft k (fun _ => RtoC 1))).
  { induction m as [|m (e1 & EP & He1 & HK)].
    - exists e. split; [reflexivity|]. split; [split; assumption|]. intros k Hk. rewrite He, (shape_amplitude n ft (fun _ => 1) (fun t => t ^ 2 / 2) UT 0 k Hk). f_equal. f_equal. cbn. field.
    - destruct (iterated_step Lr cubic_calls cubic_eqs cubic_state cubic_declared cubic_run dom lib Hv Hsq GL RL eq_refl Hn 1 (SM 1) steps h (ImplicitModel.ie_time h m) e1 He1) as (e2 & v & ES & He2 & HE).
      fold n ft in ES, HE. fold p in ES. exists e2. split; [rewrite ie_propagate_last, EP, ES; reflexivity|]. split; [exact He2|]. intros k Hk.
      rewrite (HE 0%nat k ltac:(cbn; lia) Hk), TG, HK by exact Hk. set (z := amplitude_at n ft k (fun _ => RtoC 1)). unfold ImplicitModel.ie_time. rewrite S_INR. csolve; field. }
  destruct (HK N) as (e' & EP & He' & HKN). exists e', (map (fun _ => RtoC (1 * (h ^ 2 * (INR N * (INR N - 1) / 2)))) (seq 0 n)). split; [exact EP|]. split; [exact (proj1 He')|].
  assert (EF : e_fields e' = shape n (fun _ => 1) (fun _ => h ^ 2 * (INR N * (INR N - 1) / 2)) 0).
  { assert (S1 := fits_shaped Lr cubic_state n e' (proj1 He')). assert (S2 := fits_shaped Lr cubic_state n _ (shape_fits n (fun _ => 1) (fun _ => h ^ 2 * (INR N * (INR N - 1) / 2)) 0)). cbn [e_fields] in S2.
    transitivity (reals Lr n ft (amplitude_of ft (e_fields e'))); [symmetry; exact (reals_of Lr n ft UT Hn _ S1)|].
    transitivity (reals Lr n ft (amplitude_of ft (shape n (fun _ => 1) (fun _ => h ^ 2 * (INR N * (INR N - 1) / 2)) 0))); [|exact (reals_of Lr n ft UT Hn _ S2)].
    apply (reals_ext Lr n ft); [exact Hn|]. intros i k Hi Hk. cbn in Hi. replace i with 0%nat by lia.
    rewrite (HKN k Hk), (shape_amplitude n ft (fun _ => 1) (fun _ => h ^ 2 * (INR N * (INR N - 1) / 2)) UT 0 k Hk). reflexivity. }
  split; [rewrite EF; reflexivity|]. intros j Hj. unfold shape. cbn [nth]. rewrite (LimitProofs2.nth_map_seq n (fun _ => RtoC (1 * (T ^ 2 / 2)))), (LimitProofs2.nth_map_seq n (fun _ => RtoC (1 * (h ^ 2 * (INR N * (INR N - 1) / 2))))) by exact Hj.
  unfold h. csolve. field. lra.
Qed.
Print Assumptions C114_time_dependent_refuted.
