(** Properties C99 and C100: runs that are continued; convergence under Solve. *)
From Verif Require Import ListAux FileModel ParseProofs StepProofs ConserveProofs EquationProps RegistryProps SimProps.
From Verif Require Import SimProofs SimProofs2 SimProofs3 SimProofs4 SimProofs5 SimProofs6 LinearProofs LinearProofs2 LinearProofs3 LinearProps DftProofs ConvergeProofs ConvergeProps KeepProps.
From Verif Require EnergyProofs3 IndexProofs MatchSpec MatchProps SplitProps.
From Verif Require Import LimitProofs2 LimitProofs4 LimitProps ResumeProofs ResumeProofs2 DftSpec LimitSpec KeepSpec ResumeSpec.
From Coq Require Import Reals Permutation Lia Lra.
From Verif Require Import Complex.
Open Scope R_scope.

(** ** C99 *)

(** A run takes the fields to [fs1]; a new solver that starts from [fs1] takes
    them to [fs2].  If nothing depends on time, one run with as many steps as
    the two together ends with [fs2], however these steps are divided into
    epochs and whatever callbacks and monitors are used. *)
Theorem C99_continued_euler_partial : forall n ft lib m filt dt, timeless lib -> let sp := euler_stepper (simulation n ft lib m) ft filt dt in
  forall sv sv' sv'' ne ns ne' ns' ne'' ns'' fs fs1 fs2, (ne'' * ns'' = ne * ns + ne' * ns')%nat ->
  run_takes sp m sv ne ns fs fs1 -> run_takes sp m sv' ne' ns' fs1 fs2 -> run_takes sp m sv'' ne'' ns'' fs fs2.
Proof. exact euler_continued. Qed.
Print Assumptions C99_continued_euler_partial.

(** With RK4 this holds even if sources depend on time, because RK4 under the
    solver never moves its clock (C25, C100). *)
Theorem C99_continued_rk4 : forall n ft lib m filt dt, let sp := rk4_stepper (simulation n ft lib m) ft filt dt in
  forall sv sv' sv'' ne ns ne' ns' ne'' ns'' fs fs1 fs2, (ne'' * ns'' = ne * ns + ne' * ns')%nat ->
  run_takes sp m sv ne ns fs fs1 -> run_takes sp m sv' ne' ns' fs1 fs2 -> run_takes sp m sv'' ne'' ns'' fs fs2.
Proof. exact rk4_continued_always. Qed.
Print Assumptions C99_continued_rk4.

(** ** C100 *)

(** Runs of Solve with Euler converge to the solution of the equations with
    their sources. *)
Theorem C100_euler : forall L cs es m, declared L cs es -> run_calls new_mstate (cs ++ [CInit]) = Ok m ->
  forall n ft lib, good_library L n lib -> unitary_transform n ft -> map q_field es = l_fields L -> (0 < n)%nat ->
  forall T, 0 < T -> smooth L cs es n lib T ->
  forall U, solution_until L cs es n ft lib T U ->
  forall eps, 0 < eps -> exists N0, forall sv ne ns e, (N0 <= ne * ns)%nat -> fits L n m e -> e_fields e = U 0 ->
  exists e' tr, solve (euler_stepper (simulation n ft lib m) ft None (T / INR (ne * ns))) sv ne ns (e, 0%nat) = Some ((e', (ne * ns)%nat), tr) /\ fits L n m e'
  /\ forall i, (i < length (l_fields L))%nat -> exists d, nth_error (e_fields e') i = Some d /\ distance2 d (nth i (U T) []) <= eps.
Proof.
  intros L cs es m HD Em n ft lib GL UT HO Hn T HT SM U HU eps Heps.
  destruct (C98_limit L cs es m HD Em n ft lib GL UT HO Hn T HT SM U HU euler_propagate (or_introl eq_refl) eps Heps) as (N0 & H).
  exists N0. intros sv ne ns e HN Hf He. destruct (H e _ HN Hf He) as (e' & E & Hf' & Hi). rewrite <- euler_iter in E.
  destruct (solve_of_iter _ sv ne ns _ _ E) as (tr & HS). exists e', tr. split; [exact HS|]. split; [exact Hf'|exact Hi].
Qed.
Print Assumptions C100_euler.

(** Runs of Solve with RK4 converge to the solution of the equations whose
    sources keep the values they have at time 0. *)
Lemma frozen_good L n lib : good_library L n lib -> good_library L n (frozen 0 lib).
Proof. intros [H1 H2 H3]. constructor; [exact H1|exact H2|intros s t; apply H3]. Qed.
Lemma frozen_smooth L cs es n lib T : smooth L cs es n lib T -> smooth L cs es n (frozen 0 lib) T.
Proof.
  intros [H1 H2 H3 H4]. constructor; [exact H1|exact H2|exact H3|]. intros i s k Hs Hk. exists 0. intros t t' _ _. cbn [frozen lb_source].
  apply Req_le. unfold Cnorm2, Csub, Cadd, Copp. cbn. ring.
Qed.
Lemma frozen_independent cs lib : field_independent cs lib -> field_independent cs (frozen 0 lib).
Proof. intros [H1 H2]. split; [intros name s E E' t Hr; exact (H1 name s E E' 0 Hr)|intros name s E E' t Hr; exact (H2 name s E E' 0 Hr)]. Qed.
Theorem C100_rk4_frozen : forall L cs es m, declared L cs es -> run_calls new_mstate (cs ++ [CInit]) = Ok m ->
  forall n ft lib, good_library L n lib -> unitary_transform n ft -> map q_field es = l_fields L -> (0 < n)%nat ->
  forall T, 0 < T -> smooth L cs es n lib T -> field_independent cs lib ->
  forall U, solution_until L cs es n ft (frozen 0 lib) T U ->
  forall eps, 0 < eps -> exists N0, forall sv ne ns e, (N0 <= ne * ns)%nat -> fits L n m e -> e_fields e = U 0 ->
  exists e' tr, solve (rk4_stepper (simulation n ft lib m) ft None (T / INR (ne * ns))) sv ne ns (e, 0%nat) = Some ((e', 0%nat), tr) /\ fits L n m e'
  /\ forall i, (i < length (l_fields L))%nat -> exists d, nth_error (e_fields e') i = Some d /\ distance2 d (nth i (U T) []) <= eps.
Proof.
  intros L cs es m HD Em n ft lib GL UT HO Hn T HT SM HI U HU eps Heps.
  destruct (C98_limit L cs es m HD Em n ft (frozen 0 lib) (frozen_good _ _ _ GL) UT HO Hn T HT (frozen_smooth _ _ _ _ _ _ SM) U HU rk4_propagate
    (or_intror (conj eq_refl (frozen_independent _ _ HI))) eps Heps) as (N0 & H).
  exists N0. intros sv ne ns e HN Hf He. destruct (H e _ HN Hf He) as (e' & E & Hf' & Hi).
  assert (R := rk4_iter_frozen n ft lib m None (T / INR (ne * ns)) 0 (ne * ns) 0 e).
  replace (time_of (T / INR (ne * ns)) 0) with 0 in R by (unfold time_of; cbn [INR]; ring). rewrite E in R. cbn [option_map fst] in R.
  destruct (solve_of_iter _ sv ne ns _ _ R) as (tr & HS). exists e', tr. split; [exact HS|]. split; [exact Hf'|exact Hi].
Qed.
Print Assumptions C100_rk4_frozen.

(** So if nothing depends on time they converge to the solution. *)
Theorem C100_rk4_partial : forall L cs es m, declared L cs es -> run_calls new_mstate (cs ++ [CInit]) = Ok m ->
  forall n ft lib, good_library L n lib -> unitary_transform n ft -> map q_field es = l_fields L -> (0 < n)%nat ->
  forall T, 0 < T -> smooth L cs es n lib T -> field_independent cs lib -> timeless lib ->
  forall U, solution_until L cs es n ft lib T U ->
  forall eps, 0 < eps -> exists N0, forall sv ne ns e, (N0 <= ne * ns)%nat -> fits L n m e -> e_fields e = U 0 ->
  exists e' tr, solve (rk4_stepper (simulation n ft lib m) ft None (T / INR (ne * ns))) sv ne ns (e, 0%nat) = Some ((e', 0%nat), tr) /\ fits L n m e'
  /\ forall i, (i < length (l_fields L))%nat -> exists d, nth_error (e_fields e') i = Some d /\ distance2 d (nth i (U T) []) <= eps.
Proof.
  intros L cs es m HD Em n ft lib GL UT HO Hn T HT SM HI TL U HU eps Heps.
  destruct (C98_limit L cs es m HD Em n ft lib GL UT HO Hn T HT SM U HU rk4_propagate (or_intror (conj eq_refl HI)) eps Heps) as (N0 & H).
  exists N0. intros sv ne ns e HN Hf He. destruct (H e _ HN Hf He) as (e' & E & Hf' & Hi).
  assert (R := rk4_iter_timeless n ft lib m None (T / INR (ne * ns)) 0 TL (ne * ns) 0 e). rewrite E in R. cbn [option_map fst] in R.
  destruct (solve_of_iter _ sv ne ns _ _ R) as (tr & HS). exists e', tr. split; [exact HS|]. split; [exact Hf'|exact Hi].
Qed.
Print Assumptions C100_rk4_partial.

(** *** A uniform source that grows with time: dconc/dt = t (and - rate conc
    with rate = 0) *)
Definition fed_calls : list call := rate_calls ++ [CSource 0 0].
Definition fed_state : mstate := match run_calls new_mstate (fed_calls ++ [CInit]) with Ok m => m | _ => new_mstate end.
Definition fed_library (n : nat) (ft : transform) : library := {|
  lb_pow := principal_power; lb_scalar := fun _ => C0; lb_calc := fun _ => None;
  lb_pure := fun _ _ _ => repeat C0 n; lb_linear := fun _ _ _ => repeat C0 n; lb_nonlinear := fun _ _ _ => repeat C0 n;
  lb_source := fun _ t => map (fun k => Cmul (RtoC t) (amplitude_at n ft k (fun _ => C1))) (seq 0 n) |}.
Definition level (n : nat) (y : R -> R) (t : R) : list data := [map (fun _ => RtoC (y t)) (seq 0 n)].

Lemma fed_run : run_calls new_mstate (fed_calls ++ [CInit]) = Ok fed_state.
Proof. vm_compute. reflexivity. Qed.
Lemma fed_declared : declared Lr fed_calls rate_eqs.
Proof.
  constructor.
  - good_language.
  - split; [reflexivity|]. intros n. cbn. tauto.
  - exists (firstn 2 fed_calls), (skipn 2 fed_calls). split; [reflexivity|]. split; [|split].
    + intros c H. cbn in H. repeat (destruct H as [<-|H]; [exact (fun x => x)|]). destruct H.
    + intros c H. cbn in H. repeat (destruct H as [<-|H]; [exact (fun x => x)|]). destruct H.
    + discriminate.
  - intros b a eq s E. unfold fed_calls, rate_calls in E. cbn [app] in E.
    do 3 (destruct b as [|? b]; [discriminate E|injection E as <- E]). destruct b as [|? b]; [|destruct b; discriminate E]. injection E as <- <- <-. cbn. lia.
  - cbn. intuition discriminate.
  - intros k name t ds H. cbn in H. intuition discriminate.
  - constructor; [reflexivity|constructor].
  - constructor; [|constructor]. split; [cbn; auto|]. split; [intros c E; injection E as <-; right; reflexivity|]. split; [|constructor].
    split; [exists [], [plainw "conc" None], [plainw "rate" None]; good_prod|vm_compute; intuition discriminate].
Qed.
Lemma fed_good n ft : good_library Lr n (fed_library n ft).
Proof.
  constructor; [|discriminate|intros; apply map_seq_length]. intros name. split; [intros []|intros (c & E); discriminate].
Qed.
Lemma fed_source n ft lib t k : lb_source lib = lb_source (fed_library n ft) -> (k < n)%nat ->
  source_sum fed_calls lib t 0 k = Cmul (RtoC t) (amplitude_at n ft k (fun _ => C1)).
Proof.
  intros E Hk. unfold source_sum. change (sources_of 0 fed_calls) with [0%nat]. cbn [map Csum]. rewrite E. cbn [fed_library lb_source].
  rewrite (nth_map_seq n (fun k => Cmul (RtoC t) (amplitude_at n ft k (fun _ => C1)))) by exact Hk. csolve.
Qed.

Section Fed.
  Variables (n : nat) (ft : transform) (lib : library) (y dy : R -> R).
  Hypothesis UT : unitary_transform n ft.
  Hypothesis Hscalar : forall name, lb_scalar lib name = C0.
  Hypothesis Hpow : lb_pow lib = principal_power.
  Hypothesis Hy : forall t, derivable_pt_lim y t (dy t).
  Hypothesis Hs : forall t k, (k < n)%nat -> source_sum fed_calls lib t 0 k = Cmul (RtoC (dy t)) (amplitude_at n ft k (fun _ => C1)).

  Lemma level_written E t q k fields : nth_error rate_eqs 0 = Some q -> written Lr fed_calls n ft lib fields E t q k C0.
  Proof.
    intros Hq. destruct (written_exists Lr fed_calls rate_eqs fed_state fed_declared fed_run n ft lib E t q k fields) as (M & val & im & ex & li & nl & HV & R1 & R2 & R3 & EM).
    exists val, im, ex, li, nl. split; [exact HV|]. split; [exact R1|]. split; [exact R2|]. split; [exact R3|]. injection Hq as <-.
    cbn [rhs_meaning signed_items q_first q_lead q_more map Csum snd fst item_meaning]. unfold product_meaning.
    change (scalar_factors Lr [plainw "rate" None; plainw "conc" None]) with [fac "rate" None].
    cbn [product_value]. rewrite Hscalar, Hpow. replace (factor_power (fac "rate" None)) with (INR 1) by (cbn; lra). rewrite principal_natural. cbn [Cpow]. csolve.
  Qed.
  Lemma level_solution T : solution_until Lr fed_calls rate_eqs n ft lib T (level n y).
  Proof.
    split.
    - intros t. split; [reflexivity|]. repeat constructor. apply map_seq_length.
    - intros t i q k _ Hq Hk. destruct i as [|i]; [|destruct i; discriminate]. exists C0. split; [exact (level_written _ t q k _ Hq)|].
      rewrite Hs by exact Hk. set (z := amplitude_at n ft k (fun _ => C1)).
      assert (E : forall s, amplitude_of ft (level n y s) 0 k = Cmul (RtoC (y s)) z).
      { intros s. unfold z. rewrite <- amplitude_scale by assumption. unfold amplitude_of, level. cbn [nth].
        change (nth k (fft ft (map (fun _ => RtoC (y s)) (seq 0 n))) C0) with (amplitude_at n ft k (fun _ => RtoC (y s))). apply amplitude_ext. intros j _. csolve. }
      assert (DD : forall c, derivable_pt_lim (fun s => y s * c) t (dy t * c)).
      { intros c. apply (derivable_ext (fun s => c * y s)); [intros u; ring|]. rewrite Rmult_comm. apply (derivable_pt_lim_scal y c). apply Hy. }
      split.
      + apply (derivable_ext (fun s => y s * Re z)); [intros u; rewrite E; unfold Cmul, RtoC; cbn [Re Im fst snd]; ring|].
        replace (Re (Cadd C0 (Cmul (RtoC (dy t)) z))) with (dy t * Re z) by (unfold Cadd, Cmul, RtoC, C0; cbn [Re Im fst snd]; ring). apply DD.
      + apply (derivable_ext (fun s => y s * Im z)); [intros u; rewrite E; unfold Cmul, RtoC; cbn [Re Im fst snd]; ring|].
        replace (Im (Cadd C0 (Cmul (RtoC (dy t)) z))) with (dy t * Im z) by (unfold Cadd, Cmul, RtoC, C0; cbn [Re Im fst snd]; ring). apply DD.
  Qed.
End Fed.
Lemma fed_smooth n ft T : smooth Lr fed_calls rate_eqs n (fed_library n ft) T.
Proof.
  constructor.
  - intros q x [<-|[]] [<-|[]]. eexists. reflexivity.
  - intros q t s f [<-|[]] [Ht|[]] Hf. injection Ht as <- <-. destruct Hf as [<-|[]]. cbn [fed_library lb_pow].
    replace (factor_power (wf_fac (plainw "conc" None))) with (INR 1) by (cbn; lra). apply lipschitz_principal.
  - discriminate.
  - intros i s k _ Hk. exists (Cnorm2 (amplitude_at n ft k (fun _ => C1))). intros t t' _ _. cbn [fed_library lb_source].
    rewrite !(nth_map_seq n (fun k => Cmul (RtoC _) (amplitude_at n ft k (fun _ => C1)))) by exact Hk.
    set (z := amplitude_at n ft k (fun _ => C1)). apply Req_le. unfold Cnorm2, Csub, Cadd, Copp, Cmul, RtoC. cbn. ring.
Qed.
Lemma fed_fits n y t : fits Lr n fed_state {| e_fields := level n y t; e_derived := [] |}.
Proof. split; [reflexivity|]. split; [repeat constructor; apply map_seq_length|reflexivity]. Qed.

(** With RK4 the solver does not converge to the solution if a source depends
    on time: whatever number of small steps is used, the field stays near 0
    at every node although the solution is 2 at time 2. *)
Theorem C100_rk4_refuted : forall dom, valid_domain dom ->
  exists L cs es m lib U, let n := nodes dom in let ft := fftw_transform dom in
  declared L cs es /\ run_calls new_mstate (cs ++ [CInit]) = Ok m /\ good_library L n lib /\ unitary_transform n ft /\ map q_field es = l_fields L
  /\ smooth L cs es n lib 2 /\ field_independent cs lib /\ solution_until L cs es n ft lib 2 U
  /\ (exists e, fits L n m e /\ e_fields e = U 0)
  /\ exists N0, forall sv ne ns e, (N0 <= ne * ns)%nat -> fits L n m e -> e_fields e = U 0 ->
     exists e' tr d, solve (rk4_stepper (simulation n ft lib m) ft None (2 / INR (ne * ns))) sv ne ns (e, 0%nat) = Some ((e', 0%nat), tr) /\ fits L n m e'
     /\ nth_error (e_fields e') 0 = Some d /\ 1 <= distance2 d (nth 0 (U 2) []).
Proof.
  intros dom Hv. assert (UT := fftw_unitary dom Hv). assert (Hn : (0 < nodes dom)%nat) by (unfold nodes; pose proof (IndexProofs.num_nodes_pos dom (proj2 Hv)); lia).
  set (n := nodes dom) in *. set (ft := fftw_transform dom) in *. exists Lr, fed_calls, rate_eqs, fed_state, (fed_library n ft), (level n (fun t => t ^ 2 / 2)). cbv zeta.
  assert (HI : field_independent fed_calls (fed_library n ft)) by (split; reflexivity).
  split; [exact fed_declared|]. split; [exact fed_run|]. split; [apply fed_good|]. split; [exact UT|]. split; [reflexivity|]. split; [apply fed_smooth|].
  split; [exact HI|].
  split. { apply (level_solution n ft (fed_library n ft) (fun t => t ^ 2 / 2) (fun t => t) UT); try reflexivity.
    - intros t. apply (derivable_ext (fun t => / 2 * (t ^ 2))); [intros u; field|]. replace t with (/ 2 * (INR 2 * t ^ pred 2)) at 2 by (cbn; field).
      apply (derivable_pt_lim_scal (fun t => t ^ 2)). apply derivable_pt_lim_pow.
    - intros t k Hk. apply fed_source; [reflexivity|exact Hk]. }
  split; [eexists; split; [apply (fed_fits n (fun t => t ^ 2 / 2) 0)|reflexivity]|].
  assert (HU : solution_until Lr fed_calls rate_eqs n ft (frozen 0 (fed_library n ft)) 2 (level n (fun _ => 0))).
  { apply (level_solution n ft (frozen 0 (fed_library n ft)) (fun _ => 0) (fun _ => 0) UT); try reflexivity.
    - intros t. apply derivable_pt_lim_const.
    - intros t k Hk. rewrite <- (fed_source n ft (fed_library n ft) 0 k eq_refl Hk). reflexivity. }
  destruct (C100_rk4_frozen Lr fed_calls rate_eqs fed_state fed_declared fed_run n ft (fed_library n ft) (fed_good n ft) UT eq_refl Hn 2 ltac:(lra) (fed_smooth n ft 2) HI
    (level n (fun _ => 0)) HU (1 / 4) ltac:(lra)) as (N0 & H).
  exists N0. intros sv ne ns e HN Hf He. replace (level n (fun t => t ^ 2 / 2) 0) with (level n (fun _ => 0) 0) in He by (unfold level; f_equal; apply map_ext; intros _; f_equal; field).
  destruct (H sv ne ns e HN Hf He) as (e' & tr & HS & Hf' & Hi). destruct (Hi 0%nat ltac:(cbn; lia)) as (d & Ed & Hd). exists e', tr, d. split; [exact HS|]. split; [exact Hf'|]. split; [exact Ed|].
  assert (Ld : length d = n) by (destruct Hf' as (_ & HA & _); exact (proj1 (Forall_forall _ _) HA d (nth_error_In _ _ Ed))).
  unfold distance2, level in *. cbn [nth] in *. rewrite Ld in *.
  assert (B := rsum_entry n Hn n (fun j => Cnorm2 (Csub (nth j d C0) (nth j (map (fun _ => RtoC 0) (seq 0 n)) C0))) 0 (fun i _ => Cnorm2_nonneg _) Hn).
  refine (Rle_trans _ _ _ _ (rsum_entry n Hn n (fun j => Cnorm2 (Csub (nth j d C0) (nth j (map (fun _ => RtoC (2 ^ 2 / 2)) (seq 0 n)) C0))) 0 (fun i _ => Cnorm2_nonneg _) Hn)).
  cbv beta in *. rewrite (nth_map_seq n (fun _ => RtoC 0)) in B by exact Hn. rewrite (nth_map_seq n (fun _ => RtoC (2 ^ 2 / 2))) by exact Hn.
  assert (Q := Rle_trans _ _ _ B Hd). destruct (nth 0 d C0) as [a b]. unfold Cnorm2, Csub, Cadd, Copp, RtoC in *. cbn [fst snd Re Im] in *. nra.
Qed.
Print Assumptions C100_rk4_refuted.

(** *** The runs that C99 speaks of exist for every declared model *)
Lemma nothing_closed L cs es lib : MatchSpec.closed_set (fun _ => False) L cs es lib.
Proof. split; [intros i []|intros i q []]. Qed.
Lemma complete_runs sp m one dt next : (forall e k, st_step sp (e, k) = match one (time_of dt k) e with Some e' => Some (e', next k) | None => None end) ->
  (forall t e e', slots m e -> slots m e' -> e_fields e = e_fields e' -> one t e = one t e') ->
  forall sv ne ns fs, (forall ds, length ds = length (pm_derived (ms_names m)) -> exists r, iter_step sp (ne * ns) ({| e_fields := fs; e_derived := ds |}, 0%nat) = Some r) ->
  exists fs', run_takes sp m sv ne ns fs fs'.
Proof.
  intros Hsp Hforget sv ne ns fs H. set (d0 := repeat ([] : data) (length (pm_derived (ms_names m)))). assert (L0 : length d0 = length (pm_derived (ms_names m))) by apply repeat_length.
  destruct (H d0 L0) as ([e0 k0] & E0). exists (e_fields e0). intros ds Hd. destruct (H ds Hd) as ([e1 k1] & E1). destruct (solve_of_iter sp sv ne ns _ _ E1) as (tr & HS).
  exists e1, k1, tr. split; [exact HS|]. destruct (ne * ns)%nat as [|N]; cbn [iter_step] in E0, E1; [injection E0 as <- _; injection E1 as <- _; reflexivity|].
  rewrite Hsp in E0, E1. rewrite (Hforget _ {| e_fields := fs; e_derived := ds |} {| e_fields := fs; e_derived := d0 |} Hd L0 eq_refl) in E1.
  rewrite E0 in E1. injection E1 as <- _. reflexivity.
Qed.
Theorem C99_runs_complete : forall L cs es m, declared L cs es -> run_calls new_mstate (cs ++ [CInit]) = Ok m ->
  forall n ft lib, good_library L n lib -> good_transform n ft -> map q_field es = l_fields L ->
  forall filt dt fs, length fs = length (l_fields L) -> all_length n fs ->
  forall sp, sp = euler_stepper (simulation n ft lib m) ft filt dt \/ (sp = rk4_stepper (simulation n ft lib m) ft filt dt /\ field_independent cs lib) ->
  forall sv ne ns, exists fs', run_takes sp m sv ne ns fs fs'.
Proof.
  intros L cs es m HD Em n ft lib GL GT HO filt dt fs Hl Ha sp Hsp sv ne ns. destruct Hsp as [-> | [-> HI]].
  - apply (complete_runs _ m (fun t e => euler_step (simulation n ft lib m) ft filt dt t e) dt S); [reflexivity|intros t e e' H H' E; exact (euler_forgets n ft m lib filt dt t e e' H H' E)|].
    intros ds Hd. assert (Hf : fits L n m {| e_fields := fs; e_derived := ds |}) by (split; [exact Hl|split; [exact Ha|exact Hd]]).
    destruct (MatchProps.C94_euler (fun _ => False) L cs es m lib HD Em n ft GL GT HO (nothing_closed L cs es lib) filt dt (ne * ns) 0 _ _ Hf Hf (fun i H => match H with end)) as (e1 & _ & E & _).
    rewrite euler_iter. eexists. exact E.
  - apply (complete_runs _ m (fun t e => rk4_step (simulation n ft lib m) ft filt dt t e) dt (fun k => k)); [reflexivity|intros t e e' H H' E; exact (rk4_forgets n ft m lib filt dt t e e' H H' E)|].
    intros ds Hd. assert (Hf : fits L n m {| e_fields := fs; e_derived := ds |}) by (split; [exact Hl|split; [exact Ha|exact Hd]]).
    destruct (MatchProps.C94_rk4 (fun _ => False) L cs es m (frozen 0 lib) HD Em n ft (frozen_good _ _ _ GL) GT HO (nothing_closed L cs es _) (frozen_independent _ _ HI) filt dt (ne * ns) 0 _ _ Hf Hf (fun i H => match H with end)) as (e1 & _ & E & _).
    rewrite (rk4_iter_frozen n ft lib m filt dt 0 (ne * ns) 0). replace (time_of dt 0) with 0 by (unfold time_of; cbn [INR]; ring). cbv zeta in E. rewrite E. eexists. reflexivity.
Qed.
Print Assumptions C99_runs_complete.

(** Allen-Cahn, two runs of one step each. *)
Example C99_nonvacuous : forall dom fs dt sv, valid_domain dom -> length fs = 1%nat -> all_length (nodes dom) fs ->
  let sp := euler_stepper (simulation (nodes dom) (fftw_transform dom) (no_library (nodes dom) principal_power) ac_state) (fftw_transform dom) None dt in
  timeless (no_library (nodes dom) principal_power)
  /\ exists fs1 fs2, run_takes sp ac_state sv 1 1 fs fs1 /\ run_takes sp ac_state sv 1 1 fs1 fs2 /\ run_takes sp ac_state sv 2 1 fs fs2.
Proof.
  intros dom fs dt sv Hv Hl Ha sp. assert (TL : timeless (no_library (nodes dom) principal_power)) by (constructor; reflexivity). split; [exact TL|].
  assert (GL := no_library_good La (nodes dom) principal_power eq_refl). assert (GT := fftw_good dom Hv).
  assert (RUN := fun fs (H : length fs = length (l_fields La)) (A : all_length (nodes dom) fs) => C99_runs_complete La ac_calls ac_eqs ac_state ac_declared ac_run (nodes dom) (fftw_transform dom) _ GL GT eq_refl None dt fs H A sp (or_introl eq_refl) sv 1%nat 1%nat).
  destruct (RUN fs Hl Ha) as (fs1 & H1).
  assert (S1 : length fs1 = 1%nat /\ all_length (nodes dom) fs1).
  { destruct (H1 (repeat [] (length (pm_derived (ms_names ac_state)))) (repeat_length _ _)) as (e' & k & tr & HS & <-). apply iter_of_solve in HS. unfold sp in HS. rewrite euler_iter in HS. cbn [Nat.mul Nat.add euler_propagate] in HS.
    destruct (SplitProps.C92_euler_step La ac_calls ac_eqs ac_state ac_declared ac_run (nodes dom) (fftw_transform dom) _ GL GT eq_refl dt (time_of dt 0) {| e_fields := fs; e_derived := repeat [] (length (pm_derived (ms_names ac_state))) |}) as (e2 & E2 & L2 & A2 & _).
    - split; [exact Hl|]. split; [exact Ha|apply repeat_length].
    - cbv zeta in E2. rewrite E2 in HS. injection HS as <- _. cbn [e_fields] in L2. split; [congruence|exact A2]. }
  destruct (RUN fs1 (proj1 S1) (proj2 S1)) as (fs2 & H2). exists fs1, fs2. split; [exact H1|]. split; [exact H2|].
  exact (C99_continued_euler_partial (nodes dom) (fftw_transform dom) _ ac_state None dt TL sv sv sv 1 1 1 1 2 1 fs fs1 fs2 eq_refl H1 H2).
Qed.

(** *** A source that depends on time: a new Euler run starts again at time 0 *)
Definition one_node : transform := {| fft := fun d => d; ifft := fun d => d; tfreq := fun _ => [] |}.
Lemma one_good : good_transform 1 one_node.
Proof.
  assert (D1 : forall x, Cdiv x (RtoC 1) = x) by (intros x; rewrite <- (Cdiv_one x C0) at 2; f_equal; csolve).
  assert (T : forall x, length x = 1%nat -> to_real one_node x = x).
  { intros x Hx. destruct x as [|u [|v x]]; try discriminate. unfold to_real. cbn [one_node ifft div_real map length INR]. rewrite D1. reflexivity. }
  constructor; [intros x H; exact H|intros x H; exact H|exact T|exact T| |reflexivity].
  intros x Hx. destruct x as [|u [|v x]]; try discriminate. cbn [one_node fft nth Csum]. csolve.
Qed.
Definition fed_sim : pde := simulation 1 one_node (fed_library 1 one_node) fed_state.
Lemma fed_equations : p_eqns fed_sim = [{| q_terms := [];
  q_denum := [entry_term 1 one_node (fed_library 1 one_node) (ms_names fed_state) (BTerm {| pt_neg := true; pt_bricks := [(lit "rate", 1%Q)]; pt_field := []; pt_lap := None |}, None)];
  q_sources := [fun t _ => lb_source (fed_library 1 one_node) 0 t] |}].
Proof.
  unfold fed_sim, simulation. cbn [p_eqns]. replace (ms_rhs fed_state) with
    [([] : list entry, [(BTerm {| pt_neg := true; pt_bricks := [(lit "rate", 1%Q)]; pt_field := []; pt_lap := None |}, None) : entry])] by (vm_compute; reflexivity).
  replace (ms_sources fed_state) with [[0%nat]] by (vm_compute; reflexivity). reflexivity.
Qed.
Lemma fed_step dt t z : euler_step fed_sim one_node None dt t {| e_fields := [[z]]; e_derived := [] |} = Some {| e_fields := [[Cadd z (RtoC (dt * t))]]; e_derived := [] |}.
Proof.
  unfold euler_step. cbv zeta. unfold sync. replace (p_calc fed_sim) with (@nil (env -> data)) by reflexivity. cbn [sync_from e_fields e_derived map length one_node fft].
  cbn [euler_fields nth_error e_fields]. unfold get_rhs, get_denum. rewrite fed_equations. cbn [nth_error q_terms q_denum q_sources fold_left length repeat].
  unfold add_source, add_term. cbn [fst snd]. unfold entry_term. cbn [seq map fed_library lb_source lb_pow].
  assert (EE : forall br f1 f2 f3 fr, br (lit "rate") = C0 ->
    eval_entry principal_power br f1 f2 f3 fr (BTerm {| pt_neg := true; pt_bricks := [(lit "rate", 1%Q)]; pt_field := []; pt_lap := None |}, None) = C0).
  { intros br f1 f2 f3 fr Hb. unfold eval_entry. cbn [fst snd eval_built eval_pterm pt_bricks pt_field pt_lap pt_neg]. unfold eval_pterm. cbn [pt_bricks pt_field pt_lap pt_neg eval_bricks]. rewrite Hb.
    replace (Q2R 1) with (INR 1) by (unfold Q2R; cbn; lra). rewrite principal_natural. cbn [Cpow]. csolve. }
  rewrite EE by reflexivity. change (p_mods fed_sim) with (p_mods (simulation 1 one_node (fed_library 1 one_node) fed_state)). cbn [simulation p_mods]. cbn [apply_mods vadd map3 apply_filter set_field set_nth e_fields e_derived map].
  unfold to_real. cbn [one_node ifft div_real map length INR]. unfold amplitude_at. cbn [seq map one_node fft nth]. do 3 f_equal. unfold semi_implicit.
  set (w := Csub C1 (Cmul (RtoC dt) (Cadd C0 C0))). assert (D1 : forall x, Cdiv x C1 = x) by (intros x; rewrite <- (Cdiv_one x C0) at 2; f_equal; csolve). unfold w. replace (Csub C1 (Cmul (RtoC dt) (Cadd C0 C0))) with C1 by csolve. unfold apply_mods. cbn [fold_left length INR map]. rewrite D1. change (RtoC 1) with C1. rewrite D1. f_equal. csolve.
Qed.
(** dconc/dt = t with steps of size 1 from conc = 0: two steps of one run give
    1, but one step followed by one step of a new solver give 0. *)
Theorem C99_sources_refuted : exists L cs es m n ft lib dt, declared L cs es /\ run_calls new_mstate (cs ++ [CInit]) = Ok m /\ good_library L n lib /\ good_transform n ft
  /\ map q_field es = l_fields L /\ let sp := euler_stepper (simulation n ft lib m) ft None dt in
  forall sv, exists fs fs1 fs2 fs3, run_takes sp m sv 1 1 fs fs1 /\ run_takes sp m sv 1 1 fs1 fs2 /\ run_takes sp m sv 2 1 fs fs3 /\ fs2 <> fs3.
Proof.
  exists Lr, fed_calls, rate_eqs, fed_state, 1%nat, one_node, (fed_library 1 one_node), 1. split; [exact fed_declared|]. split; [exact fed_run|]. split; [apply fed_good|].
  split; [exact one_good|].
  split; [reflexivity|]. intros sp sv. exists [[C0]], [[C0]], [[C0]], [[C1]].
  assert (HS : forall k z, st_step sp ({| e_fields := [[z]]; e_derived := [] |}, k) = Some ({| e_fields := [[Cadd z (RtoC (1 * time_of 1 k))]]; e_derived := [] |}, S k)).
  { intros k z. unfold sp. cbn [st_step euler_stepper fst snd]. fold fed_sim. rewrite fed_step. reflexivity. }
  assert (R1 : run_takes sp fed_state sv 1 1 [[C0]] [[C0]]).
  { intros ds Hd. destruct ds; [|discriminate]. destruct (solve_of_iter sp sv 1 1 ({| e_fields := [[C0]]; e_derived := [] |}, 0%nat) ({| e_fields := [[C0]]; e_derived := [] |}, 1%nat)) as (tr & E).
    - cbn [Nat.mul Nat.add iter_step]. rewrite HS. do 6 f_equal. unfold time_of. cbn [INR]. csolve.
    - exists {| e_fields := [[C0]]; e_derived := [] |}, 1%nat, tr. split; [exact E|reflexivity]. }
  split; [exact R1|]. split; [exact R1|]. split.
  - intros ds Hd. destruct ds; [|discriminate]. destruct (solve_of_iter sp sv 2 1 ({| e_fields := [[C0]]; e_derived := [] |}, 0%nat) ({| e_fields := [[C1]]; e_derived := [] |}, 2%nat)) as (tr & E).
    + cbn [Nat.mul Nat.add iter_step]. rewrite HS. rewrite HS. do 6 f_equal. unfold time_of. cbn [INR]. csolve.
    + exists {| e_fields := [[C1]]; e_derived := [] |}, 2%nat, tr. split; [exact E|reflexivity].
  - intros E. injection E as E. lra.
Qed.
Print Assumptions C99_sources_refuted.

(** The hypotheses of C100_euler and C100_rk4_partial hold for Allen-Cahn on
    every domain (the solution is that of C98_nonvacuous), and those of
    C100_euler with a source that depends on time for the model of
    C100_rk4_refuted. *)
Example C100_nonvacuous : forall dom w T, valid_domain dom -> (forall j, w j ^ 3 = w j) ->
  let n := nodes dom in let ft := fftw_transform dom in let lib := no_library n principal_power in
  smooth La ac_calls ac_eqs n lib T /\ solution_until La ac_calls ac_eqs n ft lib T (pattern w n) /\ field_independent ac_calls lib /\ timeless lib
  /\ fits La n ac_state {| e_fields := pattern w n 0; e_derived := [[]] |}
  /\ solution_until Lr fed_calls rate_eqs n ft (fed_library n ft) T (level n (fun t => t ^ 2 / 2)) /\ ~ timeless (fed_library n ft).
Proof.
  intros dom w T Hv Hw n ft lib. destruct (C98_nonvacuous dom w T Hv Hw) as (_ & _ & _ & UT & _ & Hn & SM & SO & FI & FT & _).
  split; [exact SM|]. split; [exact SO|]. split; [exact FI|]. split; [constructor; reflexivity|]. split; [exact FT|]. split.
  - apply (level_solution n ft (fed_library n ft) (fun t => t ^ 2 / 2) (fun t => t) UT); try reflexivity.
    + intros t. apply (derivable_ext (fun t => / 2 * (t ^ 2))); [intros u; field|]. replace t with (/ 2 * (INR 2 * t ^ pred 2)) at 2 by (cbn; field).
      apply (derivable_pt_lim_scal (fun t => t ^ 2)). apply derivable_pt_lim_pow.
    + intros t k Hk. apply fed_source; [reflexivity|exact Hk].
  - intros [TS _ _ _]. specialize (TS 0%nat 0 1). cbn [fed_library lb_source] in TS.
    assert (E : nth 0 (map (fun k => Cmul (RtoC 0) (amplitude_at n ft k (fun _ => C1))) (seq 0 n)) C0 = nth 0 (map (fun k => Cmul (RtoC 1) (amplitude_at n ft k (fun _ => C1))) (seq 0 n)) C0) by (rewrite TS; reflexivity).
    rewrite (nth_map_seq n (fun k => Cmul (RtoC 0) (amplitude_at n ft k (fun _ => C1)))), (nth_map_seq n (fun k => Cmul (RtoC 1) (amplitude_at n ft k (fun _ => C1)))) in E by exact Hn.
    assert (A : amplitude_at n ft 0 (fun _ => C1) = RtoC (INR n)).
    { unfold amplitude_at. rewrite (gt_zero n ft (ut_good n ft UT)) by apply map_seq_length. clear. generalize 0%nat. induction n as [|n IH]; intros a; cbn [seq map Csum]; [reflexivity|].
      rewrite IH, S_INR. csolve. }
    rewrite A in E. apply (f_equal Re) in E. unfold Cmul, RtoC in E. cbn [Re Im fst snd] in E. assert (0 < INR n) by (apply lt_0_INR; exact Hn). lra.
Qed.
