(** Properties C107 - C108: runs with ImplicitEuler. *)
From Coq Require Import String.
From Verif Require Import ListAux FileModel ParseProofs StepProofs ConserveProofs EquationProps RegistryProps SddProofs DftSpec DftProofs RealSpec RealProofs RealProofs3 SimSpec SimProps StepProps LinearSpec LinearProps SaddleSpec EnergyProofs3.
From Verif Require Import ImplicitModel ImplicitSpec ImplicitProofs ImplicitProofs2 ImplicitProofs3 ImplicitProofs4 Vec CVec Complex.
From Coq Require Import Lia Lra.
Open Scope R_scope.
Local Open Scope string_scope.

Lemma nodes_pos dom : valid_domain dom -> (0 < nodes dom)%nat.
Proof. intros Hv. unfold nodes. pose proof (IndexProofs.num_nodes_pos dom (proj2 Hv)). lia. Qed.

(** ** C107 *)

(** The problem ImplicitEuler hands to the solver for a linear model with real
    fields: its residual at [x] is the difference of [x] and the exact solution
    of the equations after one time step.  So its only zero is the exact
    solution, and the residual left by the solver is the error of the step. *)
Theorem C107_problem : forall L cs es m, linear_model L cs es -> run_calls new_mstate (cs ++ [CInit]) = Ok m ->
  forall dom lib rate, let n := nodes dom in let ft := fftw_transform dom in valid_domain dom -> square_layout dom -> good_library L n lib ->
  (forall i q, nth_error es i = Some q -> real_symbols L lib n ft q (rate i)) ->
  forall filt dt t e, 0 < dt -> fits L n m e -> real_fields dom (e_fields e) ->
  exists F x0 e2, ie_problem (simulation n ft lib m) ft filt dt t e = Some (F, x0, e2) /\ length x0 = length (values (e_fields e))
    /\ forall x, length x = length x0 -> F x = Some (minus x (values (evolved_fields n ft dt rate 0 (e_fields e)))).
Proof.
  intros L cs es m LM Em dom lib rate n ft Hv Hsq GL RS filt dt t e _ Hf Hr.
  destruct (linear_problem L cs es m dom lib rate LM Em Hv GL RS filt dt t e (nodes_pos dom Hv) Hf Hr) as (F & x0 & e2 & E & Lx & _ & HF). exists F, x0, e2. auto.
Qed.
Print Assumptions C107_problem.

(** With a solver that finds zeros any number of steps gives the exact
    solution: every amplitude is multiplied by exp(steps dt rate). *)
Theorem C107_exact_run : forall L cs es m, linear_model L cs es -> run_calls new_mstate (cs ++ [CInit]) = Ok m ->
  forall dom lib rate, let n := nodes dom in let ft := fftw_transform dom in valid_domain dom -> square_layout dom -> good_library L n lib ->
  (forall i q, nth_error es i = Some q -> real_symbols L lib n ft q (rate i)) ->
  forall solve filt dt, 0 < dt ->
  (forall t e F x0 e2, fits L n m e -> real_fields dom (e_fields e) -> ie_problem (simulation n ft lib m) ft filt dt t e = Some (F, x0, e2) -> finds_zero solve F x0) ->
  forall steps step e, fits L n m e -> real_fields dom (e_fields e) ->
  exists e', ie_propagate solve (simulation n ft lib m) ft filt dt steps step e = Some (e', (step + steps)%nat)
    /\ real_fields dom (e_fields e') /\ e_fields e' = evolved_fields n ft (INR steps * dt) rate 0 (e_fields e)
    /\ forall i k, (i < length es)%nat -> (k < n)%nat -> mode ft e' i k = Cmul (RtoC (exp (INR steps * dt * rate i k))) (mode ft e i k).
Proof.
  intros L cs es m LM Em dom lib rate n ft Hv Hsq GL RS solve filt dt _ Hs steps step e Hf Hr.
  destruct (exact_run L cs es m dom lib rate LM Em Hv Hsq GL RS (nodes_pos dom Hv) solve filt dt Hs steps step e Hf Hr) as (e' & E & Hf' & Hr' & EE).
  exists e'. split; [exact E|]. split; [exact Hr'|]. split; [exact EE|]. intros i k Hi Hk. unfold mode. rewrite EE.
  assert (Hc : length (e_fields e) = length es) by (destruct Hf as (-> & _); rewrite <- (lm_order _ _ _ LM), map_length; reflexivity).
  assert (N : forall fs i0 j, (j < length fs)%nat -> nth j (evolved_fields n ft (INR steps * dt) rate i0 fs) [] = evolved n ft (INR steps * dt) (rate (i0 + j)%nat) (nth j fs [])).
  { clear. induction fs as [|d fs IH]; intros i0 [|j] H; cbn [length evolved_fields nth] in *; try lia; [rewrite Nat.add_0_r; reflexivity|]. rewrite IH by lia. f_equal. f_equal. lia. }
  rewrite N by lia. cbn [Nat.add]. apply (evolved_mode dom Hv). exact Hk.
Qed.
Print Assumptions C107_exact_run.

(** With a solver that leaves residuals of length at most [tol], decaying
    equations and any time step, the error after [steps] steps is at most
    steps times [tol] ... *)
Theorem C107_error : forall L cs es m, linear_model L cs es -> run_calls new_mstate (cs ++ [CInit]) = Ok m ->
  forall dom lib rate, let n := nodes dom in let ft := fftw_transform dom in valid_domain dom -> square_layout dom -> good_library L n lib ->
  (forall i q, nth_error es i = Some q -> real_symbols L lib n ft q (rate i)) ->
  (forall i k, (i < length es)%nat -> (k < n)%nat -> rate i k <= 0) ->
  forall solve filt dt tol, 0 < dt -> 0 <= tol ->
  (forall t e F x0 e2, fits L n m e -> real_fields dom (e_fields e) -> ie_problem (simulation n ft lib m) ft filt dt t e = Some (F, x0, e2) -> solves_to tol solve F x0) ->
  forall steps step e, fits L n m e -> real_fields dom (e_fields e) ->
  exists e', ie_propagate solve (simulation n ft lib m) ft filt dt steps step e = Some (e', (step + steps)%nat)
    /\ vnorm (minus (values (e_fields e')) (values (evolved_fields n ft (INR steps * dt) rate 0 (e_fields e)))) <= INR steps * tol.
Proof.
  intros L cs es m LM Em dom lib rate n ft Hv Hsq GL RS Hneg solve filt dt tol Hdt Htol Hs steps step e Hf Hr.
  destruct (error_run L cs es m dom lib rate LM Em Hv Hsq GL RS (nodes_pos dom Hv) solve filt dt (Rlt_le _ _ Hdt) Hneg tol Htol Hs steps step e Hf Hr) as (e' & E & _ & _ & H). exists e'. auto.
Qed.
Print Assumptions C107_error.

(** ... and the fields grow by no more than that: the scheme is stable for all
    time steps. *)
Theorem C107_stable : forall L cs es m, linear_model L cs es -> run_calls new_mstate (cs ++ [CInit]) = Ok m ->
  forall dom lib rate, let n := nodes dom in let ft := fftw_transform dom in valid_domain dom -> square_layout dom -> good_library L n lib ->
  (forall i q, nth_error es i = Some q -> real_symbols L lib n ft q (rate i)) ->
  (forall i k, (i < length es)%nat -> (k < n)%nat -> rate i k <= 0) ->
  forall solve filt dt tol, 0 < dt -> 0 <= tol ->
  (forall t e F x0 e2, fits L n m e -> real_fields dom (e_fields e) -> ie_problem (simulation n ft lib m) ft filt dt t e = Some (F, x0, e2) -> solves_to tol solve F x0) ->
  forall steps step e, fits L n m e -> real_fields dom (e_fields e) ->
  exists e', ie_propagate solve (simulation n ft lib m) ft filt dt steps step e = Some (e', (step + steps)%nat)
    /\ vnorm (values (e_fields e')) <= vnorm (values (e_fields e)) + INR steps * tol.
Proof.
  intros L cs es m LM Em dom lib rate n ft Hv Hsq GL RS Hneg solve filt dt tol Hdt Htol Hs steps step e Hf Hr.
  exact (stable_run L cs es m dom lib rate LM Em Hv Hsq GL RS (nodes_pos dom Hv) solve filt dt (Rlt_le _ _ Hdt) Hneg tol Htol Hs steps step e Hf Hr).
Qed.
Print Assumptions C107_stable.

(** A solver as required exists for every linear model: a single fixed-point
    iteration x - F(x) from the initial guess. *)
Theorem C107_one_iteration_suffices : forall L cs es m, linear_model L cs es -> run_calls new_mstate (cs ++ [CInit]) = Ok m ->
  forall dom lib rate, let n := nodes dom in let ft := fftw_transform dom in valid_domain dom -> square_layout dom -> good_library L n lib ->
  (forall i q, nth_error es i = Some q -> real_symbols L lib n ft q (rate i)) ->
  forall filt dt t e F x0 e2, fits L n m e -> real_fields dom (e_fields e) -> ie_problem (simulation n ft lib m) ft filt dt t e = Some (F, x0, e2) ->
  finds_zero (fun F x0 => match F x0 with Some r => minus x0 r | None => x0 end) F x0.
Proof.
  intros L cs es m LM Em dom lib rate n ft Hv Hsq GL RS filt dt t e F x0 e2 Hf Hr EP.
  exact (iteration_solves L cs es m dom lib rate filt dt LM Em Hv Hsq GL RS (nodes_pos dom Hv) t e F x0 e2 Hf Hr EP).
Qed.
Print Assumptions C107_one_iteration_suffices.

(** Diffusion of conc, diffusion and decay of eta, on four nodes. *)
Notation dom4 := [4; 1]%Z.
Notation ft4 := (fftw_transform [4; 1]%Z).
Definition diff_rate (i k : nat) : R := match i with O => lap_symbol (tfreq ft4 k) | _ => lap_symbol (tfreq ft4 k) - 1 end.
Definition diff_env4 : env := {| e_fields := [[C1; C0; C0; C0]; [C1; C0; RtoC 2; C0]]; e_derived := [] |}.
Example C107_nonvacuous : linear_model Ld diff_calls diff_eqs /\ run_calls new_mstate (diff_calls ++ [CInit]) = Ok diff_state
  /\ valid_domain dom4 /\ square_layout dom4 /\ good_library Ld (nodes dom4) (no_library 4 keep)
  /\ (forall i q, nth_error diff_eqs i = Some q -> real_symbols Ld (no_library 4 keep) (nodes dom4) ft4 q (diff_rate i))
  /\ (forall i k, (i < length diff_eqs)%nat -> (k < nodes dom4)%nat -> diff_rate i k <= 0)
  /\ fits Ld (nodes dom4) diff_state diff_env4 /\ real_fields dom4 (e_fields diff_env4)
  /\ (forall filt dt t e F x0 e2, fits Ld (nodes dom4) diff_state e -> real_fields dom4 (e_fields e) ->
        ie_problem (simulation (nodes dom4) ft4 (no_library 4 keep) diff_state) ft4 filt dt t e = Some (F, x0, e2) ->
        finds_zero one_iteration F x0 /\ solves_to 0 one_iteration F x0).
Proof.
  assert (RS : forall i q, nth_error diff_eqs i = Some q -> real_symbols Ld (no_library 4 keep) (nodes dom4) ft4 q (diff_rate i)).
  { intros [|[|i]] q H; [| |destruct i; discriminate]; injection H as <-; intros k _; unfold symbol; cbn [signed_items q_first q_lead q_more map Csum fst snd item_symbol].
    - change (scalar_factors Ld [plainw "diff" None; lapw "conc" None]) with [fac "diff" None].
      cbn [product_value no_library lb_pow lb_scalar sign_value total_power plainw lapw wf_op oper_power Nat.add pow diff_rate]. unfold keep. csolve.
    - change (scalar_factors Ld [plainw "diff" None; lapw "eta" None]) with [fac "diff" None].
      change (scalar_factors Ld [plainw "rate" None; plainw "eta" None]) with [fac "rate" None].
      cbn [product_value no_library lb_pow lb_scalar sign_value total_power plainw lapw wf_op oper_power Nat.add pow diff_rate]. unfold keep.
      change (Ascii.eqb minus_c minus_c) with true. csolve. }
  assert (GL : good_library Ld (nodes dom4) (no_library 4 keep)) by exact (no_library_good Ld 4 keep eq_refl).
  split; [exact diff_linear|]. split; [exact diff_run|]. split; [exact valid41|]. split; [exact I|]. split; [exact GL|]. split; [exact RS|].
  split. { intros [|i] k _ _; cbn [diff_rate]; assert (H := lap_symbol_nonpos (tfreq ft4 k)); lra. }
  split; [split; [reflexivity|split; [repeat constructor|reflexivity]]|]. split; [repeat constructor|].
  intros filt dt t e F x0 e2 Hf Hr EP.
  assert (Z := C107_one_iteration_suffices Ld diff_calls diff_eqs diff_state diff_linear diff_run dom4 (no_library 4 keep) diff_rate valid41 I GL RS filt dt t e F x0 e2 Hf Hr EP).
  split; [exact Z|]. destruct Z as [Z1 Z2]. split; [exact Z1|]. intros out E. rewrite (vnorm_zeros out (Z2 out E)). apply Rle_refl.
Qed.

(** ** C108 *)

(** One step of any model changes the total of a conserved field by exactly
    the sum of the residual the solver leaves on that field. *)
Theorem C108_step : forall n p ft filt dt i, (0 < n)%nat -> good_transform n ft -> keeps_length n p -> conserved n p i ->
  forall solve t e, all_length n (e_fields e) -> (length (e_fields e) <= length (p_eqns p))%nat -> (i < length (e_fields e))%nat ->
  (forall F x0 e2, ie_problem p ft filt dt t e = Some (F, x0, e2) -> length (solve F x0) = length x0) ->
  exists F x0 e2 e' out, ie_problem p ft filt dt t e = Some (F, x0, e2) /\ ie_step solve p ft filt dt t e = Some e' /\ F (solve F x0) = Some out
    /\ field_total e' i = field_total e i + total (part n i out).
Proof.
  intros n p ft filt dt i Hn G KL CO solve t e He Hq Hi Hs.
  destruct (ie_step_total n p ft filt dt i Hn G KL CO solve t e He Hq Hi Hs) as (F & x0 & e2 & e' & out & H1 & H2 & H3 & _ & _ & H4). exists F, x0, e2, e', out. auto.
Qed.
Print Assumptions C108_step.

(** In a run the total drifts by at most steps times the largest of these
    sums; a solver that finds zeros conserves it. *)
Theorem C108_run : forall n p ft filt dt i, (0 < n)%nat -> good_transform n ft -> keeps_length n p -> conserved n p i ->
  forall solve tol,
  (forall t e F x0 e2, all_length n (e_fields e) -> (length (e_fields e) <= length (p_eqns p))%nat -> (i < length (e_fields e))%nat ->
     ie_problem p ft filt dt t e = Some (F, x0, e2) -> balances_to n i tol solve F x0) ->
  forall steps step e, all_length n (e_fields e) -> (length (e_fields e) <= length (p_eqns p))%nat -> (i < length (e_fields e))%nat ->
  exists e', ie_propagate solve p ft filt dt steps step e = Some (e', (step + steps)%nat)
    /\ Rabs (field_total e' i - field_total e i) <= INR steps * tol.
Proof.
  intros n p ft filt dt i Hn G KL CO solve tol Hs steps step e He Hq Hi.
  destruct (ie_run_total n p ft filt dt i Hn G KL CO solve tol Hs steps step e He Hq Hi) as (e' & E & _ & _ & H). exists e'. auto.
Qed.
Print Assumptions C108_run.
Theorem C108_zero_conserves : forall n p ft filt dt i, (0 < n)%nat -> good_transform n ft -> keeps_length n p -> conserved n p i ->
  forall solve,
  (forall t e F x0 e2, all_length n (e_fields e) -> (length (e_fields e) <= length (p_eqns p))%nat -> (i < length (e_fields e))%nat ->
     ie_problem p ft filt dt t e = Some (F, x0, e2) -> finds_zero solve F x0) ->
  forall steps step e, all_length n (e_fields e) -> (length (e_fields e) <= length (p_eqns p))%nat -> (i < length (e_fields e))%nat ->
  exists e', ie_propagate solve p ft filt dt steps step e = Some (e', (step + steps)%nat) /\ field_total e' i = field_total e i.
Proof.
  intros n p ft filt dt i Hn G KL CO solve Hs steps step e He Hq Hi.
  destruct (C108_run n p ft filt dt i Hn G KL CO solve 0) with (2 := He) (steps := steps) (step := step) as (e' & E & H); try assumption.
  - intros t e1 F x0 e2 H1 H2 H3 EP. destruct (Hs t e1 F x0 e2 H1 H2 H3 EP) as [L1 Z]. split; [exact L1|]. intros out EO. specialize (Z out EO).
    replace (total (part n i out)) with 0; [rewrite Rabs_R0; apply Rle_refl|].
    assert (P : Forall (fun r => r = 0) (part n i out)).
    { unfold part. rewrite Forall_forall in *. intros x Hx. apply Z. rewrite <- (firstn_skipn (i * n) out). apply in_or_app. right.
      rewrite <- (firstn_skipn n (skipn (i * n) out)). apply in_or_app. left. exact Hx. }
    clear - P. induction P as [|a l Ha _ IH]; cbn [total]; [reflexivity|]. rewrite <- IH, Ha. ring.
  - exists e'. split; [exact E|]. rewrite Rmult_0_r in H. assert (HH := Rabs_pos (field_total e' i - field_total e i)).
    assert (Z : Rabs (field_total e' i - field_total e i) = 0) by lra. destruct (Req_dec (field_total e' i - field_total e i) 0) as [Q|Q]; [lra|]. apply Rabs_no_R0 in Q. contradiction.
Qed.
Print Assumptions C108_zero_conserves.

(** The initial guess already has the right total, so a solver that gives up
    at once conserves it too. *)
Theorem C108_guess_balances : forall n p ft filt dt i, (0 < n)%nat -> good_transform n ft -> keeps_length n p -> conserved n p i -> keeps_zero filt ->
  forall t e F x0 e2, all_length n (e_fields e) -> (length (e_fields e) <= length (p_eqns p))%nat -> (i < length (e_fields e))%nat ->
  ie_problem p ft filt dt t e = Some (F, x0, e2) -> balances_to n i 0 (fun _ x => x) F x0.
Proof. exact guess_balances. Qed.
Print Assumptions C108_guess_balances.

(** A Cahn-Hilliard model with a derived field (C24). *)
Example C108_nonvacuous : good_transform 2 ft2 /\ keeps_length 2 pde2 /\ conserved 2 pde2 0 /\ keeps_zero (Some (fun x => 1 - x))
  /\ all_length 2 (e_fields env2) /\ (length (e_fields env2) <= length (p_eqns pde2))%nat /\ (0 < length (e_fields env2))%nat
  /\ (forall t e F x0 e2, all_length 2 (e_fields e) -> (length (e_fields e) <= length (p_eqns pde2))%nat -> (0 < length (e_fields e))%nat ->
        ie_problem pde2 ft2 None (/ 10) t e = Some (F, x0, e2) -> balances_to 2 0 0 (fun _ x => x) F x0).
Proof.
  split; [exact ft2_good|]. split; [exact pde2_lengths|]. split; [exact pde2_conserved|]. split; [cbn; ring|]. split; [repeat constructor|]. split; [cbn; lia|]. split; [cbn; lia|].
  intros t e F x0 e2. exact (C108_guess_balances 2 pde2 ft2 None (/ 10) 0 ltac:(lia) ft2_good pde2_lengths pde2_conserved I t e F x0 e2).
Qed.
