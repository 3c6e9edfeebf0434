(** Properties C89 - C90: models whose equations are linear in their own field. *)
From Verif Require Import ListAux FileModel ParseProofs StepProofs ConserveProofs EquationProps RegistryProps SimProps.
From Verif Require Import SimProofs SimProofs2 SimProofs3 SimProofs4 SimProofs5 SimProofs6 LinearProofs LinearProofs2 LinearProofs3 DftProofs.
From Verif Require Import DftSpec LinearSpec.
From Coq Require Import Permutation Lia Lra.
Open Scope nat_scope.

(** ** C89 *)

(** What is written on the right-hand side of a linear equation is its symbol
    times the amplitude of the field. *)
Theorem C89_symbol : forall L cs n ft lib fields E t i q k M d, linear_equation L q -> nth_error (l_fields L) i = Some (q_field q) ->
  Forall (fun x => length x = n) fields -> nth_error fields i = Some d -> written L cs n ft lib fields E t q k M ->
  M = Cmul (symbol L lib (tfreq ft k) q) (nth k (fft ft d) C0).
Proof. intros L cs n ft lib fields E t i q k M d Hl Hi Ha Hd HW. exact (linear_written L cs n ft lib fields E t q k M d i Ha Hl Hi Hd HW). Qed.
Print Assumptions C89_symbol.

(** Any number of Euler steps: every Fourier amplitude [Y] of every field
    becomes [Y'] with (1 - dt s)^steps Y' = Y, where [s] is the symbol of its
    equation. *)
Theorem C89_euler_closed_form : forall L cs es m, linear_model L cs es -> run_calls new_mstate (cs ++ [CInit]) = Ok m ->
  forall n ft lib, good_library L n lib -> good_transform n ft ->
  forall dt steps step e, fits L n m e ->
  exists e', euler_propagate (simulation n ft lib m) ft None dt steps step e = Some (e', step + steps) /\ fits L n m e'
    /\ forall i q k, nth_error es i = Some q -> k < n ->
       let factor := Csub C1 (Cmul (RtoC dt) (symbol L lib (tfreq ft k) q)) in
       factor <> C0 -> Cmul (Cpow factor steps) (mode ft e' i k) = mode ft e i k.
Proof.
  intros L cs es m LM Em n ft lib GL GT dt steps step e Hf. destruct (euler_many L cs es LM m Em n ft lib GL GT dt steps step e Hf) as (e' & E & HM).
  exists e'. split; [exact E|]. split; [exact (many_fits L es m n ft lib dt steps e e' Hf HM)|].
  intros i q k Hq Hk factor Hz. exact (many_closed L es m n ft lib dt i q k Hq Hk Hz steps e e' HM).
Qed.
Print Assumptions C89_euler_closed_form.

(** Any number of Runge-Kutta steps gives the same: the implicit part of an
    equation is treated by implicit Euler in both. *)
Theorem C89_rk4_closed_form : forall L cs es m, linear_model L cs es -> run_calls new_mstate (cs ++ [CInit]) = Ok m ->
  forall n ft lib, good_library L n lib -> good_transform n ft ->
  forall dt steps step e, fits L n m e ->
  exists e', rk4_propagate (simulation n ft lib m) ft None dt steps step e = Some (e', step + steps) /\ fits L n m e'
    /\ forall i q k, nth_error es i = Some q -> k < n ->
       let factor := Csub C1 (Cmul (RtoC dt) (symbol L lib (tfreq ft k) q)) in
       factor <> C0 -> Cmul (Cpow factor steps) (mode ft e' i k) = mode ft e i k.
Proof.
  intros L cs es m LM Em n ft lib GL GT dt steps step e Hf. destruct (rk4_many L cs es LM m Em n ft lib GL GT dt steps step e Hf) as (e' & E & HM).
  exists e'. split; [exact E|]. split; [exact (many_fits L es m n ft lib dt steps e e' Hf HM)|].
  intros i q k Hq Hk factor Hz. exact (many_closed L es m n ft lib dt i q k Hq Hk Hz steps e e' HM).
Qed.
Print Assumptions C89_rk4_closed_form.

(** *** Diffusion of conc, diffusion and decay of eta *)
Definition Ld : lang :=
  {| l_fields := [lit "conc"; lit "eta"]; l_functions := []; l_scalars := [lit "diff"; lit "rate"]; l_implicit := []; l_explicit := []; l_mixed := [] |}.
Definition diff_calls : list call :=
  [CField (lit "conc"); CField (lit "eta"); CScalar (lit "diff"); CScalar (lit "rate");
   CEquation (lit "dconc/dt = diff*LAP conc"); CEquation (lit "deta/dt = diff*LAP eta - rate*eta")].
Definition diff_eqs : list eqtext :=
  [{| q_field := lit "conc"; q_lead := None; q_first := IProduct [plainw "diff" None; lapw "conc" None]; q_more := [] |};
   {| q_field := lit "eta"; q_lead := None; q_first := IProduct [plainw "diff" None; lapw "eta" None];
      q_more := [(minus_c, IProduct [plainw "rate" None; plainw "eta" None])] |}].
Definition diff_state : mstate := match run_calls new_mstate (diff_calls ++ [CInit]) with Ok m => m | _ => new_mstate end.

Lemma diff_declared : declared Ld diff_calls diff_eqs.
Proof.
  constructor.
  - good_language.
  - split; [reflexivity|]. intros n. cbn. tauto.
  - exists (firstn 4 diff_calls), (skipn 4 diff_calls). split; [reflexivity|]. split; [|split].
    + intros c H. cbn in H. repeat (destruct H as [<-|H]; [exact (fun x => x)|]). destruct H.
    + intros c H. cbn in H. repeat (destruct H as [<-|H]; [exact (fun x => x)|]). destruct H.
    + discriminate.
  - intros b a eq s E. unfold diff_calls in E.
    do 6 (destruct b as [|? b]; [discriminate E|injection E as <- E]). destruct b; discriminate E.
  - cbn. intuition discriminate.
  - intros k name t ds H. cbn in H. intuition discriminate.
  - constructor; [reflexivity|]. constructor; [reflexivity|constructor].
  - constructor; [|constructor; [|constructor]]; (split; [cbn; auto|]); (split; [discriminate|]); split.
    + split; [exists [], [lapw "conc" None], [plainw "diff" None]; good_prod|vm_compute; intuition discriminate].
    + constructor.
    + split; [exists [], [lapw "eta" None], [plainw "diff" None]; good_prod|vm_compute; intuition discriminate].
    + constructor; [|constructor]. split; [right; reflexivity|]. cbn [snd].
      split; [exists [], [plainw "eta" None], [plainw "rate" None]; good_prod|vm_compute; intuition discriminate].
Qed.
Lemma diff_linear : linear_model Ld diff_calls diff_eqs.
Proof.
  constructor; [exact diff_declared| | |reflexivity].
  - repeat constructor.
  - constructor; [|constructor; [|constructor]].
    + constructor; [|constructor]. eexists. split; [reflexivity|]. reflexivity.
    + constructor; [|constructor; [|constructor]]; (eexists; split; [reflexivity|]); reflexivity.
Qed.
Lemma diff_run : run_calls new_mstate (diff_calls ++ [CInit]) = Ok diff_state.
Proof. vm_compute. reflexivity. Qed.
Definition diff_env : env := {| e_fields := [[C1; C0; C0; C0; C0; C0]; [C1; C0; C1; C0; C0; C0]]; e_derived := [] |}.

Example C89_nonvacuous : linear_model Ld diff_calls diff_eqs /\ run_calls new_mstate (diff_calls ++ [CInit]) = Ok diff_state
  /\ good_library Ld 6 (no_library 6 keep) /\ good_transform 6 (fftw_transform [2; 3]%Z) /\ fits Ld 6 diff_state diff_env
  /\ forall k, symbol Ld (no_library 6 keep) (tfreq (fftw_transform [2; 3]%Z) k) (nth 1 diff_eqs (hd eq1 diff_eqs))
               = RtoC (lap_symbol (tfreq (fftw_transform [2; 3]%Z) k) - 1).
Proof.
  split; [exact diff_linear|]. split; [exact diff_run|]. split; [exact (no_library_good Ld 6 keep eq_refl)|].
  split; [apply (fftw_good [2; 3]%Z); repeat constructor|]. split; [split; [reflexivity|split; [repeat constructor|reflexivity]]|].
  intros k. unfold symbol. cbn [nth diff_eqs signed_items q_first q_lead q_more map Csum fst snd item_symbol].
  change (scalar_factors Ld [plainw "diff" None; lapw "eta" None]) with [fac "diff" None].
  change (scalar_factors Ld [plainw "rate" None; plainw "eta" None]) with [fac "rate" None].
  cbn [product_value no_library lb_pow lb_scalar sign_value total_power plainw lapw wf_op oper_power Nat.add pow]. unfold keep.
  change (Ascii.eqb minus_c minus_c) with true. csolve.
Qed.

(** *** The order of the Runge-Kutta scheme *)
Definition Lr : lang :=
  {| l_fields := [lit "conc"]; l_functions := []; l_scalars := [lit "rate"]; l_implicit := []; l_explicit := []; l_mixed := [] |}.
Definition rate_calls : list call := [CField (lit "conc"); CScalar (lit "rate"); CEquation (lit "dconc/dt = -rate*conc")].
Definition rate_eqs : list eqtext :=
  [{| q_field := lit "conc"; q_lead := Some minus_c; q_first := IProduct [plainw "rate" None; plainw "conc" None]; q_more := [] |}].
Definition rate_state : mstate := match run_calls new_mstate (rate_calls ++ [CInit]) with Ok m => m | _ => new_mstate end.
Lemma rate_declared : declared Lr rate_calls rate_eqs.
Proof.
  constructor.
  - good_language.
  - split; [reflexivity|]. intros n. cbn. tauto.
  - exists (firstn 2 rate_calls), (skipn 2 rate_calls). split; [reflexivity|]. split; [|split].
    + intros c H. cbn in H. repeat (destruct H as [<-|H]; [exact (fun x => x)|]). destruct H.
    + intros c H. cbn in H. repeat (destruct H as [<-|H]; [exact (fun x => x)|]). destruct H.
    + discriminate.
  - intros b a eq s E. unfold rate_calls in E.
    do 3 (destruct b as [|? b]; [discriminate E|injection E as <- E]). destruct b; discriminate E.
  - cbn. intuition discriminate.
  - intros k name t ds H. cbn in H. intuition discriminate.
  - constructor; [reflexivity|constructor].
  - constructor; [|constructor]. split; [cbn; auto|]. split; [intros c E; injection E as <-; right; reflexivity|]. split; [|constructor].
    split; [exists [], [plainw "conc" None], [plainw "rate" None]; good_prod|vm_compute; intuition discriminate].
Qed.
Lemma rate_linear : linear_model Lr rate_calls rate_eqs.
Proof.
  constructor; [exact rate_declared| | |reflexivity].
  - repeat constructor.
  - constructor; [|constructor]. constructor; [|constructor]. eexists. split; [reflexivity|]. reflexivity.
Qed.

(** dconc/dt = -rate*conc with rate = 1 and amplitude 1: the solution is
    exp(-h) after the time h, and one Runge-Kutta step of size h is off by at
    least h^2/18 for every h up to 1, so its error per step is of second order
    (a scheme of order four has errors below C h^5). *)
Theorem C89_rk4_order_refuted : exists L cs es m n ft lib e k, linear_model L cs es /\ run_calls new_mstate (cs ++ [CInit]) = Ok m
  /\ good_library L n lib /\ good_transform n ft /\ fits L n m e /\ k < n /\ mode ft e 0 k = C1
  /\ (forall q, nth_error es 0 = Some q -> symbol L lib (tfreq ft k) q = RtoC (-1))
  /\ (forall h t, (0 < h <= 1)%R -> exists e', rk4_step (simulation n ft lib m) ft None h t e = Some e'
        /\ (h ^ 2 / 18 <= Re (mode ft e' 0 k) - exp (- h))%R)
  /\ ~ exists c, forall h t e', (0 < h <= 1)%R -> rk4_step (simulation n ft lib m) ft None h t e = Some e' ->
         (Rabs (Re (mode ft e' 0 k) - exp (- h)) <= c * h ^ 3)%R.
Proof.
  exists Lr, rate_calls, rate_eqs, rate_state, 2, ft2, (no_library 2 keep), {| e_fields := [[C1; C0]]; e_derived := [] |}, 0.
  assert (GL := no_library_good Lr 2 keep eq_refl).
  assert (Em : run_calls new_mstate (rate_calls ++ [CInit]) = Ok rate_state) by (vm_compute; reflexivity).
  assert (Hf : fits Lr 2 rate_state {| e_fields := [[C1; C0]]; e_derived := [] |}) by (split; [reflexivity|split; [repeat constructor|reflexivity]]).
  assert (Hm : mode ft2 {| e_fields := [[C1; C0]]; e_derived := [] |} 0 0 = C1) by (unfold mode; cbn [e_fields nth ft2 fft]; csolve).
  assert (Hs : forall q, nth_error rate_eqs 0 = Some q -> symbol Lr (no_library 2 keep) (tfreq ft2 0) q = RtoC (-1)).
  { intros q Hq. injection Hq as <-. unfold symbol. cbn [signed_items q_first q_lead q_more map Csum fst snd item_symbol].
    change (scalar_factors Lr [plainw "rate" None; plainw "conc" None]) with [fac "rate" None].
    cbn [product_value no_library lb_pow lb_scalar sign_value total_power plainw wf_op oper_power Nat.add pow]. unfold keep.
    change (Ascii.eqb minus_c minus_c) with true. csolve. }
  assert (HH : forall h t, (0 < h <= 1)%R -> exists e', rk4_step (simulation 2 ft2 (no_library 2 keep) rate_state) ft2 None h t {| e_fields := [[C1; C0]]; e_derived := [] |} = Some e'
        /\ (h ^ 2 / 18 <= Re (mode ft2 e' 0 0) - exp (- h))%R).
  { intros h t Hh. destruct (linear_rk4 Lr rate_calls rate_eqs rate_linear rate_state Em 2 ft2 (no_library 2 keep) GL ft2_good h t _ Hf) as (e' & E' & _ & HS).
    exists e'. split; [exact E'|]. rewrite (HS 0 _ 0 eq_refl ltac:(lia)), Hm, (Hs _ eq_refl).
    assert (ED : Re (Cdiv C1 (Csub C1 (Cmul (RtoC h) (RtoC (-1))))) = (/ (1 + h))%R).
    { unfold Cdiv, Cinv, Cnorm2, Csub, Cmul, RtoC, C1, Re, Im. cbn [fst snd]. field; nra. }
    rewrite ED. apply euler_error, Hh. }
  split; [exact rate_linear|]. split; [exact Em|]. split; [exact GL|]. split; [exact ft2_good|]. split; [exact Hf|]. split; [lia|]. split; [exact Hm|].
  split; [exact Hs|]. split; [exact HH|]. intros (c & HC).
  set (h := (/ (Rabs c * 18 + 1))%R). assert (Hc := Rabs_pos c).
  assert (Hh : (0 < h <= 1)%R).
  { unfold h. split; [apply Rinv_0_lt_compat; lra|]. rewrite <- Rinv_1. apply Rinv_le_contravar; lra. }
  destruct (HH h 0%R Hh) as (e' & E' & HL). specialize (HC h 0%R e' Hh E'). assert (HA := Rle_abs (Re (mode ft2 e' 0 0) - exp (- h))).
  assert (HB : (h ^ 2 / 18 <= c * h ^ 3)%R) by lra.
  assert (Hi : (h * (Rabs c * 18 + 1) = 1)%R) by (unfold h; field; lra).
  assert (Hcc := Rle_abs c). assert (H3 : (c * h ^ 3 <= Rabs c * h ^ 3)%R) by (apply Rmult_le_compat_r; [apply pow_le; lra|exact Hcc]).
  assert (H4 : (Rabs c * h ^ 3 = h ^ 2 / 18 * (1 - h))%R) by (replace (Rabs c * h ^ 3)%R with (h ^ 2 * (h * (Rabs c * 18 + 1) - h) / 18)%R by field; rewrite Hi; field).
  assert (H5 : (0 < h ^ 2)%R) by nra. nra.
Qed.
Print Assumptions C89_rk4_order_refuted.

(** ** C90 *)

(** Whatever the step size: if the symbol has a real part of at most -c, the
    sum of the squares of the field over the nodes is at most its initial value divided by
    (1 + dt c)^(2 steps), for Euler and Runge-Kutta steps.  With c = 0: it never
    grows. *)
Theorem C90_never_grows : forall L cs es m, linear_model L cs es -> run_calls new_mstate (cs ++ [CInit]) = Ok m ->
  forall n ft lib, good_library L n lib -> unitary_transform n ft -> 0 < n ->
  forall propagate, propagate = euler_propagate \/ propagate = rk4_propagate ->
  forall c dt i q, (0 <= c)%R -> (0 < dt)%R -> nth_error es i = Some q ->
  (forall k, k < n -> (Re (symbol L lib (tfreq ft k) q) <= - c)%R) ->
  forall steps step e, fits L n m e ->
  exists e' d d', propagate (simulation n ft lib m) ft None dt steps step e = Some (e', step + steps)
    /\ nth_error (e_fields e) i = Some d /\ nth_error (e_fields e') i = Some d'
    /\ ((1 + dt * c) ^ (2 * steps) * energy d' <= energy d)%R.
Proof.
  intros L cs es m LM Em n ft lib GL UT Hn propagate HP c dt i q Hc Hdt Hq Hs steps step e Hf. assert (GT := ut_good n ft UT).
  assert (HE : exists e', propagate (simulation n ft lib m) ft None dt steps step e = Some (e', step + steps) /\ many_steps L es m n ft lib dt steps e e').
  { destruct HP as [-> | ->]; [apply (euler_many L cs es LM)|apply (rk4_many L cs es LM)]; assumption. }
  destruct HE as (e' & E & HM). destruct (many_energy L cs es LM m n ft lib c dt i q UT Hn Hc Hdt Hq Hs steps e e' Hf HM) as (d & d' & Hd & Hd' & H).
  exists e', d, d'. repeat split; assumption.
Qed.
Print Assumptions C90_never_grows.

(** If every term of the equation carries a Laplacian, the average of the field
    is kept. *)
Theorem C90_average_kept : forall L cs es m, linear_model L cs es -> run_calls new_mstate (cs ++ [CInit]) = Ok m ->
  forall n ft lib, good_library L n lib -> good_transform n ft -> 0 < n ->
  forall propagate, propagate = euler_propagate \/ propagate = rk4_propagate ->
  forall dt i q, nth_error es i = Some q ->
  Forall (fun x => match fst x with IProduct t => 0 < total_power t | IUser _ _ => False end) (signed_items q) ->
  forall steps step e, fits L n m e ->
  exists e' d d', propagate (simulation n ft lib m) ft None dt steps step e = Some (e', step + steps)
    /\ nth_error (e_fields e) i = Some d /\ nth_error (e_fields e') i = Some d' /\ mean d' = mean d.
Proof.
  intros L cs es m LM Em n ft lib GL GT Hn propagate HP dt i q Hq Hs steps step e Hf.
  assert (HE : exists e', propagate (simulation n ft lib m) ft None dt steps step e = Some (e', step + steps) /\ many_steps L es m n ft lib dt steps e e').
  { destruct HP as [-> | ->]; [apply (euler_many L cs es LM)|apply (rk4_many L cs es LM)]; assumption. }
  destruct HE as (e' & E & HM).
  destruct (many_mean L cs es LM m n ft lib GT dt i q Hn Hq (conserved_symbol L n ft lib GT q Hs) steps e e' Hf HM) as (d & d' & Hd & Hd' & H).
  exists e', d, d'. repeat split; assumption.
Qed.
Print Assumptions C90_average_kept.

Lemma norm_sq_nonneg f : (0 <= norm_sq f)%R.
Proof. unfold norm_sq. induction f as [|x f IH]; cbn; [lra|]. nra. Qed.

(** conc keeps its average, the sum of the squares of eta decays at least like
    (1 + dt)^(-2 steps). *)
Example C90_nonvacuous : linear_model Ld diff_calls diff_eqs /\ run_calls new_mstate (diff_calls ++ [CInit]) = Ok diff_state
  /\ good_library Ld 6 (no_library 6 keep) /\ unitary_transform 6 (fftw_transform [2; 3]%Z) /\ fits Ld 6 diff_state diff_env
  /\ (exists q, nth_error diff_eqs 1 = Some q
      /\ forall k, k < 6 -> (Re (symbol Ld (no_library 6 keep) (tfreq (fftw_transform [2; 3]%Z) k) q) <= - (1))%R)
  /\ (exists q, nth_error diff_eqs 0 = Some q
      /\ Forall (fun x => match fst x with IProduct t => 0 < total_power t | IUser _ _ => False end) (signed_items q)).
Proof.
  destruct C89_nonvacuous as (H1 & H2 & H3 & H4 & H5 & H6). split; [exact H1|]. split; [exact H2|]. split; [exact H3|].
  split; [apply (fftw_unitary [2; 3]%Z); repeat constructor|]. split; [exact H5|]. split.
  - eexists. split; [reflexivity|]. intros k _. cbn [nth diff_eqs] in H6. rewrite H6. cbn [RtoC Re fst]. unfold lap_symbol.
    assert (Hn := norm_sq_nonneg (tfreq (fftw_transform [2; 3]%Z) k)). assert (HPI := PI_RGT_0). assert (0 <= 4 * PI * PI * norm_sq (tfreq (fftw_transform [2; 3]%Z) k))%R by (apply Rmult_le_pos; [nra|exact Hn]). lra.
  - eexists. split; [reflexivity|]. constructor; [|constructor]. cbn. lia.
Qed.
