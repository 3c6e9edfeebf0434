(** Properties C104 - C105: saddle searches of models with one field. *)
From Verif Require Import ListAux FileModel ParseProofs EquationProofs EquationProps SimProofs SimProofs5 SimProps StepProofs SddProofs DftProofs RealProofs3 LinearProofs LinearProofs2 LinearProps FlowProps SaddleSpec SaddleProofs SaddleProofs2 SaddleProofs3 SaddleProofs4 SaddleProofs5 Vec CVec Complex.
From Coq Require Import Lra Lia.
Open Scope R_scope.

(** ** C104 *)

(** For a declared model with one field and the default weight 1/2: a step leaves
    the field exactly if the right-hand sides as written at both ends of the dimer
    cancel, and it leaves the orientation exactly if they differ by a multiple of
    the orientation (for a difference that is real in real space). *)
Theorem C104_rests : forall L cs q m, declared L cs [q] -> l_fields L = [q_field q] -> run_calls new_mstate (cs ++ [CInit]) = Ok m ->
  forall n ft lib, good_library L n lib -> field_independent cs lib -> unitary_transform n ft ->
  let p := simulation n ft lib m in
  forall s e F1 F2, searching n s e -> fits L n m e -> s_alpha s = / 2 ->
  (forall a, get_denum p (spectrum p ft e) 0 (sdd_time s) n = Some a -> regular_step n (s_dt s) (fft ft (map RtoC (s_orient s))) a) ->
  total_rhs L cs n ft lib p (sdd_time s) q (dimer_point s (- / 2) e) F1 ->
  total_rhs L cs n ft lib p (sdd_time s) q (dimer_point s (/ 2) e) F2 ->
  let D := to_real ft (map (fun k => Csub (F1 k) (F2 k)) (seq 0 n)) in
  exists s' e', sdd_step p ft s e = Some (s', e') /\ searching n s' e' /\ fits L n m e' /\ s_alpha s' = / 2
  /\ (e_fields e' = e_fields e <-> forall k, (k < n)%nat -> Cadd (F1 k) (F2 k) = C0)
  /\ ((forall j, (j < n)%nat -> Im (nth j D C0) = 0) ->
      (s_orient s' = s_orient s <-> exists lam, forall j, (j < n)%nat -> nth j D C0 = RtoC (lam * nth j (s_orient s) 0))).
Proof.
  intros L cs q m HD HL Em n ft lib GL FI U p s e F1 F2 Hs Hf Ha Hreg H1 H2 D.
  assert (Hf' := Hf). destruct Hf' as (G1 & _ & _). rewrite HL in G1. destruct (e_fields e) as [|y [|? ?]] eqn:Ey; try discriminate G1. rewrite <- Ey.
  exact (rests L cs q m HD HL Em n ft lib GL FI U s e y Hs Hf Ey F1 F2 Ha Hreg H1 H2).
Qed.
Print Assumptions C104_rests.

(** The right-hand sides at the ends exist. *)
Lemma total_exists L cs q m n ft lib p t e : declared L cs [q] -> run_calls new_mstate (cs ++ [CInit]) = Ok m -> exists F, total_rhs L cs n ft lib p t q e F.
Proof.
  intros HD Em. assert (H : forall k, exists M, written L cs n ft lib (e_fields e) (spectrum p ft e) t q k M) by (intros k; exact (written_exists L cs [q] m HD Em n ft lib _ t q k _)).
  assert (X : forall N, exists F, forall k, (k < N)%nat -> exists M, written L cs n ft lib (e_fields e) (spectrum p ft e) t q k M /\ F k = Cadd M (source_sum cs lib t 0 k)).
  { induction N as [|N [F HF]]; [exists (fun _ => C0); intros k Hk; lia|]. destruct (H N) as [M HM]. exists (fun k => if Nat.eqb k N then Cadd M (source_sum cs lib t 0 k) else F k). intros k Hk.
    destruct (Nat.eqb_spec k N) as [->|Hne]; [exists M; split; [exact HM|reflexivity]|apply HF; lia]. }
  exact (X n).
Qed.

(** ** C105 *)

(** In a linear model with real coefficients the orientation turns to the waves
    that grow fastest: relative to the share of such a wave, the shares of all
    other waves shrink by a constant factor in every step. *)
Theorem C105_orientation : forall L cs q m, linear_model L cs [q] -> run_calls new_mstate (cs ++ [CInit]) = Ok m ->
  forall dom lib sg, valid_domain dom -> square_layout dom ->
  let n := nodes dom in let ft := fftw_transform dom in let p := simulation n ft lib m in
  good_library L n lib -> real_symbols L lib n ft q sg ->
  forall k0 lo, (k0 < n)%nat -> (forall k, (k < n)%nat -> lo <= sg k <= sg k0) ->
  forall s e, searching n s e -> fits L n m e -> 0 < s_tau_orient s -> 0 < share n ft s k0 ->
  let h := s_dt s / s_tau_orient s in h * (sg k0 - lo) <= 1 ->
  forall N, exists s' e', sdd_run p ft N s e = Some (s', e') /\ searching n s' e' /\ fits L n m e' /\ 0 < share n ft s' k0
  /\ rsum n (share n ft s') = 1
  /\ forall k, (k < n)%nat -> let rho := 1 - h * (sg k0 - sg k) / (1 + h * (sg k0 - lo)) in
     share n ft s' k / share n ft s' k0 <= rho ^ (2 * N) * (share n ft s k / share n ft s k0).
Proof.
  intros L cs q m LM Em dom lib sg Hv Hsq n ft p GL RS k0 lo Hk0 Hsg s e Hs Hf Ht Hp h Hr N.
  destruct (ratio_run L cs q m dom lib sg LM Em Hv Hsq GL RS k0 lo Hk0 Hsg N s e Hs Hf Ht Hr Hp) as (s' & e' & E & Hs' & Hf' & _ & _ & R & P).
  exists s', e'. split; [exact E|]. split; [exact Hs'|]. split; [exact Hf'|]. split; [exact P|]. split; [exact (shares_one dom Hv s' e' Hs')|]. intros k Hk rho. specialize (R k Hk). fold n ft in R, P. unfold ratio in R. fold (rate_of s) in h. change (rate_of s) with h in R. fold rho in R.
  apply (Rmult_le_reg_r (share n ft s' k0 * share n ft s k0)); [apply Rmult_lt_0_compat; assumption|].
  replace (share n ft s' k / share n ft s' k0 * (share n ft s' k0 * share n ft s k0)) with (share n ft s' k * share n ft s k0) by (field; lra).
  replace (rho ^ (2 * N) * (share n ft s k / share n ft s k0) * (share n ft s' k0 * share n ft s k0)) with (rho ^ (2 * N) * (share n ft s k * share n ft s' k0)) by (field; lra). exact R.
Qed.
Print Assumptions C105_orientation.

(** If one wave grows and all others decay, the search converges to the saddle
    point, the field zero, and its orientation to the growing wave, from every
    field and every orientation that contains the wave. *)
Theorem C105_finds_the_saddle : forall L cs q m, linear_model L cs [q] -> run_calls new_mstate (cs ++ [CInit]) = Ok m ->
  forall dom lib sg, valid_domain dom -> square_layout dom ->
  let n := nodes dom in let ft := fftw_transform dom in let p := simulation n ft lib m in
  good_library L n lib -> real_symbols L lib n ft q sg ->
  forall k0 gam B, one_unstable n sg k0 gam B ->
  forall s e, searching n s e -> fits L n m e -> 0 < s_tau_orient s -> 0 < share n ft s k0 ->
  s_dt s * B < 1 -> s_dt s / s_tau_orient s * (2 * B) <= 1 ->
  forall eps, 0 < eps -> exists N0, forall N, (N0 <= N)%nat ->
  exists s' e', sdd_run p ft N s e = Some (s', e') /\ searching n s' e' /\ fits L n m e'
  /\ 1 - share n ft s' k0 < eps /\ energy (nth 0 (e_fields e') []) < eps.
Proof.
  intros L cs q m LM Em dom lib sg Hv Hsq n ft p GL RS k0 gam B OU s e Hs Hf Ht Hp H1 H2.
  exact (search_converges L cs q m dom lib sg LM Em Hv Hsq GL RS k0 gam B OU s e Hs Hf (Build_small B s Ht H1 H2) Hp).
Qed.
Print Assumptions C105_finds_the_saddle.

(** Time steps of the same model leave the saddle: the growing wave is multiplied
    by 1/(1 - dt sg) in every Euler step. *)
Theorem C105_time_steps_leave_it : forall L cs q m, linear_model L cs [q] -> run_calls new_mstate (cs ++ [CInit]) = Ok m ->
  forall n ft lib sg, good_library L n lib -> good_transform n ft -> real_symbols L lib n ft q sg ->
  forall k0 gam B, one_unstable n sg k0 gam B ->
  forall dt steps step e, 0 < dt -> dt * B < 1 -> fits L n m e ->
  exists e', euler_propagate (simulation n ft lib m) ft None dt steps step e = Some (e', (step + steps)%nat)
  /\ (1 + dt * gam) ^ (2 * steps) * Cnorm2 (mode ft e 0 k0) <= Cnorm2 (mode ft e' 0 k0).
Proof.
  intros L cs q m LM Em n ft lib sg GL GT RS k0 gam B OU dt steps step e Hdt HB Hf.
  destruct (C89_euler_closed_form L cs [q] m LM Em n ft lib GL GT dt steps step e Hf) as (e' & E & _ & HC). exists e'. split; [exact E|].
  assert (Hk0 := ou_node _ _ _ _ _ OU). specialize (HC 0%nat q k0 eq_refl Hk0). cbv zeta in HC. rewrite (RS k0 Hk0), <- RtoC_mul in HC. change C1 with (RtoC 1) in HC. rewrite <- RtoC_sub, <- RtoC_pow in HC.
  assert (Hg := ou_pos _ _ _ _ _ OU). assert (Hu := ou_up _ _ _ _ _ OU). assert (Hb := ou_bound _ _ _ _ _ OU k0 Hk0). assert (Hb' := Rle_abs (sg k0)).
  assert (X1 : dt * sg k0 <= dt * B) by (apply Rmult_le_compat_l; lra). assert (X2 : dt * gam <= dt * sg k0) by (apply Rmult_le_compat_l; lra). assert (X3 : 0 < dt * gam) by (apply Rmult_lt_0_compat; assumption).
  rewrite <- HC by (apply RtoC_neq0; lra). rewrite Cnorm2_mul, Cnorm2_RtoC. set (x := dt * sg k0) in *. set (g := dt * gam) in *. rewrite <- pow_add. replace (steps + steps)%nat with (2 * steps)%nat by lia.
  rewrite <- Rmult_assoc, <- Rpow_mult_distr. rewrite <- (Rmult_1_l (Cnorm2 (mode ft e' 0 k0))) at 2. apply Rmult_le_compat_r; [apply Cnorm2_nonneg|]. apply Rle_trans with (1 ^ (2 * steps)); [apply pow_incr|rewrite pow1; lra]. assert (X4 : 0 <= g * x) by (apply Rmult_le_pos; lra). split; [apply Rmult_le_pos; lra|]. replace ((1 + g) * (1 - x)) with (1 - x + g - g * x) by ring. lra.
Qed.
Print Assumptions C105_time_steps_leave_it.

(** ** Growth and diffusion on four nodes *)
Definition growth : string := "dconc/dt = conc + kap*LAP conc".
Definition growth_q : eqtext :=
  {| q_field := lit "conc"; q_lead := None; q_first := IProduct [plainw "conc" None]; q_more := [(plus_c, IProduct [plainw "kap" None; lapw "conc" None])] |}.
Lemma growth_declared : declared Lf (flow_calls growth) [growth_q].
Proof.
  flow_declared growth. constructor; [|constructor]. split; [cbn; auto|]. split; [discriminate|]. split.
  - split; [exists [], [plainw "conc" None], []; good_prod|vm_compute; intuition discriminate].
  - constructor; [|constructor]. split; [left; reflexivity|]. split; [exists [], [lapw "conc" None], [plainw "kap" None]; good_prod|vm_compute; intuition discriminate].
Qed.
Lemma growth_linear : linear_model Lf (flow_calls growth) [growth_q].
Proof.
  constructor; [exact growth_declared|repeat constructor| |reflexivity].
  constructor; [|constructor]. constructor; [|constructor; [|constructor]]; (eexists; split; [reflexivity|]); reflexivity.
Qed.
Lemma growth_run : run_calls new_mstate (flow_calls growth ++ [CInit]) = Ok (flow_state growth).
Proof. vm_compute. reflexivity. Qed.
Notation ft4 := (fftw_transform [4; 1]%Z).
Definition growth_rate (k : nat) : R := 1 + lap_symbol (tfreq ft4 k).
Lemma growth_symbols : real_symbols Lf (flow_library 4 1) 4 ft4 growth_q growth_rate.
Proof.
  intros k Hk. unfold symbol. cbn [growth_q signed_items q_first q_lead q_more map Csum fst snd item_symbol].
  change (scalar_factors Lf [plainw "conc" None]) with (@nil factor). change (scalar_factors Lf [plainw "kap" None; lapw "conc" None]) with [fac "kap" None].
  cbn [product_value flow_library lb_pow lb_scalar sign_value total_power plainw lapw wf_op oper_power Nat.add pow fac fa_exp].
  change (factor_power (fac "kap" None)) with 1. rewrite principal_one. change (plus_c =? minus_c)%char with false. cbv iota. unfold growth_rate, C1. csolve.
Qed.
Lemma growth_unstable : one_unstable 4 growth_rate 0 1 15.
Proof.
  destruct freq41 as (F0 & F1 & F2 & F3). assert (P1 : 3 < PI) by (assert (H := PI2_3_2); lra). assert (P2 := PI_4).
  assert (PP : 9 < PI * PI <= 16) by nra.
  assert (R0 : growth_rate 0 = 1) by (unfold growth_rate, lap_symbol; rewrite F0; cbn [norm_sq]; ring).
  assert (R1 : growth_rate 1 = 1 - PI * PI / 4) by (unfold growth_rate, lap_symbol; rewrite F1; cbn [norm_sq]; field).
  assert (R2 : growth_rate 2 = 1 - PI * PI) by (unfold growth_rate, lap_symbol; rewrite F2; cbn [norm_sq]; field).
  assert (R3 : growth_rate 3 = 1 - PI * PI / 4) by (unfold growth_rate, lap_symbol; rewrite F3; cbn [norm_sq]; field).
  constructor; [lia|lra|rewrite R0; lra| |].
  - intros [|[|[|[|k]]]] Hk Hne; try lia; rewrite ?R1, ?R2, ?R3; lra.
  - intros [|[|[|[|k]]]] Hk; try lia; rewrite ?R0, ?R1, ?R2, ?R3; apply Rabs_le; lra.
Qed.
(** The dimer points along the first node, the field is 1, 0, 0, 0. *)
Definition growth_sdd : sdd :=
  {| s_dt := / 100; s_tau_orient := 1; s_tau_dimer := 1; s_alpha := / 2; s_step := 0; s_min_len := 0; s_init_len := 1; s_orient := [1; 0; 0; 0]; s_ready := true |}.
Definition growth_env : env := {| e_fields := [[C1; C0; C0; C0]]; e_derived := [] |}.
Lemma growth_searching : searching 4 growth_sdd growth_env.
Proof.
  constructor; [constructor|reflexivity|]; cbn [growth_sdd growth_env s_orient s_init_len s_tau_orient s_dt e_fields length]; try lia; try lra; try reflexivity.
  - repeat constructor.
  - unfold unit_vector. cbn [length rsum nth]. ring.
Qed.
Lemma growth_fits : fits Lf 4 (flow_state growth) growth_env.
Proof. split; [reflexivity|]. split; [repeat constructor|vm_compute; reflexivity]. Qed.
Lemma growth_share : share 4 ft4 growth_sdd 0 = / 4.
Proof.
  unfold share, orient_mode. rewrite (gt_zero 4 ft4) by (first [exact (fftw_good [4; 1]%Z valid41)|reflexivity]).
  cbn [growth_sdd s_orient map Csum INR]. unfold Cnorm2, Cadd, RtoC, C0. cbn [Re Im fst snd]. field.
Qed.

Example C105_nonvacuous : linear_model Lf (flow_calls growth) [growth_q] /\ run_calls new_mstate (flow_calls growth ++ [CInit]) = Ok (flow_state growth)
  /\ valid_domain [4; 1]%Z /\ square_layout [4; 1]%Z /\ good_library Lf 4 (flow_library 4 1) /\ real_symbols Lf (flow_library 4 1) 4 ft4 growth_q growth_rate
  /\ one_unstable 4 growth_rate 0 1 15 /\ (forall k, (k < 4)%nat -> - 15 <= growth_rate k <= growth_rate 0)
  /\ searching 4 growth_sdd growth_env /\ fits Lf 4 (flow_state growth) growth_env /\ 0 < share 4 ft4 growth_sdd 0 < 1
  /\ s_dt growth_sdd * 15 < 1 /\ s_dt growth_sdd / s_tau_orient growth_sdd * (2 * 15) <= 1 /\ 0 < energy (nth 0 (e_fields growth_env) []).
Proof.
  split; [exact growth_linear|]. split; [exact growth_run|]. split; [exact valid41|]. split; [exact I|]. split; [apply flow_library_good|]. split; [exact growth_symbols|]. split; [exact growth_unstable|].
  split; [exact (sg_top [4; 1]%Z growth_rate 0 1 15 growth_unstable)|]. split; [exact growth_searching|]. split; [exact growth_fits|]. split; [rewrite growth_share; lra|]. cbn [growth_sdd s_dt s_tau_orient]. split; [lra|]. split; [lra|].
  unfold energy. cbn [growth_env e_fields nth length rsum]. unfold Cnorm2, C1, C0, RtoC. cbn [Re Im fst snd]. lra.
Qed.

(** The hypotheses of [C104_rests] for the same state. *)
Example C104_nonvacuous : let p := simulation 4 ft4 (flow_library 4 1) (flow_state growth) in
  declared Lf (flow_calls growth) [growth_q] /\ l_fields Lf = [q_field growth_q] /\ field_independent (flow_calls growth) (flow_library 4 1) /\ unitary_transform 4 ft4
  /\ s_alpha growth_sdd = / 2
  /\ (forall a, get_denum p (spectrum p ft4 growth_env) 0 (sdd_time growth_sdd) 4 = Some a -> regular_step 4 (s_dt growth_sdd) (fft ft4 (map RtoC (s_orient growth_sdd))) a)
  /\ exists F1 F2, total_rhs Lf (flow_calls growth) 4 ft4 (flow_library 4 1) p (sdd_time growth_sdd) growth_q (dimer_point growth_sdd (- / 2) growth_env) F1
     /\ total_rhs Lf (flow_calls growth) 4 ft4 (flow_library 4 1) p (sdd_time growth_sdd) growth_q (dimer_point growth_sdd (/ 2) growth_env) F2.
Proof.
  intros p. split; [exact growth_declared|]. split; [reflexivity|]. split; [exact (linear_independent _ _ _ growth_linear _)|]. split; [exact (fftw_unitary [4; 1]%Z valid41)|]. split; [reflexivity|]. split.
  - intros a Ha. destruct (linear_denum _ _ _ growth_linear _ growth_run 4 ft4 (flow_library 4 1) (flow_library_good 4 1) (fftw_good [4; 1]%Z valid41) (spectrum p ft4 growth_env) 0 growth_q (sdd_time growth_sdd) eq_refl) as (a' & E & La & Hs).
    fold p in E. rewrite Ha in E. injection E as <-.
    apply (search_regular [4; 1]%Z growth_rate valid41 0 1 15 growth_unstable growth_sdd growth_env a growth_searching); [|exact La|].
    + constructor; unfold rate_of; cbn [growth_sdd s_dt s_tau_orient]; lra.
    + intros k Hk. rewrite (Hs k Hk). apply growth_symbols, Hk.
  - destruct (total_exists Lf (flow_calls growth) growth_q _ 4 ft4 (flow_library 4 1) p (sdd_time growth_sdd) (dimer_point growth_sdd (- / 2) growth_env) growth_declared growth_run) as (F1 & H1).
    destruct (total_exists Lf (flow_calls growth) growth_q _ 4 ft4 (flow_library 4 1) p (sdd_time growth_sdd) (dimer_point growth_sdd (/ 2) growth_env) growth_declared growth_run) as (F2 & H2).
    exists F1, F2. split; assumption.
Qed.
