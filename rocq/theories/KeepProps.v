(** Property C97: declared models keep real fields real. *)
From Verif Require Import ListAux FileModel ParseProofs DerivedProofs EquationProofs EquationProps SimProofs SimProofs5 SimProps SplitSpec SplitProps StepProofs DftProofs RealProofs RealProofs2 KeepSpec KeepProofs KeepProofs2 ConserveProofs Complex.
From Verif Require ResumeProofs.
From Coq Require Import Lra Lia Permutation.
Open Scope R_scope.

(** C97. In a model that is declared by its equations, with real constants,
    functions, terms and sources, every field that is real stays real in any
    number of Euler steps, with or without a modal filter. *)
Theorem C97_euler_partial : forall L cs es m, declared L cs es -> run_calls new_mstate (cs ++ [CInit]) = Ok m ->
  forall dom lib, valid_domain dom -> square_layout dom -> good_library L (nodes dom) lib ->
  real_library L cs es dom (length (pm_derived (ms_names m))) lib ->
  forall filt dt steps step e e' step', fits L (nodes dom) m e -> real_fields dom (e_fields e) ->
  euler_propagate (simulation (nodes dom) (fftw_transform dom) lib m) (fftw_transform dom) filt dt steps step e = Some (e', step') ->
  real_fields dom (e_fields e').
Proof.
  intros L cs es m HD Em dom lib Hv Hs GL RL filt dt steps step e e' step' (H1 & _ & H3) HR HE.
  refine (euler_propagate_real dom (length (l_fields L)) _ filt dt Hv Hs (declared_real L cs es m HD Em dom lib Hv GL RL) steps step e e' step' HR _ HE).
  split; [exact H1|]. rewrite calc_count. exact H3.
Qed.
Print Assumptions C97_euler_partial.

(** The same for RK4, when the implicit terms do not read fields. *)
Theorem C97_rk4_partial : forall L cs es m, declared L cs es -> run_calls new_mstate (cs ++ [CInit]) = Ok m ->
  forall dom lib, valid_domain dom -> square_layout dom -> good_library L (nodes dom) lib ->
  real_library L cs es dom (length (pm_derived (ms_names m))) lib -> field_independent cs lib ->
  forall filt dt steps step e e' step', fits L (nodes dom) m e -> real_fields dom (e_fields e) ->
  rk4_propagate (simulation (nodes dom) (fftw_transform dom) lib m) (fftw_transform dom) filt dt steps step e = Some (e', step') ->
  real_fields dom (e_fields e').
Proof.
  intros L cs es m HD Em dom lib Hv Hs GL RL HI filt dt steps step e e' step' (H1 & _ & H3) HR HE.
  refine (rk4_propagate_real dom (length (l_fields L)) _ filt dt Hv Hs (declared_real L cs es m HD Em dom lib Hv GL RL)
    (declared_denum_real L cs es m HD Em dom lib Hv GL RL HI) steps step e e' step' HR _ HE).
  split; [exact H1|]. rewrite calc_count. exact H3.
Qed.
Print Assumptions C97_rk4_partial.

(** The power function of the program is real on real numbers when the exponent
    is a natural number: it is the ordinary power. *)
Theorem C97_natural_powers : forall x k, principal_power (RtoC x) (INR k) = RtoC (x ^ k).
Proof.
  intros x k. unfold principal_power, argument. change (Re (RtoC x)) with x. change (Im (RtoC x)) with 0%R.
  destruct (Req_EM_T (x * x + 0 * 0) 0) as [H0|H0].
  - assert (x = 0) as -> by nra. destruct (Req_EM_T (INR k) 0) as [Hk|Hk].
    + apply (INR_eq k 0) in Hk. subst k. reflexivity.
    + destruct k as [|k]; [contradiction Hk; reflexivity|]. cbn [pow]. replace (0 * 0 ^ k) with 0 by ring. reflexivity.
  - assert (Hx : x <> 0) by (intros ->; apply H0; ring). destruct (Req_EM_T 0 0) as [_|N]; [|contradiction N; reflexivity].
    replace (x * x + 0 * 0) with (Rsqr x) by (unfold Rsqr; ring). rewrite sqrt_Rsqr_abs.
    destruct (Rlt_dec x 0) as [Hn|Hp].
    + rewrite Rabs_left by exact Hn. rewrite Rpower_pow by lra.
      assert (HC : forall j, cos (INR j * PI) = (-1) ^ j /\ sin (INR j * PI) = 0).
      { induction j as [|j [C S]]; [cbn [INR pow]; rewrite Rmult_0_l, cos_0, sin_0; split; reflexivity|].
        rewrite S_INR, Rmult_plus_distr_r, Rmult_1_l, neg_cos, neg_sin, C, S. cbn [pow]. split; ring. }
      destruct (HC k) as [-> ->]. unfold RtoC, Cmul. cbn [fst snd Re Im]. apply C_eq; cbn [Re Im fst snd].
      * replace x with ((-1) * (- x)) at 2 by ring. rewrite Rpow_mult_distr. ring.
      * ring.
    + rewrite Rabs_pos_eq by lra. rewrite Rpower_pow by lra. rewrite Rmult_0_r, cos_0, sin_0. apply C_eq; cbn; ring.
Qed.
Print Assumptions C97_natural_powers.

Lemma whole_power f : good_factor f -> match fa_exp f with Some e => ex_frac e = None | None => True end -> exists k, factor_power f = INR k.
Proof.
  intros [_ Hg] Hf. unfold factor_power. destruct (fa_exp f) as [e|]; [|exists 1%nat; reflexivity]. unfold expo_value. rewrite Hf.
  assert (Hp : forall ds, Forall (fun d => d < 10)%nat ds -> (0 <= int_value ds)%Z).
  { induction ds as [|d ds IH]; intros H; cbn [int_value]; [lia|]. inversion H; subst. specialize (IH ltac:(assumption)).
    assert (0 <= Z.of_nat d * 10 ^ Z.of_nat (length ds))%Z by (apply Z.mul_nonneg_nonneg; [lia|apply Z.pow_nonneg; lia]). lia. }
  exists (Z.to_nat (int_value (ex_int e))). rewrite INR_IZR_INZ, Z2Nat.id; [reflexivity|]. apply Hp, Hg.
Qed.

(** A model without functions, registered terms and sources, whose constants are
    real and whose exponents are whole numbers, meets the hypotheses. *)
Theorem C97_whole_exponents : forall L cs es dom nd lib, declared L cs es -> l_functions L = [] -> user_terms L = [] -> (forall i, sources_of i cs = []) ->
  good_library L (nodes dom) lib -> lb_pow lib = principal_power -> (forall s, In s (l_scalars L) -> is_real (lb_scalar lib s)) ->
  (forall q t s w, In q es -> In (IProduct t, s) (signed_items q) -> In w t -> match fa_exp (wf_fac w) with Some e => ex_frac e = None | None => True end) ->
  real_library L cs es dom nd lib /\ field_independent cs lib.
Proof.
  intros L cs es dom nd lib HD HF HU HS GL HP Hr Hw.
  assert (HR : forall q t s w x, In q es -> In (IProduct t, s) (signed_items q) -> In w t -> is_real (lb_pow lib (RtoC x) (factor_power (wf_fac w)))).
  { intros q t s w x Hq Ht Hin. rewrite HP. assert (Hg := dc_good _ _ _ HD). rewrite Forall_forall in Hg. specialize (Hg q Hq).
    destruct (EquationProofs8.items_good L q Hg _ (Permutation_refl _)) as [Hgs _]. rewrite Forall_forall in Hgs.
    destruct (Hgs _ (in_map fst _ _ Ht)) as [(before & fs & after & GP) _].
    destruct (whole_power (wf_fac w) (gp_factors _ _ _ _ _ GP w Hin) (Hw q t s w Hq Ht Hin)) as (k & ->). rewrite C97_natural_powers. reflexivity. }
  assert (HN : forall k name s, ~ registered cs k name s).
  { intros k name s (b & a & ds & E & _). destruct (dc_names _ _ _ HD) as (_ & HDn). destruct (HDn name) as (_ & _ & N1 & N2 & N3).
    assert (Ht : In name (terms_of k cs)).
    { unfold terms_of. apply in_flat_map. exists (CTerm k name s ds). split; [rewrite E; apply in_or_app; right; left; reflexivity|]. destruct k; left; reflexivity. }
    assert (Hin : In name (user_terms L)) by (unfold user_terms; rewrite !in_app_iff, N1, N2, N3; destruct k; auto). rewrite HU in Hin. exact Hin. }
  split.
  - constructor.
    + intros q t s f Hq Ht Hf. unfold scalar_factors in Hf. apply in_map_iff in Hf. destruct Hf as (w & <- & Hin). apply filter_In in Hin. destruct Hin as [Hin Hsc].
      assert (Hs : is_real (lb_scalar lib (wf_name w))). { apply Hr. apply EquationProofs5.is_scalar_iff, Hsc. }
      change (fa_name (wf_fac w)) with (wf_name w). rewrite (is_real_RtoC _ Hs). exact (HR q t s w _ Hq Ht Hin).
    + intros q t s f x Hq Ht Hf. unfold field_factors in Hf. apply in_map_iff in Hf. destruct Hf as (w & <- & Hin). apply filter_In in Hin.
      exact (HR q t s w x Hq Ht (proj1 Hin)).
    + intros name c fs Hc. assert (Hin : In name (l_functions L)) by (apply (lb_functions _ _ _ GL); eauto). rewrite HF in Hin. destruct Hin.
    + intros k name s E t _ H. exfalso. exact (HN _ _ _ H).
    + intros name s E t H. exfalso. exact (HN _ _ _ H).
    + intros i s t H. rewrite HS in H. destruct H.
  - split; intros name s E E' t H; exfalso; exact (HN _ _ _ H).
Qed.
Print Assumptions C97_whole_exponents.

(** Allen-Cahn on any domain, with any number of steps of either scheme. *)
Example C97_nonvacuous : forall dom filt dt steps e' step' d, valid_domain dom -> square_layout dom -> length d = nodes dom -> real_field d ->
  (euler_propagate (simulation (nodes dom) (fftw_transform dom) (no_library (nodes dom) principal_power) ac_state) (fftw_transform dom) filt dt steps 0
     {| e_fields := [d]; e_derived := [[]] |} = Some (e', step')
   \/ rk4_propagate (simulation (nodes dom) (fftw_transform dom) (no_library (nodes dom) principal_power) ac_state) (fftw_transform dom) filt dt steps 0
     {| e_fields := [d]; e_derived := [[]] |} = Some (e', step')) -> real_fields dom (e_fields e').
Proof.
  intros dom filt dt steps e' step' d Hv Hs Ld Rd H.
  assert (GL := no_library_good La (nodes dom) principal_power eq_refl).
  destruct (C97_whole_exponents La ac_calls ac_eqs dom (length (pm_derived (ms_names ac_state))) (no_library (nodes dom) principal_power) ac_declared eq_refl eq_refl)
    as [RL FI]; [intros i; reflexivity|exact GL|reflexivity|intros s []| |].
  { intros q t s w [<-|[]] Ht Hw. cbn in Ht. destruct Ht as [Ht|[Ht|[]]]; injection Ht as <- _; destruct Hw as [<-|[]]; reflexivity || exact I. }
  assert (Hf : fits La (nodes dom) ac_state {| e_fields := [d]; e_derived := [[]] |}) by (split; [reflexivity|split; [repeat constructor; exact Ld|reflexivity]]).
  assert (HR : real_fields dom [d]) by (constructor; [split; assumption|constructor]).
  destruct H as [H|H].
  - exact (C97_euler_partial La ac_calls ac_eqs ac_state ac_declared ac_run dom _ Hv Hs GL RL filt dt steps 0 _ e' step' Hf HR H).
  - exact (C97_rk4_partial La ac_calls ac_eqs ac_state ac_declared ac_run dom _ Hv Hs GL RL FI filt dt steps 0 _ e' step' Hf HR H).
Qed.

(** *** dconc/dt = conc^0.5 with a negative value *)
Definition rootw : wfactor := {| wf_op := NoOp; wf_fac := {| fa_name := lit "conc"; fa_exp := Some {| ex_int := [0%nat]; ex_frac := Some [5%nat] |} |} |}.
Definition root_q : eqtext := {| q_field := lit "conc"; q_lead := None; q_first := IProduct [rootw]; q_more := [] |}.
Definition root_calls : list call := [CField (lit "conc"); CEquation (lit "dconc/dt = conc^0.5")].
Lemma half_value : expo_value {| ex_int := [0%nat]; ex_frac := Some [5%nat] |} = 1 / 2.
Proof. unfold expo_value. cbn. lra. Qed.
Lemma root_declared : declared La root_calls [root_q].
Proof.
  constructor.
  - good_language.
  - split; [reflexivity|]. intros n. cbn. tauto.
  - exists (firstn 1 root_calls), (skipn 1 root_calls). split; [reflexivity|]. split; [|split].
    + intros c H. cbn in H. repeat (destruct H as [<-|H]; [exact (fun x => x)|]). destruct H.
    + intros c H. cbn in H. repeat (destruct H as [<-|H]; [exact (fun x => x)|]). destruct H.
    + discriminate.
  - intros b a eq s E. unfold root_calls in E.
    do 2 (destruct b as [|? b]; [discriminate E|injection E as <- E]). destruct b; discriminate E.
  - cbn. intuition discriminate.
  - intros k name t ds H. cbn in H. intuition discriminate.
  - constructor; [reflexivity|constructor].
  - constructor; [|constructor]. split; [cbn; auto|]. split; [discriminate|]. split; [|constructor].
    split; [|vm_compute; intuition discriminate]. exists [], [rootw], [].
    constructor.
    + apply Permutation_refl.
    + discriminate.
    + discriminate.
    + cbn. repeat split; intros y Hy; destruct Hy.
    + cbn. repeat split; intros y Hy; destruct Hy.
    + intros w Hw; cbn in Hw; repeat (destruct Hw as [<-|Hw]; [split; [split; reflexivity|cbn; repeat split; repeat constructor; try discriminate; lia]|]); destruct Hw.
    + intros w Hw. destruct Hw.
    + intros w rest E; injection E as <- <-; split; [exact I|intros w' []].
    + cbn; repeat constructor; cbn; intuition discriminate.
    + left. intros w [<-|[]]. split; [cbn; auto|]. cbn [rootw wf_fac fa_exp]. rewrite half_value. rewrite Rabs_left by lra. lra.
Qed.
Definition root_state : mstate := match run_calls new_mstate (root_calls ++ [CInit]) with Ok m => m | _ => new_mstate end.
Lemma root_run : run_calls new_mstate (root_calls ++ [CInit]) = Ok root_state.
Proof. vm_compute. reflexivity. Qed.
Lemma root_of_minus_one : principal_power (RtoC (-1)) (1 / 2) = Ci.
Proof.
  unfold principal_power, argument. change (Re (RtoC (-1))) with (-1)%R. change (Im (RtoC (-1))) with 0%R.
  destruct (Req_EM_T (-1 * -1 + 0 * 0) 0) as [H|_]; [lra|]. destruct (Req_EM_T 0 0) as [_|N]; [|contradiction N; reflexivity].
  destruct (Rlt_dec (-1) 0) as [_|N]; [|lra]. replace (-1 * -1 + 0 * 0) with 1 by ring. rewrite sqrt_1.
  unfold Rpower. rewrite ln_1, Rmult_0_r, exp_0. replace (1 / 2 * PI) with (PI / 2) by lra. rewrite cos_PI2, sin_PI2. unfold Ci. apply C_eq; cbn; ring.
Qed.

(** A field with the value -1 becomes -1 + i in one step of size 1. *)
Theorem C97_fractional_power_refuted : exists L cs es m dom lib e e', declared L cs es /\ run_calls new_mstate (cs ++ [CInit]) = Ok m
  /\ valid_domain dom /\ square_layout dom /\ good_library L (nodes dom) lib /\ lb_pow lib = principal_power
  /\ fits L (nodes dom) m e /\ real_fields dom (e_fields e)
  /\ euler_step (simulation (nodes dom) (fftw_transform dom) lib m) (fftw_transform dom) None 1 0 e = Some e' /\ fits L (nodes dom) m e' /\ ~ real_fields dom (e_fields e').
Proof.
  assert (Hv : valid_domain [1; 1]%Z) by (split; [left; reflexivity|repeat constructor; lia]).
  assert (GT := fftw_good [1; 1]%Z Hv). set (ft := fftw_transform [1; 1]%Z) in *. change (nodes [1; 1]%Z) with 1%nat in GT.
  set (lib := no_library 1 principal_power). set (e := {| e_fields := [[RtoC (-1)]]; e_derived := [[]] |}).
  assert (Hf : fits La 1 root_state e) by (split; [reflexivity|split; [repeat constructor|reflexivity]]).
  assert (GL : good_library La 1 lib) by exact (no_library_good La 1 principal_power eq_refl).
  destruct (C92_euler_step La root_calls [root_q] root_state root_declared root_run 1 ft lib GL GT eq_refl 1 0 e Hf) as (e' & Es & Hl & Ha & HS).
  exists La, root_calls, [root_q], root_state, [1; 1]%Z, lib, e, e'.
  split; [exact root_declared|]. split; [exact root_run|]. split; [exact Hv|]. split; [exact I|]. split; [exact GL|]. split; [reflexivity|].
  split; [exact Hf|]. split; [constructor; [split; [reflexivity|repeat constructor]|constructor]|]. split; [exact Es|].
  split; [split; [exact Hl|split; [exact Ha|exact (ResumeProofs.euler_slots 1 ft root_state lib None 1 0 e e' (proj2 (proj2 Hf)) Es)]]|].
  destruct (e_fields e') as [|d [|d2 r]] eqn:Ee; try discriminate Hl. unfold all_length in Ha. inversion Ha as [|? ? Ld _]; subst.
  destruct d as [|w [|w' d]]; try discriminate Ld.
  specialize (HS 0%nat _ eq_refl). cbv zeta in HS. cbn [map firstn skipn app e e_fields] in HS.
  match type of HS with forall k X A, _ -> split_written _ _ _ _ _ ?F ?S ?E ?T ?Q _ _ _ -> _ =>
    destruct (C92_parts_exist La root_calls [root_q] root_state root_declared root_run 1 ft lib E T Q 0 F S) as (X & A & HXA) end.
  specialize (HS 0%nat X A ltac:(lia) HXA).
  assert (HX : X = Ci /\ A = C0).
  { destruct HXA as (val & lone & im & ex & li & nl & (HV & _) & _ & _ & _ & _ & _ & -> & ->).
    assert (V0 := HV 0%nat (lit "conc") _ eq_refl eq_refl).
    unfold sum_signed, signed_items, root_q. cbn [map fst snd q_first q_lead q_more q_field]. unfold explicit_item, implicit_item.
    change (linear_in La (lit "conc") [rootw]) with false. cbv iota. unfold shown_amplitude, coefficient.
    change (field_factors La [rootw]) with [wf_fac rootw]. change (scalar_factors La [rootw]) with (@nil factor).
    cbn [rootw wf_fac fa_exp]. unfold EquationSpec.amplitude, amplitude_at. cbn [map seq product_value fa_name fa_exp factor_power Csum total_power wf_op oper_power Nat.add pow sign_value].
    rewrite (gt_zero 1 ft GT) by reflexivity. rewrite !V0, half_value. cbn [nth lb_pow lib no_library Csum]. rewrite root_of_minus_one.
    change (oper_power (wf_op rootw)) with 0%nat. cbn [Nat.add pow]. change (RtoC 1) with C1. split; ring. }
  destruct HX as [-> ->].
  rewrite !(gt_zero 1 ft GT) in HS by reflexivity. cbn [nth] in HS.
  change (source_sum _ _ _ _ _) with C0 in HS. rewrite Cdiv_one in HS. cbn [Csum] in HS.
  intros HR. inversion HR as [|? ? [_ Hw] _]; subst. unfold real_field in Hw. inversion Hw as [|? ? Hw0 _]; subst.
  assert (E : w = Cadd (RtoC (-1)) Ci). { transitivity (Cadd w C0); [ring|]. rewrite HS. change (RtoC 1) with C1. ring. }
  rewrite E in Hw0. cbn in Hw0. lra.
Qed.
Print Assumptions C97_fractional_power_refuted.
