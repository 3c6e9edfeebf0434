(** Lemmas for C98: convergence of runs, and powers. *)
From Verif Require Import ListAux FileModel ParseProofs StepProofs ConserveProofs EquationProps RegistryProps.
From Verif Require Import SplitSpec SimProofs SimProofs2 SimProofs3 SimProofs4 SimProofs5 SimProofs6 SimProps.
From Verif Require Import LinearProofs2 LinearProofs3 ConvergeProofs LimitProofs LimitProofs2 LimitProofs3.
From Verif Require ConvergeProps.
From Verif Require Import DftSpec LimitSpec KeepSpec.
From Coq Require Import Reals Lia Lra.
From Verif Require Import Complex.
Open Scope R_scope.

Definition stepper (propagate : pde -> transform -> option (R -> R) -> R -> nat -> nat -> env -> option (env * nat)) (cs : list call) (lib : library) : Prop :=
  propagate = euler_propagate \/ (propagate = rk4_propagate /\ field_independent cs lib).

Lemma limit_bound L cs es m : declared L cs es -> run_calls new_mstate (cs ++ [CInit]) = Ok m ->
  forall n ft lib, good_library L n lib -> unitary_transform n ft -> map q_field es = l_fields L -> (0 < n)%nat ->
  forall T, 0 < T -> smooth L cs es n lib T ->
  forall U, solution_until L cs es n ft lib T U ->
  forall propagate, stepper propagate cs lib ->
  exists D N0, 0 <= D /\ forall e N, (N0 <= N)%nat -> (0 < N)%nat -> fits L n m e -> e_fields e = U 0 -> forall k, (k <= N)%nat ->
  exists e', propagate (simulation n ft lib m) ft None (T / INR N) k 0%nat e = Some (e', k) /\ fits L n m e'
  /\ forall i, (i < length (l_fields L))%nat -> exists d, nth_error (e_fields e') i = Some d /\ distance2 d (nth i (U (INR k * (T / INR N))) []) <= (D / INR N) ^ 2.
Proof.
  intros HD Em n ft lib GL UT HO Hn T HT SM U [HU HS] propagate Hst. assert (GT := ut_good n ft UT). set (nf := length (l_fields L)) in *.
  set (Y := fun t => amplitude_of ft (U t)).
  assert (HY : forall i k t, (i < nf)%nat -> (k < n)%nat -> 0 <= t <= T -> changes (fun s => Y s i k) t (G (AA L es ft lib) (FF L cs es n ft lib) Y i k t)).
  { intros i k t Hi Hk Ht. destruct (nth_error es i) as [q|] eqn:Eq; [|exfalso; apply nth_error_None in Eq; unfold nf in Hi; rewrite <- HO, map_length in Hi; lia].
    destruct (HS t i q k Ht Eq Hk) as (M & HW & HC). replace (G _ _ Y i k t) with (Cadd M (source_sum cs lib t i k)); [exact HC|].
    unfold G, FF, AA. rewrite Eq. unfold Y. rewrite (reals_of L n ft UT Hn (U t) (HU t)).
    rewrite (rate_mine L cs es m HD Em n ft lib GL HO T SM (U t) _ t i q k M (HU t) Eq Hk HW). ring. }
  destruct (scheme_converges nf n (AA L es ft lib) (FF L cs es n ft lib) Y T ltac:(lra)
    (fun r => lip_FF L cs es n ft lib UT Hn T ltac:(lra) SM r) HY) as (D & h0 & HD0 & Hh0 & Hz & Hconv).
  destruct (ConvergeProps.above (T / h0)) as (N0 & HN0).
  exists (D * T), N0. split; [apply Rmult_le_pos; lra|]. intros e N HN HN1 Hf He k Hk.
  assert (HNr : 0 < INR N) by (apply lt_0_INR; exact HN1). assert (HN0' : INR N0 <= INR N) by (apply le_INR; exact HN).
  set (h := T / INR N). assert (Hh : 0 < h <= h0).
  { split; [apply Rdiv_lt_0_compat; lra|]. unfold h. apply Rmult_le_reg_r with (INR N); [exact HNr|]. replace (T / INR N * INR N) with T by (field; lra).
    replace T with (h0 * (T / h0)) by (field; lra). apply Rmult_le_compat_l; lra. }
  assert (EN : INR N * h = T) by (unfold h; field; lra).
  assert (Hz1 : forall i k, (i < nf)%nat -> (k < n)%nat -> Csub C1 (Cmul (RtoC h) (AA L es ft lib i k)) <> C0) by (intros i k' Hi Hk'; apply Hz; assumption).
  assert (Hz2 : forall i k, (i < nf)%nat -> (k < n)%nat -> Csub C1 (Cmul (RtoC (h / 2)) (AA L es ft lib i k)) <> C0) by (intros i k' Hi Hk'; apply Hz; (assumption || lra)).
  set (p := simulation n ft lib m).
  assert (HRun : exists (step : R -> R -> grid -> grid -> Prop) (st : nat -> env), (step = scheme nf n (AA L es ft lib) (FF L cs es n ft lib) \/ step = rk_scheme nf n (AA L es ft lib) (FF L cs es n ft lib))
    /\ st 0%nat = e /\ forall k, fits L n m (st k) /\ step h (INR k * h) (amplitude_of ft (e_fields (st k))) (amplitude_of ft (e_fields (st (S k)))) /\ propagate p ft None h k 0%nat e = Some (st k, k)).
  { destruct Hst as [-> | [-> HI]].
    - destruct (run_states (euler_step p ft None h) h (fits L n m) (fun t e e' => scheme nf n (AA L es ft lib) (FF L cs es n ft lib) h t (amplitude_of ft (e_fields e)) (amplitude_of ft (e_fields e')))) with (e := e) as (st & E0 & H); [|exact Hf|].
      + intros t e1 Hf1. apply (euler_scheme L cs es m HD Em n ft lib GL UT HO Hn T SM h t e1 Hf1 Hz1).
      + eexists. exists st. split; [left; reflexivity|]. split; [exact E0|]. intros k'. rewrite euler_iterate. apply H.
    - destruct (run_states (rk4_step p ft None h) h (fits L n m) (fun t e e' => rk_scheme nf n (AA L es ft lib) (FF L cs es n ft lib) h t (amplitude_of ft (e_fields e)) (amplitude_of ft (e_fields e')))) with (e := e) as (st & E0 & H); [|exact Hf|].
      + intros t e1 Hf1. apply (rk4_scheme L cs es m HD Em n ft lib GL UT HO Hn T SM HI h t e1 Hf1 Hz1 Hz2).
      + eexists. exists st. split; [right; reflexivity|]. split; [exact E0|]. intros k'. rewrite rk4_iterate. apply H. }
  destruct HRun as (step & st & Hstep & E0 & H). exists (st k). split; [apply H|]. split; [apply H|]. intros i Hi.
  assert (Ss := fits_shaped L m n (st k) (proj1 (H k))). assert (Li := shaped_nth L n Hn (e_fields (st k)) i Ss Hi).
  assert (Lu := shaped_nth L n Hn (U (INR k * h)) i (HU _) Hi).
  exists (nth i (e_fields (st k)) []). split; [apply nth_error_nth'; rewrite (proj1 Ss); exact Hi|].
  pose proof (Hconv step Hstep h N (fun k => amplitude_of ft (e_fields (st k))) Hh ltac:(lra)) as HC. cbv beta in HC.
  assert (HC1 : near nf n (D * h) (amplitude_of ft (e_fields (st k))) (Y (INR k * h))).
  { apply HC; [|intros k' _; apply H|exact Hk]. rewrite E0. unfold Y. rewrite He. intros i' k' _ _. replace (Csub _ _) with C0 by csolve. rewrite size_0. lra. }
  rewrite <- (energy_difference n _ _ Li Lu).
  apply Rmult_le_reg_l with (INR n); [apply lt_0_INR; exact Hn|]. rewrite (energy_modes n ft _ UT) by (apply map2_length; assumption).
  rewrite (ut_fft_add n ft UT) by assumption. apply (rsum_bound n Hn). intros k' Hk'.
  rewrite (map2_at _ _ _ n k') by (try apply (gt_fft_len n ft GT); assumption).
  replace (D * T / INR N) with (D * h) by (unfold h; field; lra). apply norm_of_size.
  pose proof (HC1 i k' Hi Hk') as Q. unfold Y, amplitude_of in Q.
  replace (Cadd _ _) with (Csub (nth k' (fft ft (nth i (e_fields (st k)) [])) C0) (nth k' (fft ft (nth i (U (INR k * h)) [])) C0)) by csolve. exact Q.
Qed.

(** ** Powers *)
Lemma lipschitz_of g : (forall r, exists K, 0 <= K /\ forall z w, size z <= r -> size w <= r -> size (Csub (g z) (g w)) <= K * size (Csub z w)) -> lipschitz g.
Proof.
  intros H r. destruct (H (2 * sqrt (Rabs r))) as (K & HK & HL). exists (4 * K ^ 2). intros z w Hz Hw.
  assert (B : forall z, Cnorm2 z <= r -> size z <= 2 * sqrt (Rabs r)).
  { intros u Hu. apply size_of_norm; [apply sqrt_pos|]. cbn [pow]. rewrite Rmult_1_r, sqrt_sqrt by apply Rabs_pos. pose proof (Rle_abs r). lra. }
  specialize (HL z w (B z Hz) (B w Hw)). apply norm_of_size in HL. apply Rle_trans with (1 := HL). rewrite Rpow_mult_distr.
  assert (Q : size (Csub z w) <= 2 * sqrt (Cnorm2 (Csub z w))).
  { apply size_of_norm; [apply sqrt_pos|]. cbn [pow]. rewrite Rmult_1_r, sqrt_sqrt by apply Cnorm2_nonneg. lra. }
  assert (Q2 : size (Csub z w) ^ 2 <= 4 * Cnorm2 (Csub z w)).
  { apply Rle_trans with ((2 * sqrt (Cnorm2 (Csub z w))) ^ 2); [apply pow_incr; split; [apply size_pos|exact Q]|]. rewrite Rpow_mult_distr.
    right. cbn [pow]. rewrite !Rmult_1_r, sqrt_sqrt by apply Cnorm2_nonneg. ring. }
  replace (4 * K ^ 2 * Cnorm2 (Csub z w)) with (K ^ 2 * (4 * Cnorm2 (Csub z w))) by ring. apply Rmult_le_compat_l; [apply pow2_ge_0|exact Q2].
Qed.
Lemma lipschitz_ext f g : (forall z, f z = g z) -> lipschitz f -> lipschitz g.
Proof. intros E H r. destruct (H r) as (K & HK). exists K. intros z w Hz Hw. rewrite <- !E. apply HK; assumption. Qed.
Lemma lipschitz_power (k : nat) : lipschitz (fun z => Cpow z k).
Proof.
  apply lipschitz_of. intros r.
  assert (HR : regular C (fun z w e => size z <= r /\ size w <= r /\ size (Csub z w) <= e) (fun z => Cpow z k)).
  { induction k as [|k IH]; [cbn [Cpow]; apply regular_const|]. cbn [Cpow]. apply regular_mul; [|exact IH].
    exists 1, (Rabs r). pose proof (Rabs_pos r). pose proof (Rle_abs r). split; [lra|]. split; [lra|]. intros z w e (H1 & H2 & H3). repeat split; lra. }
  destruct HR as (K & M & HK & _ & H). exists K. split; [exact HK|]. intros z w Hz Hw. apply (H z w (size (Csub z w))). split; [exact Hz|]. split; [exact Hw|]. lra.
Qed.

(** The principal value with a natural exponent is the repeated product. *)
Lemma polar z : z <> C0 -> z = Cmul (RtoC (sqrt (Re z * Re z + Im z * Im z))) (cos (argument z), sin (argument z)).
Proof.
  intros Hz. destruct z as [x y]. cbn [Re Im fst snd]. assert (HN : 0 < x * x + y * y) by (exact (Cnorm2_pos _ Hz)).
  set (r := sqrt (x * x + y * y)). assert (Hr : 0 < r) by (apply sqrt_lt_R0; exact HN). assert (Hr2 : r * r = x * x + y * y) by (apply sqrt_sqrt; lra).
  unfold argument. cbn [Re Im fst snd]. destruct (Req_EM_T y 0) as [->|Hy].
  - destruct (Rlt_dec x 0) as [Hx|Hx].
    + rewrite cos_PI, sin_PI. assert (r = - x) by nra. apply C_eq; cbn; lra.
    + rewrite cos_0, sin_0. assert (r = x) by nra. apply C_eq; cbn; lra.
  - fold r. assert (Hrx : 0 < r + x).
    { assert (y * y > 0) by nra. destruct (Rlt_dec x 0); nra. }
    set (u := y / (r + x)). assert (Hu : u * (r + x) = y) by (unfold u; field; lra).
    set (a := atan u). assert (Ha := atan_bound u). fold a in Ha.
    assert (Hc : 0 < cos a) by (apply cos_gt_0; lra). assert (Ht : tan a = u) by (unfold a; rewrite atan_right_inv; reflexivity || (apply atan_right_inv)).
    assert (Hs : sin a = u * cos a) by (rewrite <- Ht; unfold tan; field; lra).
    assert (H1 := sin2_cos2 a). unfold Rsqr in H1. rewrite Hs in H1.
    assert (Hcc : cos a * cos a * (1 + u * u) = 1) by lra.
    assert (HU : (1 + u * u) * (r + x) = 2 * r).
    { apply Rmult_eq_reg_r with (r + x); [|lra]. replace ((1 + u * u) * (r + x) * (r + x)) with ((r + x) * (r + x) + (u * (r + x)) * (u * (r + x))) by ring. rewrite Hu. nra. }
    assert (C2 : cos (2 * a) * r = x).
    { rewrite cos_2a, Hs. assert (E : (cos a * cos a - u * cos a * (u * cos a)) = cos a * cos a * (1 - u * u)) by ring. rewrite E.
      apply Rmult_eq_reg_r with (1 + u * u); [|nra]. replace (cos a * cos a * (1 - u * u) * r * (1 + u * u)) with (cos a * cos a * (1 + u * u) * (1 - u * u) * r) by ring.
      rewrite Hcc. assert (P : (1 + u * u) * (r + x) = 2 * r) by exact HU. nra. }
    assert (S2 : sin (2 * a) * r = y).
    { rewrite sin_2a, Hs. apply Rmult_eq_reg_r with (1 + u * u); [|nra]. replace (2 * (u * cos a) * cos a * r * (1 + u * u)) with (cos a * cos a * (1 + u * u) * (2 * u * r)) by ring.
      rewrite Hcc. rewrite <- Hu. replace (u * (r + x) * (1 + u * u)) with (u * ((1 + u * u) * (r + x))) by ring. rewrite HU. ring. }
    apply C_eq; cbn; lra.
Qed.
Lemma de_moivre r a k : Cpow (Cmul (RtoC r) (cos a, sin a)) k = Cmul (RtoC (r ^ k)) (cos (INR k * a), sin (INR k * a)).
Proof.
  induction k as [|k IH]; [cbn [Cpow INR pow]; rewrite Rmult_0_l, cos_0, sin_0; csolve|]. cbn [Cpow]. rewrite IH, S_INR, Rmult_plus_distr_r, Rmult_1_l, cos_plus, sin_plus. cbn [pow]. csolve.
Qed.
Lemma principal_natural z k : principal_power z (INR k) = Cpow z k.
Proof.
  unfold principal_power. destruct (Req_EM_T (Re z * Re z + Im z * Im z) 0) as [E|E].
  - assert (z = C0). { destruct z as [x y]. cbn [Re Im fst snd] in E. apply C_eq; cbn; nra. } subst z.
    destruct k as [|k]; [cbn [INR Cpow]; destruct (Req_EM_T 0 0) as [_|F]; [reflexivity|contradiction]|].
    destruct (Req_EM_T (INR (S k)) 0) as [F|_]; [exfalso; exact (not_0_INR (S k) ltac:(lia) F)|]. cbn [Cpow]. csolve.
  - assert (Hz : z <> C0) by (intros ->; apply E; cbn; ring). assert (HN := Cnorm2_pos z Hz). unfold Cnorm2 in HN.
    rewrite Rpower_pow by (apply sqrt_lt_R0; exact HN). transitivity (Cpow (Cmul (RtoC (sqrt (Re z * Re z + Im z * Im z))) (cos (argument z), sin (argument z))) k); [rewrite de_moivre; reflexivity|]. rewrite <- (polar z Hz). reflexivity.
Qed.
Lemma lipschitz_principal k : lipschitz (fun z => principal_power z (INR k)).
Proof. apply (lipschitz_ext (fun z => Cpow z k)); [intros z; symmetry; apply principal_natural|apply lipschitz_power]. Qed.
