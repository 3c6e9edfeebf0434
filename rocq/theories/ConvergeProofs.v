From Verif Require Import ListAux FileModel ParseProofs StepProofs SimProofs SimProofs2 SimProofs3 SimProofs4 SimProofs5 SimProofs6 LinearProofs LinearProofs2 LinearProofs3.
From Verif Require Import DftSpec ConvergeSpec.
From Coq Require Import Reals Lia Lra.
From Verif Require Import Complex.
Open Scope R_scope.

(** ** Implicit Euler against the exponential *)
Lemma factor_error x : Rabs x <= / 2 -> 0 <= / (1 - x) - exp x <= 2 * x ^ 2.
Proof.
  intros H. assert (H' : - / 2 <= x <= / 2) by (split; [destruct (Rle_or_lt (- / 2) x) as [X|X]; [exact X|rewrite Rabs_left in H by lra; lra]|assert (Y := Rle_abs x); lra]).
  assert (Hp : 0 < 1 - x) by lra. split.
  - assert (E1 := exp_ineq1_le (- x)). assert (E2 : exp x = / exp (- x)) by (rewrite exp_Ropp, Rinv_inv; reflexivity).
    rewrite E2. assert (/ exp (- x) <= / (1 - x)) by (apply Rinv_le_contravar; lra). lra.
  - assert (E1 := exp_ineq1_le x). assert (E2 : / (1 - x) <= 1 + x + 2 * x ^ 2).
    { apply Rmult_le_reg_r with (1 := Hp). rewrite Rinv_l by lra. nra. }
    lra.
Qed.
Lemma factor_size x : Rabs x <= / 2 -> / (1 - x) <= exp (2 * Rabs x).
Proof.
  intros H. destruct (Rle_or_lt 0 x) as [Hx|Hx].
  - rewrite Rabs_pos_eq in * by assumption. apply Rle_trans with (1 + 2 * x); [|assert (E := exp_ineq1_le (2 * x)); lra].
    apply Rmult_le_reg_r with (1 - x); [lra|]. rewrite Rinv_l by lra. nra.
  - apply Rle_trans with 1; [|assert (E := exp_ineq1_le (2 * Rabs x)); assert (P := Rabs_pos x); lra].
    rewrite <- Rinv_1. apply Rinv_le_contravar; lra.
Qed.
Lemma power_error (a b c : R) N : 0 <= b <= a -> a <= c -> 1 <= c -> 0 <= a ^ N - b ^ N <= INR N * (a - b) * c ^ N.
Proof.
  intros [Hb Hba] Hc H1. induction N as [|N IH]; [cbn; lra|]. destruct IH as [IH0 IH].
  assert (HbN : b ^ N <= c ^ N) by (apply pow_incr; lra). assert (Hb0 : 0 <= b ^ N) by (apply pow_le; exact Hb).
  assert (HcN : 0 <= c ^ N) by lra. assert (HN := pos_INR N).
  replace (a ^ S N - b ^ S N) with (a * (a ^ N - b ^ N) + (a - b) * b ^ N) by (cbn [pow]; ring). split.
  - apply Rplus_le_le_0_compat; apply Rmult_le_pos; lra.
  - rewrite S_INR. replace ((INR N + 1) * (a - b) * c ^ S N) with (c * (INR N * (a - b) * c ^ N) + (a - b) * (c ^ N * c)) by (cbn [pow]; ring).
    apply Rplus_le_compat; [apply Rmult_le_compat; lra|]. apply Rmult_le_compat_l; [lra|]. apply Rle_trans with (1 := HbN).
    rewrite <- (Rmult_1_r (c ^ N)) at 1. apply Rmult_le_compat_l; lra.
Qed.
Lemma exp_times x N : exp x ^ N = exp (INR N * x).
Proof.
  induction N as [|N IH]; [cbn; rewrite Rmult_0_l, exp_0; reflexivity|]. rewrite S_INR, Rmult_plus_distr_r, Rmult_1_l, exp_plus, <- IH. cbn [pow]. ring.
Qed.

(** Error after [N] steps of size T/N. *)
Lemma steps_error A T s (N : nat) : (0 < N)%nat -> 0 <= A -> 0 <= T -> Rabs s <= A -> 2 * (A * T) <= INR N ->
  Rabs ((/ (1 - T / INR N * s)) ^ N - exp (s * T)) <= 2 * (A * T) ^ 2 * exp (2 * (A * T)) / INR N.
Proof.
  intros HN HA HT Hs HB. assert (HN' : 0 < INR N) by (apply lt_0_INR; exact HN).
  set (x := T / INR N * s). set (y := A * T / INR N).
  assert (Hy : Rabs x <= y).
  { unfold x, y. rewrite Rabs_mult, (Rabs_pos_eq (T / INR N)).
    - replace (A * T / INR N) with (T / INR N * A) by (field; lra). apply Rmult_le_compat_l; [|exact Hs]. apply Rmult_le_pos; [exact HT|]. left. apply Rinv_0_lt_compat, HN'.
    - apply Rmult_le_pos; [exact HT|]. left. apply Rinv_0_lt_compat, HN'. }
  assert (Hy2 : y <= / 2).
  { unfold y. apply Rmult_le_reg_r with (1 := HN'). unfold Rdiv. rewrite Rmult_assoc, Rinv_l by lra. lra. }
  assert (HE := factor_error x ltac:(lra)). assert (HF := factor_size x ltac:(lra)).
  assert (Hc : / (1 - x) <= exp (2 * y)).
  { apply Rle_trans with (1 := HF). destruct (Rle_lt_or_eq_dec _ _ Hy) as [Y|Y]; [left; apply exp_increasing; lra|rewrite Y; right; reflexivity]. }
  assert (Hpos := exp_pos x). assert (Hy0 := Rabs_pos x).
  assert (HP := power_error (/ (1 - x)) (exp x) (exp (2 * y)) N ltac:(lra) Hc ltac:(assert (E := exp_ineq1_le (2 * y)); lra)).
  rewrite !exp_times in HP. replace (INR N * x) with (s * T) in HP by (unfold x; field; lra).
  replace (INR N * (2 * y)) with (2 * (A * T)) in HP by (unfold y; field; lra).
  rewrite Rabs_pos_eq by lra. apply Rle_trans with (1 := proj2 HP).
  replace (2 * (A * T) ^ 2 * exp (2 * (A * T)) / INR N) with (INR N * (2 * y ^ 2) * exp (2 * (A * T))) by (unfold y; field; lra).
  apply Rmult_le_compat_r; [left; apply exp_pos|]. apply Rmult_le_compat_l; [lra|].
  apply Rle_trans with (1 := proj2 HE). assert (Hsq : x ^ 2 <= y ^ 2) by (rewrite <- (pow2_abs x); apply pow_incr; lra). lra.
Qed.

(** ** The solution of y' = s y *)
Lemma linear_derivative s t : derivable_pt_lim (fun t => s * t) t s.
Proof. assert (H := derivable_pt_lim_scal id s t 1 (derivable_pt_lim_id t)). rewrite Rmult_1_r in H. exact H. Qed.
Lemma exponential (f : R -> R) s : (forall t, derivable_pt_lim f t (s * f t)) -> forall t, f t = exp (s * t) * f 0.
Proof.
  intros Hf. set (g := fun t => f t * exp (- (s * t))).
  assert (Hg : forall t, derivable_pt_lim g t 0).
  { intros t. replace 0 with (s * f t * exp (- (s * t)) + f t * (exp (- (s * t)) * (- s))) by ring.
    apply (derivable_pt_lim_mult f (fun t => exp (- (s * t))) t (s * f t)); [apply Hf|].
    apply (derivable_pt_lim_comp (fun t => - (s * t)) exp t (- s)); [|apply derivable_pt_lim_exp].
    apply (derivable_pt_lim_opp (fun t => s * t) t s). apply linear_derivative. }
  assert (HC : forall t, g t = g 0).
  { assert (pr : derivable g) by (intros t; exists 0; apply Hg). intros t. apply (null_derivative_1 g pr).
    intros x. apply derive_pt_eq_0, Hg. }
  intros t. assert (H := HC t). unfold g in H. rewrite Rmult_0_r, Ropp_0, exp_0, Rmult_1_r in H. rewrite <- H, (Rmult_comm (f t)), <- Rmult_assoc, <- exp_plus.
  rewrite Rplus_opp_r, exp_0. ring.
Qed.
Lemma exponential_solves c s t : derivable_pt_lim (fun t => exp (s * t) * c) t (s * (exp (s * t) * c)).
Proof.
  replace (s * (exp (s * t) * c)) with (exp (s * t) * s * c + exp (s * t) * 0) by ring.
  apply (derivable_pt_lim_mult (fun t => exp (s * t)) (fun _ => c) t); [|apply derivable_pt_lim_const].
  apply (derivable_pt_lim_comp (fun t => s * t) exp t s); [|apply derivable_pt_lim_exp].
  apply linear_derivative.
Qed.

Lemma Cnorm2_scale r z : Cnorm2 (Cmul (RtoC r) z) = (r ^ 2 * Cnorm2 z)%R.
Proof. unfold Cnorm2, Cmul, RtoC, Re, Im. cbn [fst snd]. ring. Qed.

Lemma derivable_ext (f g : R -> R) t l : (forall u, g u = f u) -> derivable_pt_lim f t l -> derivable_pt_lim g t l.
Proof. intros E H eps He. destruct (H eps He) as (de & Hd). exists de. intros h H0 Hh. rewrite !E. exact (Hd h H0 Hh). Qed.
Open Scope nat_scope.

Lemma map2_at (f : C -> C -> C) x y n i : length x = n -> length y = n -> i < n -> nth i (map2 f x y) C0 = f (nth i x C0) (nth i y C0).
Proof. revert y n i. induction x as [|a x IH]; intros [|b y] [|n] i Hx Hy Hi; cbn [length] in *; try lia. destruct i; cbn [map2 nth]; [reflexivity|]. apply (IH y n); lia. Qed.

Lemma energy_difference n d d' : length d = n -> length d' = n ->
  energy (map2 (fun u v => Cadd u (Cmul (RtoC (-1)) v)) d d') = distance2 d d'.
Proof.
  intros H H'. unfold energy, distance2. rewrite (map2_length _ d d' n H H'), H. apply Vec.rsum_ext. intros j Hj.
  apply (f_equal Cnorm2). rewrite (map2_at _ d d' n j H H' Hj). csolve.
Qed.

Section Linear.
  Variables (L : lang) (cs : list call) (es : list eqtext).
  Hypothesis LM : linear_model L cs es.
  Variable m : mstate.
  Hypothesis Em : run_calls new_mstate (cs ++ [CInit]) = Ok m.
  Variables (n : nat) (ft : transform) (lib : library).
  Hypothesis GL : good_library L n lib.

  Lemma amplitude_written U i q k : solution L cs es n ft lib U -> nth_error es i = Some q -> k < n ->
    forall t, changes (fun s => amplitude_of ft (U s) i k) t (Cmul (symbol L lib (tfreq ft k) q) (amplitude_of ft (U t) i k)).
  Proof.
    intros [HU HS] Hq Hk t. destruct (HS t i q k Hq Hk) as (M & HW & HC). destruct (HU t) as [HL HA].
    assert (Hi := linear_order L cs es LM i q Hq). destruct (nth_error (U t) i) as [d|] eqn:Ed; [|apply nth_error_None in Ed; lia].
    assert (Hl : linear_equation L q) by (assert (H := lm_linear _ _ _ LM); rewrite Forall_forall in H; apply H; exact (nth_error_In _ _ Hq)).
    assert (E := linear_written L cs n ft lib _ _ _ q k M d i HA Hl (order_nth L es (lm_order _ _ _ LM) i q Hq) Ed HW).
    unfold amplitude_of at 2. rewrite (nth_error_nth _ _ _ Ed), <- E. exact HC.
  Qed.

  Lemma solution_amplitude U i q k s : solution L cs es n ft lib U -> nth_error es i = Some q -> k < n -> symbol L lib (tfreq ft k) q = RtoC s ->
    forall t, amplitude_of ft (U t) i k = Cmul (RtoC (exp (s * t))) (amplitude_of ft (U 0%R) i k).
  Proof.
    intros HS Hq Hk Hs t. assert (HC := amplitude_written U i q k HS Hq Hk). rewrite Hs in HC.
    assert (H1 := exponential (fun s => Re (amplitude_of ft (U s) i k)) s). assert (H2 := exponential (fun s => Im (amplitude_of ft (U s) i k)) s).
    cbv beta in H1, H2. apply C_eq.
    - rewrite H1.
      + unfold Cmul, RtoC, Re, Im. cbn [fst snd]. ring.
      + intros u. destruct (HC u) as [X _]. replace (s * Re (amplitude_of ft (U u) i k))%R with (Re (Cmul (RtoC s) (amplitude_of ft (U u) i k))); [exact X|].
        unfold Cmul, RtoC, Re, Im. cbn [fst snd]. ring.
    - rewrite H2.
      + unfold Cmul, RtoC, Re, Im. cbn [fst snd]. ring.
      + intros u. destruct (HC u) as [_ X]. replace (s * Im (amplitude_of ft (U u) i k))%R with (Im (Cmul (RtoC s) (amplitude_of ft (U u) i k))); [exact X|].
        unfold Cmul, RtoC, Re, Im. cbn [fst snd]. ring.
  Qed.

  Hypothesis UT : unitary_transform n ft.
  Hypothesis Hn : 0 < n.
  Let GT := ut_good n ft UT.

  Lemma closed_real (x : R) N (y y' : C) : (1 - x <> 0)%R -> Cmul (Cpow (Csub C1 (RtoC x)) N) y' = y -> y' = Cmul (RtoC ((/ (1 - x)) ^ N)) y.
  Proof.
    intros Hx <-. assert (E : Cpow (Csub C1 (RtoC x)) N = RtoC ((1 - x) ^ N)).
    { clear. induction N as [|N IH]; cbn [Cpow pow]; [reflexivity|]. rewrite IH. csolve. }
    rewrite E. rewrite pow_inv. assert (Hp : ((1 - x) ^ N <> 0)%R) by (apply pow_nonzero; exact Hx).
    assert (E2 : forall a b : R, Cmul (RtoC a) (Cmul (RtoC b) y') = Cmul (RtoC (a * b)) y') by (intros a b; csolve).
    rewrite E2, Rinv_l by exact Hp. csolve.
  Qed.

  Lemma converges U i q A T N e e' d : solution L cs es n ft lib U -> nth_error es i = Some q -> (0 <= A)%R -> (0 <= T)%R -> 0 < N ->
    (forall k, k < n -> exists s, symbol L lib (tfreq ft k) q = RtoC s /\ (Rabs s <= A)%R) -> (2 * (A * T) <= INR N)%R ->
    fits L n m e -> e_fields e = U 0%R -> many_steps L es m n ft lib (T / INR N) N e e' -> nth_error (e_fields e') i = Some d ->
    (distance2 d (nth i (U T) []) <= (2 * (A * T) ^ 2 * exp (2 * (A * T)) / INR N) ^ 2 * energy (nth i (U 0) []))%R.
  Proof.
    intros HS Hq HA HT HN Hs HB Hf HU HM Hd. assert (Hf' := many_fits L es m n ft lib (T / INR N) N e e' Hf HM).
    assert (Hi := linear_order L cs es LM i q Hq).
    assert (LU : forall t, length (nth i (U t) []) = n).
    { intros t. destruct (proj1 HS t) as [X1 X2]. unfold all_length in X2. rewrite Forall_forall in X2. apply X2, nth_In. rewrite X1. exact Hi. }
    assert (Ld : length d = n) by (destruct Hf' as (_ & X & _); exact (all_length_nth n _ i d X Hd)).
    set (D := map2 (fun u v => Cadd u (Cmul (RtoC (-1)) v)) d (nth i (U T) [])).
    assert (LD : length D = n) by (apply map2_length; [exact Ld|apply LU]).
    rewrite <- (energy_difference n d _ Ld (LU T)). fold D.
    assert (Hn' : (0 < INR n)%R) by (apply lt_0_INR; exact Hn). apply Rmult_le_reg_l with (1 := Hn').
    rewrite (energy_modes n ft D UT LD). set (B := (2 * (A * T) ^ 2 * exp (2 * (A * T)) / INR N)%R).
    replace (INR n * (B ^ 2 * energy (nth i (U 0%R) [])))%R with (B ^ 2 * (INR n * energy (nth i (U 0%R) [])))%R by ring.
    rewrite (energy_modes n ft _ UT (LU 0%R)), <- rsum_scale. apply rsum_le. intros k Hk.
    destruct (Hs k Hk) as (s & Es & As).
    assert (HN' : (0 < INR N)%R) by (apply lt_0_INR; exact HN).
    assert (HE := steps_error A T s N HN HA HT As HB).
    assert (Hx : (Rabs (T / INR N * s) <= / 2)%R).
    { rewrite Rabs_mult, (Rabs_pos_eq (T / INR N)) by (apply Rmult_le_pos; [exact HT|left; apply Rinv_0_lt_compat, HN']).
      apply Rle_trans with (T / INR N * A)%R; [apply Rmult_le_compat_l; [apply Rmult_le_pos; [exact HT|left; apply Rinv_0_lt_compat, HN']|exact As]|].
      apply Rmult_le_reg_r with (1 := HN'). replace (T / INR N * A * INR N)%R with (A * T)%R by (field; lra). lra. }
    assert (Hz : (1 - T / INR N * s <> 0)%R) by (assert (Y := Rle_abs (T / INR N * s)); lra).
    assert (EC : Cmul (RtoC (T / INR N)) (symbol L lib (tfreq ft k) q) = RtoC (T / INR N * s)) by (rewrite Es; csolve).
    assert (HC := many_closed L es m n ft lib (T / INR N) i q k Hq Hk). rewrite EC in HC.
    assert (Hz' : Csub C1 (RtoC (T / INR N * s)) <> C0) by (intros X; apply (f_equal Re) in X; unfold Csub, C1, RtoC, C0, Re in X; cbn [fst] in X; lra).
    specialize (HC Hz' N e e' HM). apply (closed_real _ _ _ _ Hz) in HC. rewrite (mode_nth ft e' i d k Hd) in HC.
    assert (E0 : mode ft e i k = nth k (fft ft (nth i (U 0%R) [])) C0) by (unfold mode; rewrite HU; reflexivity). rewrite E0 in HC.
    assert (HX := solution_amplitude U i q k s HS Hq Hk Es T). unfold amplitude_of in HX.
    unfold D. rewrite (ut_fft_add n ft UT (RtoC (-1)) d _ Ld (LU T)).
    rewrite (map2_at _ _ _ n k (gt_fft_len n ft GT _ Ld) (gt_fft_len n ft GT _ (LU T)) Hk), HC, HX.
    set (y := nth k (fft ft (nth i (U 0%R) [])) C0). set (a := ((/ (1 - T / INR N * s)) ^ N)%R) in *. set (b := exp (s * T)) in *.
    replace (Cadd (Cmul (RtoC a) y) (Cmul (RtoC (-1)) (Cmul (RtoC b) y))) with (Cmul (RtoC (a - b)) y) by csolve.
    rewrite Cnorm2_scale. apply Rmult_le_compat_r; [apply Cnorm2_nonneg|]. rewrite <- (pow2_abs (a - b)). apply pow_incr. split; [apply Rabs_pos|exact HE].
  Qed.

  (** ** Existence of the solution *)
  Definition rate_of (i k : nat) : R := match nth_error es i with Some q => Re (symbol L lib (tfreq ft k) q) | None => 0%R end.
  Definition flow (fields : list data) (t : R) : list data :=
    map (fun i => to_real ft (map (fun k => Cmul (RtoC (exp (rate_of i k * t))) (amplitude_of ft fields i k)) (seq 0 n))) (seq 0 (length fields)).

  Lemma flow_nth fields t i : i < length fields ->
    nth i (flow fields t) [] = to_real ft (map (fun k => Cmul (RtoC (exp (rate_of i k * t))) (amplitude_of ft fields i k)) (seq 0 n)).
  Proof. intros Hi. unfold flow. exact (nth_map_seq _ (length fields) i [] Hi). Qed.

  Lemma flow_length fields t : length (flow fields t) = length fields /\ all_length n (flow fields t).
  Proof.
    split; [unfold flow; rewrite map_length, seq_length; reflexivity|]. unfold flow, all_length. apply Forall_forall. intros x Hx.
    apply in_map_iff in Hx. destruct Hx as (i & <- & _). unfold to_real. rewrite div_real_length. apply (gt_ifft_len n ft GT).
    rewrite map_length, seq_length. reflexivity.
  Qed.

  Lemma flow_amplitude fields t i k : i < length fields -> k < n ->
    amplitude_of ft (flow fields t) i k = Cmul (RtoC (exp (rate_of i k * t))) (amplitude_of ft fields i k).
  Proof.
    intros Hi Hk. unfold amplitude_of at 1. rewrite (flow_nth fields t i Hi), (gt_inverse n ft GT) by (rewrite map_length, seq_length; reflexivity).
    exact (nth_map_seq _ n k C0 Hk).
  Qed.

  Lemma flow_start fields : all_length n fields -> flow fields 0%R = fields.
  Proof.
    intros HA. apply nth_ext with [] []; [apply flow_length|]. intros i Hi. rewrite (proj1 (flow_length fields 0%R)) in Hi.
    rewrite (flow_nth fields 0%R i Hi). assert (Li : length (nth i fields []) = n) by (unfold all_length in HA; rewrite Forall_forall in HA; apply HA, nth_In, Hi).
    rewrite <- (gt_left n ft GT _ Li). apply (f_equal (to_real ft)). rewrite <- (SimProofs.map_nth_seq _ n (gt_fft_len n ft GT _ Li)).
    apply map_ext. intros k. rewrite Rmult_0_r, exp_0. unfold amplitude_of. csolve.
  Qed.

  Lemma flow_solves fields : length fields = length (l_fields L) -> all_length n fields ->
    (forall i q k, nth_error es i = Some q -> k < n -> Im (symbol L lib (tfreq ft k) q) = 0%R) -> solution L cs es n ft lib (flow fields).
  Proof.
    intros HL HA Him. split; [intros t; rewrite <- HL; apply flow_length|]. intros t i q k Hq Hk.
    assert (Hi := linear_order L cs es LM i q Hq). rewrite <- HL in Hi.
    set (E := {| e_fields := map (fft ft) (flow fields t); e_derived := [] |}).
    destruct (written_exists L cs es m (lm_declared _ _ _ LM) Em n ft lib E t q k (flow fields t)) as (M & HW).
    exists M. split; [exact HW|]. destruct (flow_length fields t) as [FL FA].
    destruct (nth_error (flow fields t) i) as [d|] eqn:Ed; [|apply nth_error_None in Ed; lia].
    assert (Hl : linear_equation L q) by (assert (H := lm_linear _ _ _ LM); rewrite Forall_forall in H; apply H; exact (nth_error_In _ _ Hq)).
    assert (EM := linear_written L cs n ft lib _ _ _ q k M d i FA Hl (order_nth L es (lm_order _ _ _ LM) i q Hq) Ed HW).
    assert (Ea : nth k (fft ft d) C0 = amplitude_of ft (flow fields t) i k) by (unfold amplitude_of; rewrite (nth_error_nth _ _ _ Ed); reflexivity).
    rewrite Ea, (flow_amplitude fields t i k Hi Hk) in EM. set (s := rate_of i k) in *. set (y := amplitude_of ft fields i k) in *.
    assert (Es : symbol L lib (tfreq ft k) q = RtoC s).
    { unfold s, rate_of. rewrite Hq. apply C_eq; [reflexivity|exact (Him i q k Hq Hk)]. }
    rewrite Es in EM. rewrite EM.
    assert (HF : forall u, amplitude_of ft (flow fields u) i k = Cmul (RtoC (exp (s * u))) y) by (intros u; exact (flow_amplitude fields u i k Hi Hk)).
    split.
    - apply (derivable_ext (fun u => exp (s * u) * Re y)%R); [intros u; rewrite HF; unfold Cmul, RtoC, Re, Im; cbn [fst snd]; ring|].
      replace (Re (Cmul (RtoC s) (Cmul (RtoC (exp (s * t))) y))) with (s * (exp (s * t) * Re y))%R by (unfold Cmul, RtoC, Re, Im; cbn [fst snd]; ring).
      apply exponential_solves.
    - apply (derivable_ext (fun u => exp (s * u) * Im y)%R); [intros u; rewrite HF; unfold Cmul, RtoC, Re, Im; cbn [fst snd]; ring|].
      replace (Im (Cmul (RtoC s) (Cmul (RtoC (exp (s * t))) y))) with (s * (exp (s * t) * Im y))%R by (unfold Cmul, RtoC, Re, Im; cbn [fst snd]; ring).
      apply exponential_solves.
  Qed.
End Linear.
