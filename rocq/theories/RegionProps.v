(** C115, continued: regions that the steps of Euler do not leave. *)
From Verif Require Import ListAux FileModel ParseProofs StepProofs ConserveProofs EquationProps RegistryProps SimProps.
From Verif Require Import SimProofs SimProofs2 LinearProofs2 LinearProofs3 ConvergeProofs KeepProps MatchProofs2.
From Verif Require Import LimitProofs LimitProofs2 LimitProofs3 LimitProofs4 LimitProps DisturbProofs2 UniqueProps LocalProofs LocalProofs2 LocalProps.
From Verif Require ConvergeProps IndexProofs.
From Verif Require Import DftSpec LimitSpec KeepSpec.
From Coq Require Import Reals ZArith Lia Lra Psatz.
From Verif Require Import Complex.
Open Scope R_scope.

Lemma abs_between x s : Rabs x <= s -> - s <= x <= s.
Proof. unfold Rabs. destruct (Rcase_abs x); lra. Qed.
Lemma norm_limit u r : 0 <= r -> (forall s, 0 < s <= 1 -> exists d, Cnorm2 d <= r /\ size (Csub d u) <= s) -> Cnorm2 u <= r.
Proof.
  intros Hr H. destruct (Rle_or_lt (Cnorm2 u) r) as [|Hlt]; [assumption|exfalso].
  set (g := Cnorm2 u - r) in *. set (c := 4 * (1 + r) + 2). assert (Hc : 6 <= c) by (unfold c; lra). assert (Hg : 0 < g) by (unfold g; lra).
  set (s := Rmin 1 (g / (2 * c))). assert (Gc : 0 < g / (2 * c)) by (apply Rdiv_lt_0_compat; lra).
  assert (S0 : 0 < s) by (unfold s; apply Rmin_glb_lt; lra). assert (S1 : s <= 1) by apply Rmin_l. assert (S2 : s * c <= g / 2).
  { apply Rle_trans with (g / (2 * c) * c); [apply Rmult_le_compat_r; [lra|apply Rmin_r]|right; field; lra]. }
  destruct (H s (conj S0 S1)) as (d & Hd & Q). destruct d as [a b], u as [x y]. unfold size, Csub, Cadd, Copp, Cnorm2 in *. cbn [Re Im fst snd] in *.
  assert (Qa : Rabs (x - a) <= s) by (rewrite Rabs_minus_sym; pose proof (Rabs_pos (b - y)); lra).
  assert (Qb : Rabs (y - b) <= s) by (rewrite Rabs_minus_sym; pose proof (Rabs_pos (a - x)); lra).
  apply abs_between in Qa. apply abs_between in Qb.
  assert (A1 : Rabs a <= 1 + r) by (apply Rabs_le; split; nra). assert (B1 : Rabs b <= 1 + r) by (apply Rabs_le; split; nra).
  apply abs_between in A1. apply abs_between in B1.
  assert (X : x * x <= a * a + 2 * (1 + r) * s + s * s). { replace x with (a + (x - a)) by ring. set (z := x - a) in *. assert (a * z <= (1 + r) * s) by nra. assert (z * z <= s * s) by nra. nra. }
  assert (Y : y * y <= b * b + 2 * (1 + r) * s + s * s). { replace y with (b + (y - b)) by ring. set (z := y - b) in *. assert (b * z <= (1 + r) * s) by nra. assert (z * z <= s * s) by nra. nra. }
  assert (s * s <= s) by nra. unfold g, c in *. nra.
Qed.

(** If the fields cannot leave a bounded region in Euler steps that are short
    enough, then there is a solution up to every time from every start in the
    region, and it has the same bound. *)
Theorem C115_invariant_region : forall L cs es m, declared L cs es -> run_calls new_mstate (cs ++ [CInit]) = Ok m ->
  forall n ft lib, good_library L n lib -> unitary_transform n ft -> map q_field es = l_fields L -> (0 < n)%nat ->
  forall T, 0 < T -> smooth L cs es n lib T ->
  forall (P : list data -> Prop) r h, 0 < h -> (forall fs, P fs -> bounded_by (length (l_fields L)) n r fs) ->
  (forall dt t e e', 0 < dt < h -> 0 <= t <= T -> fits L n m e -> P (e_fields e) -> euler_step (simulation n ft lib m) ft None dt t e = Some e' -> P (e_fields e')) ->
  forall e, fits L n m e -> P (e_fields e) ->
  exists U, solution_until L cs es n ft lib T U /\ U 0 = e_fields e /\ forall t, 0 <= t <= T -> bounded_by (length (l_fields L)) n r (U t).
Proof.
  intros L cs es m HD Em n ft lib GL UT HO Hn T HT SM P r h Hh HP HI e Hf He. set (nf := length (l_fields L)) in *. set (p := simulation n ft lib m) in *.
  assert (GT := ut_good n ft UT).
  assert (Run : forall dt N, 0 < dt < h -> INR N * dt <= T -> forall k step e0 e' s', (step + k <= N)%nat -> fits L n m e0 -> P (e_fields e0) ->
    euler_propagate p ft None dt k step e0 = Some (e', s') -> P (e_fields e')).
  { intros dt N Hdt HN. induction k as [|k IH]; intros step e0 e' s' Hk Hf0 H0 E; cbn [euler_propagate] in E.
    - injection E as <- _. exact H0.
    - destruct (euler_facts L cs es m HD Em n ft lib GL GT HO None dt (time_of dt step) e0 Hf0) as (e1 & Y & Es & _ & _ & Hf1 & _). fold p in Es. rewrite Es in E.
      apply (IH (S step) e1 e' s' ltac:(lia) Hf1); [|exact E]. apply (HI dt (time_of dt step) e0 e1 Hdt); [|exact Hf0|exact H0|exact Es].
      unfold time_of. assert (0 <= INR step) by apply pos_INR. assert (INR step <= INR N) by (apply le_INR; lia). nra. }
  destruct (above_real (T / h)) as (N1 & HN1).
  assert (Short : forall s N, 0 < s <= T -> (N1 <= N)%nat -> (0 < N)%nat -> 0 < s / INR N < h /\ INR N * (s / INR N) = s).
  { intros s N Hs HN HN0. assert (0 < INR N) by (apply lt_0_INR; exact HN0). assert (INR N1 <= INR N) by (apply le_INR; exact HN). split; [split|].
    - apply Rdiv_lt_0_compat; lra.
    - apply Rmult_lt_reg_r with (INR N); [lra|]. replace (s / INR N * INR N) with s by (field; lra). apply Rle_lt_trans with (T / h * h); [replace (T / h * h) with T by (field; lra); lra|].
      rewrite (Rmult_comm h). apply Rmult_lt_compat_r; lra.
    - field. lra. }
  destruct (C115_halving L cs es m HD Em n ft lib GL UT HO Hn T HT SM e Hf (S N1) r ltac:(lia)) as (U & HU & E0).
  { intros j k e' Hk E. assert (P2 : (1 <= 2 ^ j)%nat) by (apply (Nat.pow_le_mono_r 2 0 j); lia). set (N := (S N1 * 2 ^ j)%nat) in *.
    destruct (Short T N ltac:(lra) ltac:(unfold N; nia) ltac:(unfold N; nia)) as (A & B). apply HP. apply (Run (T / INR N) N A ltac:(lra) k 0%nat e e' k Hk Hf He E). }
  exists U. split; [exact HU|]. split; [exact E0|]. intros t Ht i j Hi Hj.
  assert (Hr : 0 <= r). { pose proof (HP _ He i j Hi Hj). pose proof (Cnorm2_nonneg (at_ (e_fields e) i j)). lra. }
  destruct (Req_dec t 0) as [->|Hz]; [rewrite E0; apply HP; assumption|].
  assert (HUt : solution_until L cs es n ft lib t U). { destruct HU as (S1 & S2). split; [exact S1|]. intros u i' q k Hu. apply S2. lra. }
  destruct (C98_error_bound L cs es m HD Em n ft lib GL UT HO Hn t ltac:(lra) (smooth_until _ _ _ _ _ T t SM (proj2 Ht)) U HUt euler_propagate (or_introl eq_refl)) as (D & N0 & HD0 & H).
  apply norm_limit; [exact Hr|]. intros s Hs. destruct (above_real (2 * D / s)) as (N2 & HN2).
  set (N := S (N0 + N1 + N2)). destruct (H e N ltac:(unfold N; lia) ltac:(unfold N; lia) Hf (eq_sym E0) N (le_n N)) as (e' & E1 & Hf' & H1).
  destruct (Short t N ltac:(lra) ltac:(unfold N; lia) ltac:(unfold N; lia)) as (A & B). rewrite B in H1.
  destruct (H1 i Hi) as (d & Ed & Q). exists (at_ (e_fields e') i j). split; [apply HP; [apply (Run (t / INR N) N A ltac:(lra) N 0%nat e e' N (le_n N) Hf He E1)|exact Hi|exact Hj]|].
  assert (Ld : length d = n). { pose proof (proj1 (proj2 Hf')) as F. unfold all_length in F. rewrite Forall_forall in F. apply F. apply nth_error_In in Ed. exact Ed. }
  assert (HNp : 0 < INR N) by (apply lt_0_INR; unfold N; lia). assert (HN3 : INR N2 <= INR N) by (apply le_INR; unfold N; lia).
  assert (Hdn : 0 <= D / INR N) by (apply Rmult_le_pos; [lra|left; apply Rinv_0_lt_compat; lra]).
  apply (node_of_distance d _ _ j Hdn ltac:(lia)) in Q. unfold at_. rewrite (nth_error_nth _ _ [] Ed). apply Rle_trans with (1 := Q).
  apply Rmult_le_reg_r with (INR N); [lra|]. replace (2 * (D / INR N) * INR N) with (2 * D) by (field; lra).
  assert (2 * D = 2 * D / s * s) by (field; lra). nra.
Qed.
Print Assumptions C115_invariant_region.

(** The Allen-Cahn equation: the values in [-1,1] form such a region for time
    steps below 1/3. *)
Definition between (fs : list data) : Prop := Forall (Forall (fun z => Im z = 0 /\ -1 <= Re z <= 1)) fs.
Section Step.
  Variables (n : nat) (ft : transform).
  Hypothesis UT : unitary_transform n ft.
  Hypothesis Hn : (0 < n)%nat.
  Let lib := no_library n principal_power.
  Lemma ac_factor k : AA La ac_eqs ft lib 0 k = C1.
  Proof.
    unfold AA, AF. cbn [nth_error ac_eqs]. unfold signed_items. cbn [q_first q_lead q_more map q_field]. unfold SplitSpec.sum_signed. cbn [Csum map fst snd SplitSpec.implicit_item].
    change (SplitSpec.linear_in La (lit "conc") [plainw "conc" None]) with true. change (SplitSpec.linear_in La (lit "conc") [plainw "conc" (Some 3%nat)]) with false. cbv iota.
    unfold SplitSpec.coefficient. change (scalar_factors La [plainw "conc" None]) with (@nil factor).
    cbn [product_value total_power oper_power plainw wf_op Nat.add pow sign_value]. csolve.
  Qed.
  Lemma ac_explicit k t fs s : shaped 1 n fs -> (k < n)%nat ->
    FF La ac_calls ac_eqs n ft lib 0 k t (amplitude_of ft fs) s = Cmul (RtoC (-1)) (amplitude_at n ft k (fun j => Cpow (at_ fs 0 j) 3)).
  Proof.
    intros Hs Hk. unfold FF. cbn [nth_error ac_eqs]. replace (source_sum ac_calls lib t 0 k) with C0 by reflexivity.
    rewrite (reals_of La n ft UT Hn fs Hs). unfold XF, signed_items. cbn [q_first q_lead q_more map q_field]. unfold SplitSpec.sum_signed. cbn [Csum map fst snd SplitSpec.explicit_item].
    change (SplitSpec.linear_in La (lit "conc") [plainw "conc" None]) with true. change (SplitSpec.linear_in La (lit "conc") [plainw "conc" (Some 3%nat)]) with false. cbv iota.
    unfold SplitSpec.coefficient, SplitSpec.shown_amplitude. change (scalar_factors La [plainw "conc" (Some 3%nat)]) with (@nil factor). change (field_factors La [plainw "conc" (Some 3%nat)]) with [fac "conc" (Some 3%nat)].
    cbn [EquationSpec.amplitude fac fa_exp option_map fa_name].
    assert (A3 : amplitude_at n ft k (fun j => product_value (lb_pow lib) (fun nm => vals La lib fs nm j) [fac "conc" (Some 3%nat)]) = amplitude_at n ft k (fun j => Cpow (at_ fs 0 j) 3)).
    { apply amplitude_ext. intros j Hj. cbn [product_value]. change (lb_pow lib) with principal_power.
      replace (factor_power (fac "conc" (Some 3%nat))) with (INR 3) by (cbn; lra). rewrite principal_natural. change (vals La lib fs (fa_name (fac "conc" (Some 3%nat))) j) with (at_ fs 0 j). csolve. }
    rewrite A3. cbn [sign_value]. change (Ascii.eqb minus_c minus_c) with true. cbn [product_value total_power oper_power plainw wf_op Nat.add pow]. csolve.
  Qed.
  Lemma ac_step T dt t e e' : smooth La ac_calls ac_eqs n lib T -> dt < 1 -> fits La n ac_state e -> euler_step (simulation n ft lib ac_state) ft None dt t e = Some e' ->
    e_fields e' = [map (fun j => Cmul (RtoC (/ (1 - dt))) (Cadd (at_ (e_fields e) 0 j) (Cmul (RtoC (- dt)) (Cpow (at_ (e_fields e) 0 j) 3)))) (seq 0 n)].
  Proof.
    intros SM Hdt Hf Es. assert (GL := no_library_good La n principal_power eq_refl). fold lib in GL.
    destruct (euler_scheme La ac_calls ac_eqs ac_state ac_declared ac_run n ft lib GL UT eq_refl Hn T SM dt t e Hf) as (e1 & E1 & Hf1 & S).
    { intros i k Hi Hk. assert (i = 0%nat) by (cbn in Hi; lia). subst i. rewrite ac_factor. intros E. apply (f_equal Re) in E. unfold Csub, Cmul, RtoC, C1, C0 in E. cbn [Re Im fst snd] in E. lra. }
    assert (e1 = e') by congruence. subst e1. assert (S0 : shaped 1 n (e_fields e)) by exact (fits_shaped La ac_state n e Hf). assert (S1 : shaped 1 n (e_fields e')) by exact (fits_shaped La ac_state n e' Hf1).
    set (u := at_ (e_fields e) 0) in *.
    set (v := fun j => Cmul (RtoC (/ (1 - dt))) (Cadd (u j) (Cmul (RtoC (- dt)) (Cpow (u j) 3)))).
    assert (S2 : shaped 1 n [map v (seq 0 n)]) by (split; [reflexivity|repeat constructor; apply map_seq_length]).
    rewrite <- (reals_of La n ft UT Hn _ S1). change (fun j => Cmul (RtoC (/ (1 - dt))) (Cadd (u j) (Cmul (RtoC (- dt)) (Cpow (u j) 3)))) with v. rewrite <- (reals_of La n ft UT Hn _ S2).
    apply reals_ext; [exact Hn|]. intros i k Hi Hk. assert (i = 0%nat) by (cbn in Hi; lia). subst i.
    assert (Q := S 0%nat k Hi Hk). rewrite ac_factor, (ac_explicit k t _ _ S0 Hk) in Q. fold u in Q.
    change (amplitude_of ft [map v (seq 0 n)] 0 k) with (amplitude_at n ft k v). unfold v. rewrite amplitude_scale, amplitude_linear by assumption.
    assert (U : amplitude_of ft (e_fields e) 0 k = amplitude_at n ft k u).
    { unfold amplitude_of, amplitude_at. f_equal. f_equal. unfold u, at_. symmetry.
      assert (Ln := shaped_nth La n Hn (e_fields e) 0 S0 ltac:(cbn; lia)). rewrite <- Ln at 1. apply LinearProofs2.map_nth_seq. }
    rewrite U in Q. set (a := amplitude_at n ft k u) in *. set (b := amplitude_at n ft k (fun j => Cpow (u j) 3)) in *. set (y := amplitude_of ft (e_fields e') 0 k) in *.
    assert (Z : y = Cmul (RtoC (/ (1 - dt))) (Cmul y (Csub C1 (Cmul (RtoC dt) C1)))).
    { destruct y as [y1 y2]. unfold Cmul, Csub, RtoC, C1. cbn [Re Im fst snd]. f_equal; field; lra. }
    rewrite Z, Q. f_equal. destruct a, b. unfold Cmul, Cadd, RtoC. cbn [Re Im fst snd]. f_equal; ring.
  Qed.
End Step.
Lemma ac_value dt u : 0 < dt < / 3 -> -1 <= u <= 1 -> -1 <= / (1 - dt) * (u + - dt * u ^ 3) <= 1.
Proof.
  intros Hd Hu. assert (0 < 1 - dt) by lra. assert (I : 0 < / (1 - dt)) by (apply Rinv_0_lt_compat; lra).
  assert (E : / (1 - dt) * (1 - dt) = 1) by (field; lra).
  assert (U2 : 0 <= u ^ 2 <= 1) by nra. assert (A : u + - dt * u ^ 3 <= 1 - dt). { assert (0 <= (1 - u) * (1 - dt * (1 + u + u ^ 2))) by (apply Rmult_le_pos; nra). nra. }
  assert (B : - (1 - dt) <= u + - dt * u ^ 3). { assert (0 <= (1 + u) * (1 - dt * (1 - u + u ^ 2))) by (apply Rmult_le_pos; nra). nra. }
  split; nra.
Qed.
(** From every start with values in [-1,1] the Allen-Cahn equation has a solution
    up to every time, and the runs of Euler converge to it. *)
Theorem C115_allen_cahn : forall dom T, valid_domain dom -> 0 < T ->
  let n := nodes dom in let ft := fftw_transform dom in let lib := no_library n principal_power in
  forall d, length d = n -> between [d] ->
  exists U, solution_until La ac_calls ac_eqs n ft lib T U /\ U 0 = [d] /\ forall t, 0 <= t <= T -> bounded_by 1 n 1 (U t).
Proof.
  intros dom T Hv HT n ft lib d Hd Hb. destruct (C98_nonvacuous dom (fun _ => 0) T Hv ltac:(intros; simpl; lra)) as (H1 & H2 & H3 & H4 & H5 & H6 & H7 & _). fold n ft lib in H3, H4, H6, H7.
  apply (C115_invariant_region La ac_calls ac_eqs ac_state H1 H2 n ft lib H3 H4 H5 H6 T HT H7 (fun fs => shaped 1 n fs /\ between fs) 1 (/ 3) ltac:(lra)) with (e := {| e_fields := [d]; e_derived := [[]] |}).
  - intros fs (Hs & HB) i j Hi Hj. cbn in Hi. assert (i = 0%nat) by lia. subst i. destruct Hs as (Hl & HF). destruct fs as [|f [|]]; try discriminate. unfold at_. cbn [nth].
    inversion HB as [|? ? HB1 _]. subst. inversion HF as [|? ? HF1 _]. subst. rewrite Forall_forall in HB1. destruct (HB1 (nth j f C0)) as (I0 & R0); [apply nth_In; lia|].
    unfold Cnorm2. rewrite I0. nra.
  - intros dt t e e' Hdt Ht Hf (Hs & HB) E. rewrite (ac_step n ft H4 H6 T dt t e e' H7 ltac:(lra) Hf E). split; [split; [reflexivity|repeat constructor; apply map_seq_length]|].
    repeat constructor. apply Forall_forall. intros z Hz. apply in_map_iff in Hz. destruct Hz as (j & <- & Hj). apply in_seq in Hj.
    assert (Q : Im (at_ (e_fields e) 0 j) = 0 /\ -1 <= Re (at_ (e_fields e) 0 j) <= 1).
    { destruct Hs as (Hl & HF). destruct (e_fields e) as [|f [|]]; try discriminate. unfold at_. cbn [nth]. inversion HB as [|? ? HB1 _]. subst. inversion HF as [|? ? HF1 _]. subst.
      rewrite Forall_forall in HB1. apply HB1, nth_In. lia. }
    destruct Q as (I0 & R0). destruct (at_ (e_fields e) 0 j) as [a b]. cbn [Re Im fst snd] in I0, R0. subst b. assert (V := ac_value dt a Hdt R0).
    unfold Cpow, Cmul, Cadd, RtoC, C1. cbn [Re Im fst snd]. split; [ring|].
    match goal with |- _ <= ?x <= _ => replace x with (/ (1 - dt) * (a + - dt * a ^ 3)) by (unfold pow; ring) end. exact V.
  - split; [reflexivity|]. split; [repeat constructor; exact Hd|reflexivity].
  - split; [split; [reflexivity|repeat constructor; exact Hd]|exact Hb].
Qed.
Print Assumptions C115_allen_cahn.
