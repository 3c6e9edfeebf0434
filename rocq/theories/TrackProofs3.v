From Coq Require Import String.
From Verif Require Import ListAux StepProofs SddProofs DftProofs SaddleProofs SaddleProofs3 SimProofs FlowProofs TrackSpec TrackProofs TrackProofs2 Vec CVec Complex.
From Coq Require Import Lra Lia.
Open Scope R_scope.

Lemma largest_zero k n f v : (forall i j, 0 <= f i j) -> largest k n f v -> v = 0 -> forall i j, (i < k)%nat -> (j < n)%nat -> f i j = 0.
Proof. intros P (A & _) E i j Hi Hj. specialize (A i j Hi Hj). specialize (P i j). lra. Qed.
Lemma rsum_pos_zero n f : (forall i, (i < n)%nat -> 0 <= f i) -> rsum n f = 0 -> forall i, (i < n)%nat -> f i = 0.
Proof.
  intros P Z. assert (Q : rsum n (fun i => sqrt (f i) * sqrt (f i)) = 0) by (rewrite (rsum_ext n _ f); [exact Z|intros i Hi; apply sqrt_sqrt, P, Hi]).
  intros i Hi. assert (X := rsum_sq_zero n (fun i => sqrt (f i)) Q i Hi). cbv beta in X. rewrite <- (sqrt_sqrt (f i) (P i Hi)), X. ring.
Qed.

Lemma same_fields k n fs fs' : length fs = k -> length fs' = k -> all_length n fs -> all_length n fs' ->
  (forall i j, (i < k)%nat -> (j < n)%nat -> value_at fs' i j = value_at fs i j) -> fs' = fs.
Proof.
  intros Lk Lk' A A' H. apply (nth_ext _ _ [] []); [congruence|]. intros i Hi. rewrite Lk' in Hi.
  assert (Ni : length (nth i fs []) = n) by (apply (nth_error_all n fs i); [exact A|apply nth_error_nth'; lia]).
  assert (Ni' : length (nth i fs' []) = n) by (apply (nth_error_all n fs' i); [exact A'|apply nth_error_nth'; lia]).
  apply (list_eq_nth _ _ n); [exact Ni'|exact Ni|]. intros j Hj. exact (H i j Hi Hj).
Qed.
Lemma rate_zero dt fs fs' i j : dt <> 0 -> (Cabs (rate dt fs fs' i j) = 0 <-> value_at fs' i j = value_at fs i j).
Proof.
  intros Hd. assert (E := Cabs_sq (rate dt fs fs' i j)). unfold rate in E at 3. rewrite Cnorm2_div in E by exact Hd. split; intros H.
  - rewrite H in E. assert (Z : Cnorm2 (Csub (value_at fs' i j) (value_at fs i j)) = 0) by (apply (Rmult_eq_reg_r (/ (dt * dt))); [unfold Rdiv in E; lra|apply Rinv_neq_0_compat; nra]).
    assert (Z' : Csub (value_at fs' i j) (value_at fs i j) = C0) by (apply Cabs_zero; unfold Cabs; rewrite Z; apply sqrt_0).
    transitivity (Cadd (Csub (value_at fs' i j) (value_at fs i j)) (value_at fs i j)); [ring|]. rewrite Z'. ring.
  - rewrite H in E. replace (Csub (value_at fs i j) (value_at fs i j)) with C0 in E by ring. assert (Q : Cnorm2 C0 = 0) by (unfold Cnorm2, C0, RtoC; cbn [Re Im fst snd]; ring). rewrite Q in E. unfold Rdiv in E. rewrite Rmult_0_l in E.
    apply Rsqr_0_uniq. exact E.
Qed.

Section Still.
  Variables (n k : nat) (p : pde) (ft : transform).
  Hypothesis U : unitary_transform n ft.
  Hypothesis KL : keeps_length n p.
  Let G := ut_good n ft U.
  Variables (s s' : sdd) (mo mo' : sdd_monitor) (e e' : env) (w : bool).
  Hypothesis R : dimer_ready n k s e.
  Hypothesis H : track_step p ft s mo e = Some (s', mo', e', w).
  Lemma step_dt : 0 < s_dt s /\ (0 < k)%nat.
  Proof.
    assert (SS := track_step_forget _ _ _ _ _ _ _ _ _ H). destruct (sdd_step_inv _ _ _ _ _ _ SS) as (_ & Hdt & f0 & fs & rs & re & e1 & den & Ef & _).
    destruct R as [Hn Hk _ _ _ _ _]. rewrite Ef in Hk. cbn [length] in Hk. split; [|lia]. assert (0 < / 10 ^ 16) by (apply Rinv_0_lt_compat, pow_lt; lra). lra.
  Qed.
  Lemma ready' : dimer_ready n k s' e'.
  Proof. exact (proj1 (sdd_step_ready n k p ft s e s' e' U KL R (track_step_forget _ _ _ _ _ _ _ _ _ H))). Qed.

  Lemma map_fft_inj fs fs' : all_length n fs -> all_length n fs' -> map (fft ft) fs = map (fft ft) fs' -> fs = fs'.
  Proof. intros A A' E. rewrite <- (map_round n ft G fs A), <- (map_round n ft G fs' A'), E. reflexivity. Qed.

  Lemma force_still : mo_force mo' = 0 <-> e_fields e' = e_fields e.
  Proof.
    destruct (track_step_spec n k p ft U KL s mo e s' mo' e' w R H) as (_ & _ & _ & _ & L & _). destruct step_dt as (Dp & _).
    assert (R1 := ready'). destruct R as [_ Hk Ha _ _ _ _]. destruct R1 as [_ Hk' Ha' _ _ _ _]. split; intros E.
    - apply map_fft_inj; [exact Ha'|exact Ha|]. apply (same_fields k n); try (rewrite map_length; assumption); try (apply (map_fft_all n ft G); assumption).
      intros i j Hi Hj. apply (rate_zero (s_dt s)); [lra|]. apply (largest_zero k n _ _ (fun i j => Cabs_pos _) L E i j Hi Hj).
    - destruct L as (_ & i & j & _ & _ & L). rewrite L, E. apply rate_zero; [lra|reflexivity].
  Qed.
  Lemma spectrum_still : mo_spectrum mo' = 0 <-> e_fields e' = e_fields e.
  Proof.
    destruct (track_step_spec n k p ft U KL s mo e s' mo' e' w R H) as (_ & _ & _ & _ & _ & L & _). destruct step_dt as (Dp & Kp).
    assert (R1 := ready'). destruct R as [Hn Hk Ha _ _ _ _]. destruct R1 as [_ Hk' Ha' _ _ _ _].
    assert (KN : 0 < INR (k * n)) by (apply lt_0_INR, Nat.mul_pos_pos; assumption).
    set (S := rsum k (fun i => rsum n (fun j => Cnorm2 (rate (s_dt s) (e_fields e) (e_fields e') i j)))).
    assert (SP : 0 <= S) by (apply rsum_nonneg; intros; apply rsum_nonneg; intros; apply Cnorm2_nonneg).
    unfold root_mean_square in L. fold S in L. split; intros E.
    - rewrite E in L. symmetry in L. apply sqrt_eq_0 in L; [|apply Rmult_le_pos; [exact SP|left; apply Rinv_0_lt_compat, KN]].
      assert (Z : S = 0) by (apply (Rmult_eq_reg_r (/ INR (k * n))); [unfold Rdiv in L; lra|apply Rinv_neq_0_compat; lra]).
      apply (same_fields k n); try assumption. intros i j Hi Hj. apply (rate_zero (s_dt s)); [lra|].
      assert (Z1 : rsum n (fun j => Cnorm2 (rate (s_dt s) (e_fields e) (e_fields e') i j)) = 0) by (apply (rsum_pos_zero k (fun i => rsum n (fun j => Cnorm2 (rate (s_dt s) (e_fields e) (e_fields e') i j)))); [intros; apply rsum_nonneg; intros; apply Cnorm2_nonneg|exact Z|exact Hi]).
      assert (Z2 := rsum_pos_zero n _ (fun j _ => Cnorm2_nonneg _) Z1 j Hj). cbv beta in Z2. unfold Cabs. rewrite Z2. apply sqrt_0.
    - rewrite L. replace S with 0; [unfold Rdiv; rewrite Rmult_0_l; apply sqrt_0|]. symmetry. unfold S. rewrite E. rewrite (rsum_ext k _ (fun _ => 0)); [apply rsum_0|]. intros i _. rewrite (rsum_ext n _ (fun _ => 0)); [apply rsum_0|]. intros j _.
      rewrite <- Cabs_sq. assert (Q : Cabs (rate (s_dt s) (e_fields e) (e_fields e) i j) = 0) by (apply rate_zero; [lra|reflexivity]). rewrite Q. ring.
  Qed.
  (** The two measures of the force bound each other. *)
  Lemma force_bounds : INR n * (mo_spectrum mo' * mo_spectrum mo') <= mo_force mo' * mo_force mo' <= INR k * (INR n * INR n) * (mo_spectrum mo' * mo_spectrum mo').
  Proof.
    destruct (track_step_spec n k p ft U KL s mo e s' mo' e' w R H) as (_ & _ & _ & _ & L & L2 & _). destruct step_dt as (Dp & Kp).
    assert (R1 := ready'). destruct R as [Hn Hk Ha _ _ _ _]. destruct R1 as [_ Hk' Ha' _ _ _ _].
    set (A := fun i j => rate (s_dt s) (map (fft ft) (e_fields e)) (map (fft ft) (e_fields e')) i j) in *.
    set (S := rsum k (fun i => rsum n (fun j => Cnorm2 (rate (s_dt s) (e_fields e) (e_fields e') i j)))) in *.
    assert (NP : 0 < INR n) by (apply lt_0_INR, Hn). assert (KP : 0 < INR k) by (apply lt_0_INR, Kp).
    assert (SP : 0 <= S) by (apply rsum_nonneg; intros; apply rsum_nonneg; intros; apply Cnorm2_nonneg).
    assert (PS : rsum k (fun i => rsum n (fun j => Cnorm2 (A i j))) = INR n * S).
    { unfold S. rewrite <- rsum_mul_l. apply rsum_ext. intros i Hi.
      assert (Ni : length (nth i (e_fields e) []) = n) by (apply (nth_error_all n (e_fields e) i); [exact Ha|apply nth_error_nth'; lia]).
      assert (Ni' : length (nth i (e_fields e') []) = n) by (apply (nth_error_all n (e_fields e') i); [exact Ha'|apply nth_error_nth'; lia]).
      assert (VF : forall fs0 j, (i < length fs0)%nat -> value_at (map (fft ft) fs0) i j = nth j (fft ft (nth i fs0 [])) C0).
      { intros fs0 j Hi0. unfold value_at. f_equal. rewrite (nth_indep _ [] (fft ft [])) by (rewrite map_length; exact Hi0). apply map_nth. }
      rewrite (rsum_ext n _ (fun j => Cnorm2 (Csub (nth j (fft ft (nth i (e_fields e') [])) C0) (nth j (fft ft (nth i (e_fields e) [])) C0)) * / (s_dt s * s_dt s))) by (intros j _; unfold A, rate; rewrite Cnorm2_div by lra; rewrite !VF by lia; reflexivity).
      rewrite rsum_mul_r, (parseval_sub n ft _ _ U Ni' Ni). rewrite (rsum_ext n (fun j => Cnorm2 (rate _ _ _ i j)) (fun j => Cnorm2 (Csub (nth j (nth i (e_fields e') []) C0) (nth j (nth i (e_fields e) []) C0)) * / (s_dt s * s_dt s))) by (intros j _; unfold rate; rewrite Cnorm2_div by lra; reflexivity).
      rewrite rsum_mul_r. ring. }
    assert (M2 : mo_spectrum mo' * mo_spectrum mo' = S / (INR k * INR n)).
    { rewrite L2. unfold root_mean_square. fold S. rewrite mult_INR. apply sqrt_sqrt. apply Rmult_le_pos; [exact SP|left; apply Rinv_0_lt_compat, Rmult_lt_0_compat; assumption]. }
    destruct L as (L & i0 & j0 & Hi0 & Hj0 & LE). assert (MP : 0 <= mo_force mo') by (rewrite LE; apply Cabs_pos). rewrite M2. split.
    - assert (X : INR n * S <= INR k * (INR n * (mo_force mo' * mo_force mo'))).
      { rewrite <- PS. assert (RC : forall m x, rsum m (fun _ => x) = INR m * x) by (induction m as [|m IH]; intros x; [cbn [rsum]; change (INR 0) with 0; ring|rewrite S_INR; cbn [rsum]; rewrite IH; ring]).
        rewrite <- (RC n), <- (RC k). apply rsum_le. intros i Hi. apply rsum_le. intros j Hj. rewrite <- Cabs_sq. assert (Y := L i j Hi Hj). assert (Z := Cabs_pos (A i j)). apply Rmult_le_compat; assumption. }
      apply (Rmult_le_reg_l (INR k)); [exact KP|]. replace (INR k * (INR n * (S / (INR k * INR n)))) with S by (field; lra). apply (Rmult_le_reg_l (INR n)); [exact NP|]. lra.
    - replace (INR k * (INR n * INR n) * (S / (INR k * INR n))) with (INR n * S) by (field; lra). rewrite <- PS, LE, Cabs_sq.
      assert (ONE : forall m f i, (i < m)%nat -> (forall i, 0 <= f i) -> f i <= rsum m f).
      { induction m as [|m IH]; intros f i Hi P; [lia|]. cbn [rsum]. assert (Q := P m). destruct (Nat.eq_dec i m) as [->|Ne]; [assert (0 <= rsum m f) by (apply rsum_nonneg; intros; apply P); lra|]. assert (f i <= rsum m f) by (apply IH; [lia|exact P]). lra. }
      apply Rle_trans with (rsum n (fun j => Cnorm2 (A i0 j))); [apply (ONE n (fun j => Cnorm2 (A i0 j)) j0 Hj0); intros; apply Cnorm2_nonneg|].
      apply (ONE k (fun i => rsum n (fun j => Cnorm2 (A i j))) i0 Hi0). intros; apply rsum_nonneg; intros; apply Cnorm2_nonneg.
  Qed.
  Lemma torque_still : mo_torque mo' = 0 <-> s_orient s' = s_orient s.
  Proof.
    destruct (track_step_spec n k p ft U KL s mo e s' mo' e' w R H) as (_ & _ & _ & _ & _ & _ & T & TO & L). destruct step_dt as (Dp & Kp).
    assert (R1 := ready'). destruct R as [Hn Hk Ha Ho Hu Hl Ht]. destruct R1 as [_ _ _ Ho' _ _ _]. destruct TO as [TO TT]. cbv zeta in TT.
    set (c := s_dt s / (dimer_length s (sdd_time s) * s_tau_orient s)) in *. set (N := rsum (k * n) (fun i => T i * T i)) in *.
    assert (Lp := dimer_length_positive s (sdd_time s) Hl).
    assert (Cc : c <> 0) by (unfold c, Rdiv; apply Rmult_integral_contrapositive_currified; [lra|]; apply Rinv_neq_0_compat, Rmult_integral_contrapositive_currified; lra).
    assert (NP : 0 <= N) by (apply rsum_nonneg; intros; apply Rle_0_sqr).
    assert (SQ : 1 <= sqrt (1 + c * c * N)). { rewrite <- sqrt_1 at 1. apply sqrt_le_1_alt. assert (0 <= c * c * N) by (apply Rmult_le_pos; [apply Rle_0_sqr|exact NP]). lra. }
    assert (KN : (0 < k * n)%nat) by (apply Nat.mul_pos_pos; assumption).
    assert (ZT : (forall j, (j < k * n)%nat -> T j = 0) <-> s_orient s' = s_orient s).
    { split; intros E.
      - assert (N0 : N = 0) by (unfold N; rewrite (rsum_ext _ _ (fun _ => 0)) by (intros j Hj; rewrite (E j Hj); ring); apply rsum_0).
        apply (nth_ext _ _ 0 0); [congruence|]. intros j Hj. rewrite Ho' in Hj. rewrite (TT j Hj), (E j Hj), N0. replace (1 + c * c * 0) with 1 by ring. rewrite sqrt_1. field.
      - assert (E1 : forall j, (j < k * n)%nat -> (sqrt (1 + c * c * N) - 1) * (T j * nth j (s_orient s) 0) = - c * (T j * T j)).
        { intros j Hj. assert (X := TT j Hj). rewrite E in X. set (q := sqrt (1 + c * c * N)) in *. assert (Y : nth j (s_orient s) 0 * q = nth j (s_orient s) 0 - c * T j) by (rewrite X at 1; field; lra). transitivity (T j * (nth j (s_orient s) 0 * q) - T j * nth j (s_orient s) 0); [ring|]. rewrite Y. ring. }
        assert (E2 : rsum (k * n) (fun j => (sqrt (1 + c * c * N) - 1) * (T j * nth j (s_orient s) 0)) = rsum (k * n) (fun j => - c * (T j * T j))) by (apply rsum_ext; exact E1).
        rewrite !rsum_mul_l, TO in E2. fold N in E2. assert (N0 : N = 0) by (apply (Rmult_eq_reg_l (- c)); lra). exact (rsum_sq_zero (k * n) T N0). }
    rewrite <- ZT. split; intros E.
    - intros j Hj. assert (X := largest_zero 1 (k * n) _ _ (fun _ j => Rabs_pos _) L E 0%nat j ltac:(lia) Hj). cbv beta in X. destruct (Req_dec (T j) 0) as [Y|Y]; [exact Y|]. apply Rabs_no_R0 in Y. lra.
    - destruct L as (_ & i & j & _ & Hj & L). rewrite L, (E j Hj). apply Rabs_R0.
  Qed.
End Still.

Section Runs.
  Variables (n k : nat) (p : pde) (ft : transform).
  Hypothesis U : unitary_transform n ft.
  Hypothesis KL : keeps_length n p.
  Lemma track_run_add : forall a b s mo e, track_run p ft (a + b) s mo e = match track_run p ft a s mo e with None => None | Some (s1, mo1, e1) => track_run p ft b s1 mo1 e1 end.
  Proof. induction a as [|a IH]; intros b s mo e; [reflexivity|]. cbn [Nat.add track_run]. destruct (track_step p ft s mo e) as [[[[s1 mo1] e1] w]|]; [apply IH|reflexivity]. Qed.
  Lemma track_run_forget : forall N s mo e s' mo' e', track_run p ft N s mo e = Some (s', mo', e') -> sdd_run p ft N s e = Some (s', e').
  Proof.
    induction N as [|N IH]; intros s mo e s' mo' e' H; cbn [track_run sdd_run] in *; [injection H as <- _ <-; reflexivity|].
    destruct (track_step p ft s mo e) as [[[[s1 mo1] e1] w]|] eqn:E; [|discriminate]. rewrite (track_step_forget _ _ _ _ _ _ _ _ _ E). exact (IH _ _ _ _ _ _ H).
  Qed.
  Lemma track_run_some : forall N s mo e s' e', sdd_run p ft N s e = Some (s', e') -> exists mo', track_run p ft N s mo e = Some (s', mo', e').
  Proof.
    induction N as [|N IH]; intros s mo e s' e' H; cbn [track_run sdd_run] in *; [injection H as <- <-; exists mo; reflexivity|].
    destruct (sdd_step p ft s e) as [[s1 e1]|] eqn:E; [|discriminate]. destruct (track_step_some p ft s mo e s1 e1 E) as (mo1 & w & E1). rewrite E1. exact (IH _ mo1 _ _ _ H).
  Qed.
  Lemma last_step N s mo e s' mo' e' : track_run p ft (S N) s mo e = Some (s', mo', e') ->
    exists s1 mo1 e1 w, track_run p ft N s mo e = Some (s1, mo1, e1) /\ track_step p ft s1 mo1 e1 = Some (s', mo', e', w).
  Proof.
    intros H. replace (S N) with (N + 1)%nat in H by lia. rewrite track_run_add in H. destruct (track_run p ft N s mo e) as [[[s1 mo1] e1]|]; [|discriminate].
    cbn [track_run] in H. destruct (track_step p ft s1 mo1 e1) as [[[[s2 mo2] e2] w]|] eqn:E; [|discriminate]. injection H as <- <- <-. exists s1, mo1, e1, w. split; [reflexivity|exact E].
  Qed.
  Lemma run_norm N s mo e s' mo' e' : dimer_ready n k s e -> track_run p ft (S N) s mo e = Some (s', mo', e') ->
    exists s1 e1, sdd_run p ft N s e = Some (s1, e1) /\ mo_norm mo' = squares k n (e_fields e1)
    /\ mo_change mo' = match N with O => mo_norm mo | S N' => match sdd_run p ft N' s e with Some (_, e0) => squares k n (e_fields e0) | None => 0 end end - squares k n (e_fields e1).
  Proof.
    intros R H. destruct (last_step N s mo e s' mo' e' H) as (s1 & mo1 & e1 & w & H1 & H2). assert (F := track_run_forget _ _ _ _ _ _ _ H1). exists s1, e1. split; [exact F|].
    assert (R1 := proj1 (sdd_run_ready n k p ft U KL N s e s1 e1 R F)).
    destruct (track_step_spec n k p ft U KL s1 mo1 e1 s' mo' e' w R1 H2) as (_ & _ & A & B & _). split; [exact A|]. rewrite B. f_equal.
    destruct N as [|N']; [cbn [track_run] in H1; injection H1 as _ <- _; reflexivity|].
    destruct (last_step N' s mo e s1 mo1 e1 H1) as (s0 & mo0 & e0 & w0 & H3 & H4). rewrite (track_run_forget _ _ _ _ _ _ _ H3).
    assert (R0 := proj1 (sdd_run_ready n k p ft U KL N' s e s0 e0 R (track_run_forget _ _ _ _ _ _ _ H3))).
    destruct (track_step_spec n k p ft U KL s0 mo0 e0 s1 mo1 e1 w0 R0 H4) as (_ & _ & A0 & _). exact A0.
  Qed.
End Runs.

Section Log.
  Variables (p : pde) (ft : transform) (show : R -> string).
  Open Scope string_scope.
  Lemma append_assoc (a b c : string) : (a ++ b) ++ c = a ++ (b ++ c).
  Proof. induction a as [|x a IH]; [reflexivity|]. cbn [append]. rewrite IH. reflexivity. Qed.
  Lemma append_nil (a : string) : a ++ "" = a.
  Proof. induction a as [|x a IH]; [reflexivity|]. cbn [append]. rewrite IH. reflexivity. Qed.
  Lemma length_append (a b : string) : String.length (a ++ b) = (String.length a + String.length b)%nat.
  Proof. induction a as [|x a IH]; [reflexivity|]. cbn [append String.length]. rewrite IH. reflexivity. Qed.
  Lemma line_nonempty cells : (0 < String.length (csv_line cells))%nat.
  Proof. unfold csv_line. rewrite length_append. cbn [newline String.length]. lia. Qed.

  Lemma solve_log : forall epochs steps s mo e txt s' mo' e' file, track_solve p ft show epochs steps s mo e (Some txt) = Some (s', mo', e', file) ->
    exists mos, length mos = epochs
    /\ file = Some (txt ++ (match epochs with O => "" | S _ => if Nat.eqb (String.length txt) 0 then csv_line sdd_header else "" end) ++ rows show mos)
    /\ forall i, (i < epochs)%nat -> exists si ei, track_run p ft ((i + 1) * steps) s mo e = Some (si, nth i mos mo, ei).
  Proof.
    induction epochs as [|N IH]; intros steps s mo e txt s' mo' e' file H; cbn [track_solve] in H.
    - injection H as _ _ _ <-. exists []. split; [reflexivity|]. split; [cbn [rows append]; rewrite append_nil; reflexivity|intros; lia].
    - destruct (track_run p ft steps s mo e) as [[[s1 mo1] e1]|] eqn:E; [|discriminate]. cbn [sdd_log] in H.
      set (head := if Nat.eqb (String.length txt) 0 then csv_line sdd_header else "") in *.
      destruct (IH steps s1 mo1 e1 _ s' mo' e' file H) as (mos & Lm & Ef & Hm). exists (mo1 :: mos). split; [cbn [length]; congruence|]. split.
      + rewrite Ef. f_equal. cbn [rows]. assert (NZ : Nat.eqb (String.length (txt ++ head ++ csv_line (sdd_record show mo1))) 0 = false).
        { apply Nat.eqb_neq. rewrite !length_append. assert (P := line_nonempty (sdd_record show mo1)). lia. }
        rewrite NZ. unfold csv_line, sdd_record. rewrite !append_assoc. destruct N; reflexivity.
      + intros [|i] Hi.
        * exists s1, e1. cbn [nth]. replace ((0 + 1) * steps)%nat with steps by lia. exact E.
        * destruct (Hm i ltac:(lia)) as (si & ei & Hr). exists si, ei. replace ((S i + 1) * steps)%nat with (steps + (i + 1) * steps)%nat by lia. rewrite track_run_add, E. cbn [nth]. rewrite Hr.
          rewrite (nth_indep mos mo1 mo) by lia. reflexivity.
  Qed.
  Lemma solve_nolog : forall epochs steps s mo e s' mo' e' file, track_solve p ft show epochs steps s mo e None = Some (s', mo', e', file) -> file = None.
  Proof.
    induction epochs as [|N IH]; intros steps s mo e s' mo' e' file H; cbn [track_solve] in H; [injection H as _ _ _ <-; reflexivity|].
    destruct (track_run p ft steps s mo e) as [[[s1 mo1] e1]|]; [|discriminate]. exact (IH _ _ _ _ _ _ _ _ H).
  Qed.
End Log.
