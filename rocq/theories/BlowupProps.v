(** C115, continued: solutions need not exist for all times. *)
From Verif Require Import ListAux FileModel ParseProofs StepProofs ConserveProofs EquationProps RegistryProps SimProps.
From Verif Require Import SimProofs SimProofs2 LinearProofs2 LinearProofs3 ConvergeProofs KeepProps MatchProofs2.
From Verif Require Import LimitProofs LimitProofs2 LimitProofs3 LimitProofs4 LimitProps DisturbProofs2 UniqueProps LocalProofs LocalProofs2 LocalProps.
From Verif Require ConvergeProps IndexProofs DftProofs.
From Verif Require Import DftSpec LimitSpec KeepSpec.
From Coq Require Import Reals ZArith Lia Lra Psatz.
From Verif Require Import Complex.
Open Scope R_scope.

(** The model dconc/dt = conc^2. *)
Definition sq_calls : list call := [CField (lit "conc"); CEquation (lit "dconc/dt = conc^2")].
Definition sq_eqs : list eqtext := [{| q_field := lit "conc"; q_lead := None; q_first := IProduct [plainw "conc" (Some 2%nat)]; q_more := [] |}].
Definition sq_state : mstate := match run_calls new_mstate (sq_calls ++ [CInit]) with Ok m => m | _ => new_mstate end.
Lemma sq_declared : declared La sq_calls sq_eqs.
Proof.
  constructor.
  - good_language.
  - split; [reflexivity|]. intros n. cbn. tauto.
  - exists (firstn 1 sq_calls), (skipn 1 sq_calls). split; [reflexivity|]. split; [|split].
    + intros c H. cbn in H. repeat (destruct H as [<-|H]; [exact (fun x => x)|]). destruct H.
    + intros c H. cbn in H. repeat (destruct H as [<-|H]; [exact (fun x => x)|]). destruct H.
    + discriminate.
  - intros b a eq s E. unfold sq_calls in E.
    do 2 (destruct b as [|? b]; [discriminate E|injection E as <- E]). destruct b; discriminate E.
  - cbn. intuition discriminate.
  - intros k name t ds H. cbn in H. intuition discriminate.
  - constructor; [reflexivity|constructor].
  - constructor; [|constructor]. split; [cbn; auto|]. split; [discriminate|]. split.
    + split; [exists [], [plainw "conc" (Some 2%nat)], []; good_prod|vm_compute; intuition discriminate].
    + constructor.
Qed.
Lemma sq_run : run_calls new_mstate (sq_calls ++ [CInit]) = Ok sq_state.
Proof. vm_compute. reflexivity. Qed.

Definition const_field (n : nat) (a : R) : list data := [map (fun _ => RtoC a) (seq 0 n)].
Section Step.
  Variables (n : nat) (ft : transform).
  Hypothesis UT : unitary_transform n ft.
  Hypothesis Hn : (0 < n)%nat.
  Let lib := no_library n principal_power.
  Lemma sq_factor k : AA La sq_eqs ft lib 0 k = C0.
  Proof.
    unfold AA, AF. cbn [nth_error sq_eqs]. unfold signed_items. cbn [q_first q_lead q_more map q_field]. unfold SplitSpec.sum_signed. cbn [Csum map fst snd SplitSpec.implicit_item].
    change (SplitSpec.linear_in La (lit "conc") [plainw "conc" (Some 2%nat)]) with false. cbv iota. csolve.
  Qed.
  Lemma sq_explicit k t fs s : shaped 1 n fs -> (k < n)%nat ->
    FF La sq_calls sq_eqs n ft lib 0 k t (amplitude_of ft fs) s = amplitude_at n ft k (fun j => Cpow (at_ fs 0 j) 2).
  Proof.
    intros Hs Hk. unfold FF. cbn [nth_error sq_eqs]. replace (source_sum sq_calls lib t 0 k) with C0 by reflexivity.
    rewrite (reals_of La n ft UT Hn fs Hs). unfold XF, signed_items. cbn [q_first q_lead q_more map q_field]. unfold SplitSpec.sum_signed. cbn [Csum map fst snd SplitSpec.explicit_item].
    change (SplitSpec.linear_in La (lit "conc") [plainw "conc" (Some 2%nat)]) with false. cbv iota.
    unfold SplitSpec.coefficient, SplitSpec.shown_amplitude. change (scalar_factors La [plainw "conc" (Some 2%nat)]) with (@nil factor). change (field_factors La [plainw "conc" (Some 2%nat)]) with [fac "conc" (Some 2%nat)].
    cbn [EquationSpec.amplitude fac fa_exp option_map fa_name].
    assert (A3 : amplitude_at n ft k (fun j => product_value (lb_pow lib) (fun nm => vals La lib fs nm j) [fac "conc" (Some 2%nat)]) = amplitude_at n ft k (fun j => Cpow (at_ fs 0 j) 2)).
    { apply amplitude_ext. intros j Hj. cbn [product_value]. change (lb_pow lib) with principal_power.
      replace (factor_power (fac "conc" (Some 2%nat))) with (INR 2) by (cbn; lra). rewrite principal_natural. change (vals La lib fs (fa_name (fac "conc" (Some 2%nat))) j) with (at_ fs 0 j). csolve. }
    rewrite A3. cbn [product_value total_power oper_power plainw wf_op Nat.add pow sign_value]. csolve.
  Qed.
  Lemma sq_smooth T : smooth La sq_calls sq_eqs n lib T.
  Proof.
    apply C98_whole_exponents; try reflexivity; [exact sq_declared|exact (no_library_good La n principal_power eq_refl)|].
    intros q t s w' [<-|[]] Ht Hin. cbn in Ht. destruct Ht as [Ht|[]]; injection Ht as <- _; destruct Hin as [<-|[]]; reflexivity || exact I.
  Qed.
  Lemma sq_step dt t e a : fits La n sq_state e -> e_fields e = const_field n a ->
    exists e', euler_step (simulation n ft lib sq_state) ft None dt t e = Some e' /\ fits La n sq_state e' /\ e_fields e' = const_field n (a + dt * a ^ 2).
  Proof.
    intros Hf E. assert (GL := no_library_good La n principal_power eq_refl). fold lib in GL.
    destruct (euler_scheme La sq_calls sq_eqs sq_state sq_declared sq_run n ft lib GL UT eq_refl Hn 1 (sq_smooth 1) dt t e Hf) as (e1 & E1 & Hf1 & S).
    { intros i k Hi Hk. assert (i = 0%nat) by (cbn in Hi; lia). subst i. rewrite sq_factor. intros X. apply (f_equal Re) in X. unfold Csub, Cmul, RtoC, C1, C0 in X. cbn [Re Im fst snd] in X. lra. }
    exists e1. split; [exact E1|]. split; [exact Hf1|].
    assert (S0 : shaped 1 n (e_fields e)) by exact (fits_shaped La sq_state n e Hf). assert (S1 : shaped 1 n (e_fields e1)) by exact (fits_shaped La sq_state n e1 Hf1).
    assert (S2 : shaped 1 n (const_field n (a + dt * a ^ 2))) by (split; [reflexivity|repeat constructor; apply map_seq_length]).
    rewrite <- (reals_of La n ft UT Hn _ S1), <- (reals_of La n ft UT Hn _ S2). apply reals_ext; [exact Hn|]. intros i k Hi Hk. assert (i = 0%nat) by (cbn in Hi; lia). subst i.
    assert (Q := S 0%nat k Hi Hk). rewrite sq_factor, (sq_explicit k t _ _ S0 Hk) in Q. rewrite E in Q.
    rewrite (amplitude_ext n ft k _ (fun _ => Cpow (RtoC a) 2)) in Q by (intros j Hj; unfold at_, const_field; cbn [nth]; rewrite (nth_map_seq n (fun _ => RtoC a) j Hj); reflexivity).
    change (amplitude_of ft (const_field n a) 0 k) with (amplitude_at n ft k (fun _ => RtoC a)) in Q.
    change (amplitude_of ft (const_field n (a + dt * a ^ 2)) 0 k) with (amplitude_at n ft k (fun _ => RtoC (a + dt * a ^ 2))).
    rewrite <- amplitude_linear in Q by assumption. transitivity (Cmul (amplitude_of ft (e_fields e1) 0 k) (Csub C1 (Cmul (RtoC dt) C0))); [csolve|].
    rewrite Q. apply amplitude_ext. intros j _. cbn [Cpow]. csolve.
  Qed.
  Fixpoint follow_sq (dt a : R) (k : nat) : R := match k with O => a | S k' => follow_sq dt (a + dt * a ^ 2) k' end.
  Lemma sq_propagate dt : forall k step e a, fits La n sq_state e -> e_fields e = const_field n a ->
    exists e' s', euler_propagate (simulation n ft lib sq_state) ft None dt k step e = Some (e', s') /\ e_fields e' = const_field n (follow_sq dt a k).
  Proof.
    induction k as [|k IH]; intros step e a Hf E; cbn [euler_propagate follow_sq]; [eauto|].
    destruct (sq_step dt (time_of dt step) e a Hf E) as (e1 & -> & Hf1 & E1). exact (IH (S step) e1 _ Hf1 E1).
  Qed.
End Step.
Lemma follow_snoc dt : forall k a, follow_sq dt a (S k) = follow_sq dt a k + dt * follow_sq dt a k ^ 2.
Proof. induction k as [|k IH]; intros a; [reflexivity|]. change (follow_sq dt a (S (S k))) with (follow_sq dt (a + dt * a ^ 2) (S k)). rewrite IH. reflexivity. Qed.
(** As long as the values stay below R, their inverse falls. *)
Lemma inverse_falls dt R0 : 0 < dt -> forall k, (forall j, (j <= k)%nat -> follow_sq dt 1 j <= R0) ->
  0 < follow_sq dt 1 k /\ / follow_sq dt 1 k <= 1 - INR k * (dt / (1 + dt * R0)).
Proof.
  intros Hdt. induction k as [|k IH]; intros H; [cbn; rewrite Rinv_1; lra|].
  destruct IH as (P & Q); [intros j Hj; apply H; lia|]. assert (B := H k ltac:(lia)). rewrite follow_snoc. set (a := follow_sq dt 1 k) in *.
  assert (0 < dt * a) by (apply Rmult_lt_0_compat; assumption). assert (0 < dt * R0) by nra.
  split; [nra|]. rewrite S_INR.
  replace (/ (a + dt * a ^ 2)) with (/ a - dt / (1 + dt * a)) by (field; split; nra).
  assert (dt / (1 + dt * R0) <= dt / (1 + dt * a)). { apply Rmult_le_compat_l; [lra|]. apply Rinv_le_contravar; nra. }
  lra.
Qed.
(** From the value 1 everywhere this model has no solution up to a time beyond
    1, although it has one for a short time by C115_short_time: the runs of
    Euler exceed every bound. *)
Theorem C115_all_times_refuted : forall dom T, valid_domain dom -> 1 < T ->
  let n := nodes dom in let ft := fftw_transform dom in let lib := no_library n principal_power in
  (exists s U, 0 < s <= T /\ solution_until La sq_calls sq_eqs n ft lib s U /\ U 0 = const_field n 1)
  /\ ~ exists U, solution_until La sq_calls sq_eqs n ft lib T U /\ U 0 = const_field n 1.
Proof.
  intros dom T Hv HT n ft lib. assert (UT := DftProofs.fftw_unitary dom Hv). fold n ft in UT. assert (GL := no_library_good La n principal_power eq_refl). fold lib in GL.
  assert (Hn : (0 < n)%nat) by (unfold n, nodes; pose proof (IndexProofs.num_nodes_pos dom (proj2 Hv)); lia).
  assert (SM := sq_smooth n T). fold lib in SM.
  split. { apply (C115_short_time La sq_calls sq_eqs sq_state sq_declared sq_run n ft lib GL UT eq_refl Hn T ltac:(lra) SM). split; [reflexivity|repeat constructor; apply map_seq_length]. }
  set (e := {| e_fields := const_field n 1; e_derived := [[]] |}).
  assert (Hf : fits La n sq_state e) by (split; [reflexivity|split; [repeat constructor; apply map_seq_length|reflexivity]]).
  intros X. change (const_field n 1) with (e_fields e) in X. apply (C115_bounded_runs La sq_calls sq_eqs sq_state sq_declared sq_run n ft lib GL UT eq_refl Hn T ltac:(lra) SM e Hf) in X.
  destruct X as (N0 & r & H). set (R0 := 1 + Rabs r). assert (R1 : 1 <= R0) by (unfold R0; pose proof (Rabs_pos r); lra).
  destruct (above_real (T * R0 / (T - 1))) as (N1 & HN1). set (N := S (N0 + N1)). set (dt := T / INR N) in *.
  assert (NP : 0 < INR N) by (apply lt_0_INR; unfold N; lia). assert (Hdt : 0 < dt) by (apply Rdiv_lt_0_compat; lra).
  assert (B : forall k, (k <= N)%nat -> follow_sq dt 1 k <= R0).
  { intros k Hk. destruct (H N k ltac:(unfold N; lia) ltac:(unfold N; lia) Hk) as (e' & E1 & HB). fold dt in E1.
    destruct (sq_propagate n ft UT Hn dt k 0%nat e 1 Hf eq_refl) as (e2 & s2 & E2 & E3). fold lib in E2. rewrite E1 in E2. injection E2 as <- _.
    specialize (HB 0%nat 0%nat ltac:(cbn; lia) Hn). unfold at_ in HB. rewrite E3 in HB. unfold const_field in HB. cbn [nth] in HB. rewrite (nth_map_seq n (fun _ => RtoC (follow_sq dt 1 k)) 0 Hn) in HB.
    unfold Cnorm2, RtoC in HB. cbn [Re Im fst snd] in HB. set (a := follow_sq dt 1 k) in *. pose proof (Rle_abs r). unfold R0.
    destruct (Rle_or_lt a 1); [pose proof (Rabs_pos r); lra|nra]. }
  destruct (inverse_falls dt R0 Hdt N (fun j Hj => B j Hj)) as (P & Q). assert (0 < / follow_sq dt 1 N) by (apply Rinv_0_lt_compat; exact P).
  assert (E : INR N * (dt / (1 + dt * R0)) = T / (1 + dt * R0)). { assert (TP : 0 < T * R0) by nra. assert (0 < dt * R0) by nra. replace T with (INR N * dt) at 1 by (unfold dt; field; lra). field. lra. }
  rewrite E in Q. assert (D1 : dt * R0 <= T - 1).
  { unfold dt. apply Rmult_le_reg_r with (INR N); [exact NP|]. replace (T / INR N * R0 * INR N) with (T * R0 / (T - 1) * (T - 1)) by (field; lra).
    rewrite (Rmult_comm (T - 1)). apply Rmult_le_compat_r; [lra|]. apply Rle_trans with (INR N1); [lra|]. apply le_INR. unfold N. lia. }
  assert (0 < dt * R0) by nra. assert (1 <= T / (1 + dt * R0)). { apply Rmult_le_reg_r with (1 + dt * R0); [lra|]. unfold Rdiv. rewrite Rmult_assoc, Rinv_l by lra. lra. }
  lra.
Qed.
Print Assumptions C115_all_times_refuted.
