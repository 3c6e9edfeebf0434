From Verif Require Import ListAux StepProofs SddProofs DftProofs SaddleProofs SaddleProofs3 SimProofs FlowProofs TrackSpec TrackProofs Vec CVec Complex.
From Coq Require Import Lra Lia.
Open Scope R_scope.

Lemma Cnorm2_div z x : x <> 0 -> Cnorm2 (Cdiv z (RtoC x)) = Cnorm2 z / (x * x).
Proof.
  intros H. assert (E : Cdiv z (RtoC x) = Cmul z (RtoC (/ x))).
  { unfold Cdiv. f_equal. unfold Cinv, RtoC, Cnorm2. apply C_eq; cbn [Re Im fst snd]; field; exact H. }
  rewrite E, Cnorm2_mul, Cnorm2_RtoC. field. exact H.
Qed.

Lemma track_step_some p ft s mo e s' e' : sdd_step p ft s e = Some (s', e') -> exists mo' w, track_step p ft s mo e = Some (s', mo', e', w).
Proof.
  intros H. unfold sdd_step, track_step in *. destruct (s_ready s); [|discriminate]. cbn [negb] in *. destruct (Rlt_dec (s_dt s) (/ 10 ^ 16)); [discriminate|].
  destruct (e_fields e) as [|f0 fs] eqn:Ef; [discriminate|]. cbv zeta in *.
  destruct (extract_rhs p (at_start p ft _ _ e) _ _ _) as [rs|]; [|discriminate]. destruct (extract_rhs p (at_end p ft _ _ e) _ _ _) as [re|]; [|discriminate].
  destruct (sdd_fields _ _ _ _ _ _ _ _ _) as [e1|] eqn:E3; [|discriminate]. destruct (track_fields_some _ _ _ _ _ _ _ _ _ 0 0 _ E3) as (mx & ps & E4). rewrite E4.
  destruct (extract_denum _ _ _ _ _) as [denums|]; [|discriminate]. injection H as <- <-. eexists. eexists. reflexivity.
Qed.

Lemma track_fields_forget p s n fto rs re : forall todo i e mx ps e1 mx' ps', track_fields p s n fto rs re todo i e mx ps = Some (e1, mx', ps') -> sdd_fields p s n fto rs re todo i e = Some e1.
Proof.
  induction todo as [|todo IH]; intros i e mx ps e1 mx' ps' H; cbn [sdd_fields track_fields] in *; [injection H as <- _ _; reflexivity|].
  destruct (nth_error (e_fields e) i) as [d|]; [|discriminate]. set (d1 := map2 _ d _) in *. destruct (get_denum p (set_field e i d1) i (sdd_time s) n) as [a|]; [|discriminate].
  set (d2 := dsm_dot _ d1) in *. destruct (watch_force (s_dt s) n d2 d mx ps) as [mx1 ps1]. exact (IH _ _ _ _ _ _ _ H).
Qed.
Lemma track_step_forget p ft s mo e s' mo' e' w : track_step p ft s mo e = Some (s', mo', e', w) -> sdd_step p ft s e = Some (s', e').
Proof.
  intros H. unfold sdd_step, track_step in *. destruct (s_ready s); [|discriminate]. cbn [negb] in *. destruct (Rlt_dec (s_dt s) (/ 10 ^ 16)); [discriminate|].
  destruct (e_fields e) as [|f0 fs] eqn:Ef; [discriminate|]. cbv zeta in *.
  destruct (extract_rhs p (at_start p ft _ _ e) _ _ _) as [rs|]; [|discriminate]. destruct (extract_rhs p (at_end p ft _ _ e) _ _ _) as [re|]; [|discriminate].
  destruct (track_fields _ _ _ _ _ _ _ _ _ _ _) as [[[e1 mx] ps]|] eqn:E3; [|discriminate]. rewrite (track_fields_forget _ _ _ _ _ _ _ _ _ _ _ _ _ _ E3).
  destruct (extract_denum _ _ _ _ _) as [denums|]; [|discriminate]. injection H as <- _ <- _. reflexivity.
Qed.

Section Step.
  Variables (n k : nat) (p : pde) (ft : transform).
  Hypothesis U : unitary_transform n ft.
  Hypothesis KL : keeps_length n p.
  Let G := ut_good n ft U.

  Lemma track_step_spec s mo e s' mo' e' w : dimer_ready n k s e -> track_step p ft s mo e = Some (s', mo', e', w) ->
    sdd_step p ft s e = Some (s', e') /\ w = false
    /\ mo_norm mo' = squares k n (e_fields e) /\ mo_change mo' = mo_norm mo - squares k n (e_fields e)
    /\ largest k n (fun i j => Cabs (rate (s_dt s) (map (fft ft) (e_fields e)) (map (fft ft) (e_fields e')) i j)) (mo_force mo')
    /\ mo_spectrum mo' = root_mean_square k n (rate (s_dt s) (e_fields e) (e_fields e'))
    /\ exists T, torque_of k n s s' T /\ largest 1 (k * n) (fun _ j => Rabs (T j)) (mo_torque mo').
  Proof.
    intros [Hn Hk Ha Ho Hu Hl Ht] H. assert (H0 := H). unfold track_step in H0.
    assert (SS := track_step_forget _ _ _ _ _ _ _ _ _ H).
    split; [exact SS|].
    destruct (s_ready s); [|discriminate]. cbn [negb] in H0. destruct (Rlt_dec (s_dt s) (/ 10 ^ 16)) as [|Hdt]; [discriminate|].
    assert (Dp : 0 < s_dt s). { assert (0 < / 10 ^ 16) by (apply Rinv_0_lt_compat, pow_lt; lra). lra. }
    destruct (e_fields e) as [|f0 fs] eqn:Ef; [discriminate|]. cbv zeta in H0. rewrite <- Ef in *.
    assert (Ln : length f0 = n) by (rewrite Ef in Ha; inversion Ha; assumption). rewrite Ln, Hk in H0.
    assert (Hkp : (0 < k)%nat) by (rewrite <- Hk, Ef; cbn [length]; lia).
    destruct (extract_rhs p (at_start p ft _ _ e) _ _ _) as [rs|] eqn:E1; [|discriminate]. destruct (extract_rhs p (at_end p ft _ _ e) _ _ _) as [re|] eqn:E2; [|discriminate].
    destruct (track_fields _ _ _ _ _ _ _ _ _ _ _) as [[[e1 mx] ps]|] eqn:E3; [|discriminate].
    destruct (extract_denum _ _ _ _ _) as [denums|] eqn:E4; [|discriminate].
    assert (Lrs : length rs = (k * n)%nat) by (apply (extract_length _ n (fun i r E => get_rhs_length n p _ i _ r KL E) _ _ _ E1)).
    assert (Lre : length re = (k * n)%nat) by (apply (extract_length _ n (fun i r E => get_rhs_length n p _ i _ r KL E) _ _ _ E2)).
    assert (Lden : length denums = (k * n)%nat) by (apply (extract_length _ n (fun i r E => get_denum_length n p _ i _ r KL E) _ _ _ E4)).
    assert (CF : e_fields (at_centre p ft (dimer_length s (sdd_time s)) (s_orient s) e) = map (fft ft) (e_fields e)) by (apply (at_centre_fields n ft G); exact Ha).
    assert (Lfto := fto_length n k ft U (s_orient s) Ho).
    assert (Hc : all_length n (e_fields (at_centre p ft (dimer_length s (sdd_time s)) (s_orient s) e))) by (rewrite CF; apply (map_fft_all n ft G), Ha).
    destruct (track_fields_spec p s n k _ rs re KL Lfto Lrs Lre k 0 _ 0 0 e1 mx ps ltac:(lia) ltac:(rewrite CF, map_length; exact Hk) Hc E3) as (F & F0 & F1 & F2 & F3).
    destruct (sdd_fields_shape p s n k _ rs re KL Lfto Lrs Lre k 0 _ e1 ltac:(lia) Hc F) as (A1 & A2 & _).
    destruct (torque_orthogonal n k ft U Hn (dimer_length s (sdd_time s)) (s_orient s) rs re denums Ho Hu Lrs Lre Lden) as (T1 & T2).
    set (torque := sdd_torque ft n k (dimer_length s (sdd_time s)) (ft_orientation ft n k (s_orient s)) rs re denums) in *.
    injection H0 as Es Em Ee Ew.
    assert (TO : rsum (k * n) (fun j => Re (nth j torque C0) * nth j (s_orient s) 0) = 0).
    { apply (f_equal Re) in T2. unfold inner in T2. rewrite csum_re in T2. cbn [C0 RtoC Re fst] in T2. refine (eq_trans _ T2). apply rsum_ext. intros j _. rewrite map_RtoC_nth. destruct (nth j torque C0) as [a b]. unfold Cmul, Cconj, RtoC. cbn [Re Im fst snd]. ring. }
    split.
    { rewrite <- Ew. unfold torque_warning. rewrite rdot_rsum by (rewrite map_length; congruence). rewrite map_length, T1.
      rewrite (rsum_ext _ _ (fun j => Re (nth j torque C0) * nth j (s_orient s) 0)) by (intros j _; change 0 with (Re C0) at 1; rewrite map_nth; reflexivity).
      rewrite TO, Rabs_R0. destruct (Rlt_dec (/ 10 ^ 10) 0) as [B|]; [|reflexivity]. exfalso. assert (0 < / 10 ^ 10) by (apply Rinv_0_lt_compat, pow_lt; lra). lra. }
    assert (EF : map (fft ft) (e_fields e') = e_fields e1).
    { rewrite <- Ee. cbn [model_ifft e_fields]. rewrite map_map. rewrite <- (map_id (e_fields e1)) at 2. apply map_ext_in. intros d Hd. apply (gt_inverse _ _ G). revert d Hd. apply Forall_forall, A1. }
    rewrite CF, <- EF in F1, F2, F3.
    assert (MV : forall i j, move s (map (fft ft) (e_fields e)) (map (fft ft) (e_fields e')) (0 + i) j = Cabs (rate (s_dt s) (map (fft ft) (e_fields e)) (map (fft ft) (e_fields e')) i j)) by reflexivity.
    rewrite <- Em. cbn [mo_norm mo_change mo_force mo_spectrum mo_torque].
    split; [rewrite (field_norm_squares n _ Ha), Hk; reflexivity|]. split; [rewrite (field_norm_squares n _ Ha), Hk; reflexivity|]. split; [|split].
    - split; [intros i j Hi Hj; rewrite <- MV; exact (F1 i j Hi Hj)|].
      destruct F2 as [F2|(i & j & Hi & Hj & F2)]; [|exists i, j; split; [exact Hi|]; split; [exact Hj|]; rewrite <- MV; exact F2].
      exists O, O. split; [exact Hkp|]. split; [exact Hn|]. assert (X := F1 O O Hkp Hn). rewrite MV in X. assert (Y := Cabs_pos (rate (s_dt s) (map (fft ft) (e_fields e)) (map (fft ft) (e_fields e')) 0 0)). lra.
    - unfold root_mean_square. f_equal. f_equal. rewrite F3, Rplus_0_l. apply rsum_ext. intros i Hi.
      assert (LL : length (e_fields e') = k) by (rewrite <- (map_length (fft ft)), EF, A2, CF, map_length; exact Hk).
      assert (AL : all_length n (e_fields e')) by (rewrite <- Ee; cbn [model_ifft e_fields]; apply (map_ifft_all n ft G), A1).
      assert (Ni : length (nth i (e_fields e) []) = n) by (apply (nth_error_all n (e_fields e) i); [exact Ha|apply nth_error_nth'; lia]).
      assert (Ni' : length (nth i (e_fields e') []) = n) by (apply (nth_error_all n (e_fields e') i); [exact AL|apply nth_error_nth'; lia]).
      assert (VF : forall fs0 j, (i < length fs0)%nat -> value_at (map (fft ft) fs0) i j = nth j (fft ft (nth i fs0 [])) C0).
      { intros fs0 j Hi0. unfold value_at. f_equal. rewrite (nth_indep _ [] (fft ft [])) by (rewrite map_length; exact Hi0). apply map_nth. }
      rewrite (rsum_ext n _ (fun j => Cnorm2 (Csub (nth j (fft ft (nth i (e_fields e') [])) C0) (nth j (fft ft (nth i (e_fields e) [])) C0)) * (/ (s_dt s * s_dt s) / INR n))).
      + rewrite rsum_mul_r, (parseval_sub n ft _ _ U Ni' Ni). rewrite (rsum_ext n (fun j => Cnorm2 (rate _ _ _ i j)) (fun j => Cnorm2 (Csub (nth j (nth i (e_fields e') []) C0) (nth j (nth i (e_fields e) []) C0)) * / (s_dt s * s_dt s))).
        * rewrite rsum_mul_r. field. split; [lra|]. apply not_0_INR. lia.
        * intros j _. unfold rate. rewrite Cnorm2_div by lra. reflexivity.
      + intros j Hj. rewrite MV, Cabs_sq. unfold rate. rewrite Cnorm2_div by lra. rewrite !VF by lia. unfold Rdiv. ring.
    - exists (fun j => Re (nth j torque C0)). split.
      + constructor; [exact TO|]. intros c j Hj. rewrite <- Es. cbn [s_orient]. unfold turn.
        rewrite (map2_ext _ (fun x t => x - c * Re t)) by (intros; unfold c, Rdiv; ring). set (o1 := map2 (fun x t => x - c * Re t) (s_orient s) torque).
        assert (L1 : length o1 = (k * n)%nat) by (apply StepProofs.map2_length; [exact Ho|exact T1]).
        assert (N1 : nth j o1 0 = nth j (s_orient s) 0 - c * Re (nth j torque C0)) by (unfold o1; rewrite (nth_map2R _ 0 C0 0) by lia; reflexivity).
        assert (RD : rdot o1 o1 = 1 + c * c * rsum (k * n) (fun i => Re (nth i torque C0) * Re (nth i torque C0))).
        { unfold o1. rewrite rdot_shift by congruence. unfold inner in T2. rewrite Ho, T2. apply unit_rdot in Hu. rewrite Hu. cbn [C0 RtoC Re fst]. ring. }
        rewrite <- RD, <- N1. transitivity (nth j (map (fun x => x / sqrt (rdot o1 o1)) o1) (0 / sqrt (rdot o1 o1))); [apply nth_indep; rewrite map_length; lia|].
        apply (map_nth (fun x => x / sqrt (rdot o1 o1))).
      + destruct (watch_torque_spec torque 0) as (W0 & W1 & W2). rewrite T1 in W1, W2. assert (KN : (0 < k * n)%nat) by (apply Nat.mul_pos_pos; assumption).
        split; [intros i j _ Hj; exact (W1 j Hj)|]. destruct W2 as [W2|(j & Hj & W2)]; [|exists O, j; split; [lia|]; split; [exact Hj|exact W2]].
        exists O, O. split; [lia|]. split; [exact KN|]. assert (X := W1 O KN). assert (Y := Rabs_pos (Re (nth 0 torque C0))). cbv zeta in *. lra.
  Qed.
End Step.
