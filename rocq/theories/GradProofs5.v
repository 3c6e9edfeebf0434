From Verif Require Import GradSpec RealProofs GradProofs GradProofs2 GradProofs3 GradProofs4 DftProofs IndexProofs StepProofs EnergyProofs EnergyProofs3 Vec CVec Complex.
From Coq Require Import Lra Lia Qreals.
Open Scope R_scope.

(** ** Point source *)
Lemma rdot_zero f : norm_sq f = 0 -> forall r, rdot f r = 0.
Proof.
  induction f as [|x f IH]; intros H r; [reflexivity|]. destruct r as [|y r]; [reflexivity|]. cbn [norm_sq rdot] in *.
  pose proof (norm_sq_nonneg f). assert (x * x = 0) by nra. assert (N : norm_sq f = 0) by nra. rewrite (IH N r). assert (x = 0) by nra. subst x. ring.
Qed.
Lemma source_length ft pos f t tmp : length (source_eval ft pos f t tmp) = length tmp.
Proof. apply mapi_from_length. Qed.
Lemma source_nth ft pos f t tmp k : (k < length tmp)%nat ->
  nth k (source_eval ft pos f t tmp) C0 = Cmul (RtoC (f t)) (cis (- rdot (tfreq ft k) pos)).
Proof.
  intros H. unfold source_eval. rewrite nth_mapi by exact H. cbn [Nat.add]. f_equal. unfold Cexp, Copp, cis. cbn [Re Im fst snd].
  rewrite Ropp_0, exp_0. apply C_eq; cbn [Re Im fst snd]; rewrite Rmult_1_l; f_equal; ring.
Qed.
Theorem source_total n ft pos f t tmp : good_transform n ft -> (0 < n)%nat -> length tmp = n ->
  Csum (to_real ft (source_eval ft pos f t tmp)) = RtoC (f t).
Proof.
  intros G Hn L. assert (LS : length (source_eval ft pos f t tmp) = n) by (rewrite source_length; exact L).
  assert (LR : length (to_real ft (source_eval ft pos f t tmp)) = n).
  { unfold to_real, div_real. rewrite map_length. apply (gt_ifft_len _ _ G), LS. }
  rewrite <- (gt_zero _ _ G _ LR), (gt_inverse _ _ G _ LS). rewrite source_nth by lia.
  rewrite (rdot_zero _ (gt_freq0 _ _ G)). unfold cis. rewrite Ropp_0, Rmult_0_r, cos_0, sin_0. apply C_eq; cbn; ring.
Qed.
Theorem source_at_node dom f t tmp j : valid_domain dom -> square_layout dom -> length tmp = nodes dom -> (j < nodes dom)%nat ->
  to_real (fftw_transform dom) (source_eval (fftw_transform dom) (node_point dom j) f t tmp) = map (Cmul (RtoC (f t))) (unit_at (nodes dom) j).
Proof.
  intros Hv Hs L Hj. pose proof (fftw_good dom Hv) as G. pose proof (nprod_nodes dom (proj2 Hv)) as HN.
  assert (LU : length (map (Cmul (RtoC (f t))) (unit_at (nodes dom) j)) = nodes dom) by (rewrite map_length; unfold unit_at; rewrite map_length, seq_length; reflexivity).
  transitivity (to_real (fftw_transform dom) (fft (fftw_transform dom) (map (Cmul (RtoC (f t))) (unit_at (nodes dom) j)))); [f_equal|apply (gt_left _ _ G _ LU)].
  apply (list_eq_nth _ _ (nodes dom)); [rewrite source_length; exact L|apply (gt_fft_len _ _ G), LU|].
  intros k Hk. rewrite source_nth by lia. cbn [fft fftw_transform]. rewrite dft_nth by (rewrite HN; exact Hk). rewrite HN.
  rewrite (csum_single _ j); [|exact Hj|].
  - rewrite nth_map_data by (unfold unit_at; rewrite map_length, seq_length; exact Hj). rewrite unit_at_nth, Nat.eqb_refl by exact Hj.
    replace (-1 * phase (fftw_dims dom) k j) with (- phase (fftw_dims dom) k j) by ring.
    pose proof (cis_phase dom Hv Hs k j Hk Hj) as E.
    assert (E2 : cis (- phase (fftw_dims dom) k j) = cis (- rdot (tfreq (fftw_transform dom) k) (node_point dom j))).
    { assert (CO : forall a, cis (- a) = Cconj (cis a)).
      { intros a. unfold cis, Cconj. apply C_eq; cbn [Re Im fst snd]; replace (2 * PI * - a) with (- (2 * PI * a)) by ring; [apply cos_neg|apply sin_neg]. }
      rewrite !CO, E. reflexivity. }
    rewrite E2. ring.
  - intros i Hi Hn. rewrite nth_map_data by (unfold unit_at; rewrite map_length, seq_length; exact Hi). rewrite unit_at_nth by exact Hi.
    destruct (Nat.eqb_spec i j); [contradiction|ring].
Qed.

Lemma not_hermitian dom X k m : valid_domain dom -> square_layout dom -> length X = nodes dom -> (k < nodes dom)%nat ->
  conjugate_node dom (Z.of_nat k) = Some m -> nth (Z.to_nat m) X C0 <> Cconj (nth k X C0) -> ~ real_field (to_real (fftw_transform dom) X).
Proof.
  intros Hv Hs L Hk Hm Ne R. pose proof (fftw_good dom Hv) as G.
  assert (LR : length (to_real (fftw_transform dom) X) = nodes dom) by (unfold to_real, div_real; rewrite map_length; apply (gt_ifft_len _ _ G), L).
  pose proof (proj1 (real_iff_hermitian dom _ Hv Hs LR) R) as H. rewrite (gt_inverse _ _ G _ L) in H. exact (Ne (H k m Hk Hm)).
Qed.

Lemma valid22 : valid_domain [2; 2]%Z. Proof. split; [left; reflexivity|repeat constructor; lia]. Qed.
Lemma valid23 : valid_domain [2; 3]%Z. Proof. split; [left; reflexivity|repeat constructor; lia]. Qed.
Lemma freq22 : tfreq (fftw_transform [2; 2]%Z) 2 = [1 / 2; 0].
Proof. cbn. unfold Q2R. cbn. apply f_equal2; [lra|apply f_equal2; [lra|reflexivity]]. Qed.
Theorem source_between_nodes : ~ real_field (to_real (fftw_transform [2; 2]%Z) (source_eval (fftw_transform [2; 2]%Z) [1 / 2; 0] (fun _ => 1) 0 (repeat C0 4))).
Proof.
  apply (not_hermitian _ _ 2 2%Z valid22 I); [rewrite source_length; reflexivity|cbn; lia|reflexivity|].
  change (Z.to_nat 2) with 2%nat. rewrite source_nth by (cbn; lia). rewrite freq22. cbn [rdot]. unfold cis.
  replace (2 * PI * - (1 / 2 * (1 / 2) + (0 * 0 + 0))) with (- (PI / 2)) by field. rewrite cos_neg, sin_neg, cos_PI2, sin_PI2.
  intros E. apply (f_equal Im) in E. cbn in E. lra.
Qed.

(** ** Tensorial Hessian *)
Lemma hess_coeff_at K i j : (length K = 4 \/ length K = 9)%nat -> hess_coeff K i j = nth (i * (if Nat.eqb (length K) 9 then 3 else 2) + j)%nat K 0.
Proof. reflexivity. Qed.
Theorem hess_symmetric K f : (length f = 2 \/ length f = 3)%nat ->
  (forall i j, (i < length f)%nat -> (j < length f)%nat -> hess_coeff K i j = hess_coeff K j i) ->
  hess_value K f = hessian_symbol (length f) (hess_coeff K) f.
Proof.
  intros Hd HK. unfold hess_value, hessian_symbol. destruct Hd as [E|E]; rewrite E in *; cbn [rsum Nat.ltb Nat.leb].
  - rewrite (HK 1%nat 0%nat) by lia. ring.
  - rewrite (HK 1%nat 0%nat), (HK 2%nat 0%nat), (HK 2%nat 1%nat) by lia. ring.
Qed.

Section Hess.
  Variables (n : nat) (ft : transform).
  Hypothesis U : unitary_transform n ft.
  Let G : good_transform n ft := ut_good _ _ U.

  Theorem hessian_operator K dim x tmp e t : (dim = 2 \/ dim = 3)%nat -> (forall k, (k < n)%nat -> length (tfreq ft k) = dim) ->
    (forall i j, (i < dim)%nat -> (j < dim)%nat -> hess_coeff K i j = hess_coeff K j i) ->
    length x = n -> length tmp = n ->
    to_real ft (map2 Cmul (hessian_term ft K e t tmp) (fft ft x)) =
    sum_over dim n (fun i => sum_over dim n (fun j => map (Cmul (RtoC (hess_coeff K i j))) (gradient ft i true (gradient ft j true x)))).
  Proof.
    intros Hd HF HK L LT. pose proof (gt_fft_len _ _ G x L) as LX.
    assert (LH : length (hessian_term ft K e t tmp) = n) by (unfold hessian_term; rewrite mapi_from_length; exact LT).
    set (A := fun i j => map (Cmul (RtoC (hess_coeff K i j))) (grad_amplitudes ft i true (grad_amplitudes ft j true (fft ft x)))).
    assert (LA : forall i j, length (A i j) = n) by (intros i j; unfold A; rewrite map_length, !grad_amp_len; exact LX).
    transitivity (to_real ft (sum_over dim n (fun i => sum_over dim n (fun j => A i j)))).
    - f_equal. apply (list_eq_nth _ _ n); [apply StepProofs.map2_length; assumption|apply sum_over_length|]. intros k Hk.
      rewrite nth_map2 by lia. unfold hessian_term. rewrite nth_mapi by lia. cbn [Nat.add].
      rewrite hess_symmetric by (rewrite HF by exact Hk; assumption). rewrite HF by exact Hk. unfold hessian_symbol.
      rewrite sum_over_nth by exact Hk. rewrite <- csum_RtoC, <- csum_mul_r. apply csum_ext. intros i _.
      rewrite sum_over_nth by exact Hk. rewrite <- csum_RtoC, <- csum_mul_r. apply csum_ext. intros j _.
      unfold A, grad_amplitudes. rewrite nth_map_data by (rewrite !mapi_from_length; lia). rewrite !nth_mapi by (rewrite ?mapi_from_length; lia). cbn [Nat.add].
      rewrite !grad_freq_keep. destruct (nth k (fft ft x) C0) as [a b]. apply C_eq; cbn; ring.
    - apply (list_eq_nth _ _ n); [apply (tr_length n ft U), sum_over_length|apply sum_over_length|]. intros k Hk.
      rewrite (tr_sum n ft U) by (try exact Hk; intros; apply sum_over_length). rewrite sum_over_nth by exact Hk. apply csum_ext. intros i _.
      rewrite (tr_sum n ft U) by (try exact Hk; intros; apply LA). rewrite sum_over_nth by exact Hk. apply csum_ext. intros j _.
      unfold A. rewrite (tr_scale n ft U) by (try exact Hk; rewrite !grad_amp_len; exact LX).
      assert (LG : length (gradient ft j true x) = n) by (apply (gradient_len n ft U), L).
      rewrite nth_map_data by (rewrite (gradient_len n ft U); [exact Hk|exact LG]). f_equal. unfold gradient at 1. f_equal. f_equal. f_equal.
      unfold gradient. symmetry. apply (gt_inverse _ _ G). rewrite grad_amp_len. exact LX.
  Qed.
End Hess.

Theorem hess_asymmetric : exists K f, length K = 4%nat /\ length f = 2%nat /\ hess_value K f <> hessian_symbol 2 (hess_coeff K) f.
Proof.
  exists [0; 1; 0; 0], [1; 1]. split; [reflexivity|]. split; [reflexivity|]. pose proof PI_RGT_0 as P.
  unfold hess_value, hessian_symbol, hess_coeff. cbn. nra.
Qed.
Lemma freq23_4 : tfreq (fftw_transform [2; 3]%Z) 4 = [1 / 2; 1 / 3].
Proof. cbn. unfold Q2R. cbn. apply f_equal2; [lra|apply f_equal2; [lra|reflexivity]]. Qed.
Lemma freq23_5 : tfreq (fftw_transform [2; 3]%Z) 5 = [1 / 2; - (1 / 3)].
Proof. cbn. unfold Q2R. cbn. apply f_equal2; [lra|apply f_equal2; [lra|reflexivity]]. Qed.
Theorem hess_not_real : exists K x, length K = 4%nat /\ (forall i j, (i < 2)%nat -> (j < 2)%nat -> hess_coeff K i j = hess_coeff K j i) /\ length x = 6%nat /\ real_field x /\
  forall e t, ~ real_field (to_real (fftw_transform [2; 3]%Z) (map2 Cmul (hessian_term (fftw_transform [2; 3]%Z) K e t (repeat C0 6)) (fft (fftw_transform [2; 3]%Z) x))).
Proof.
  exists [0; 1; 1; 0], (unit_at 6 0). split; [reflexivity|]. split.
  { intros i j Hi Hj. destruct i as [|[|i]]; try lia; destruct j as [|[|j]]; try lia; reflexivity. }
  split; [reflexivity|]. split; [repeat constructor|]. intros e t.
  assert (LF : length (fft (fftw_transform [2; 3]%Z) (unit_at 6 0)) = 6%nat) by (apply (gt_fft_len _ _ (fftw_good _ valid23)); reflexivity).
  assert (A : forall k, (k < 6)%nat -> nth k (fft (fftw_transform [2; 3]%Z) (unit_at 6 0)) C0 = C1).
  { intros k Hk. cbn [fft fftw_transform]. change 6%nat with (nprod (fftw_dims [2; 3]%Z)). rewrite dft_unit by (change (nprod (fftw_dims [2; 3]%Z)) with 6%nat; lia).
    rewrite phase_sym. assert (P : phase (fftw_dims [2; 3]%Z) 0 k = 0) by (unfold phase, fftw_dims; cbn [map nprod Z.to_nat Pos.to_nat Pos.iter_op Nat.add Nat.mul]; rewrite !Nat.mod_0_l, !Nat.div_0_l by lia; cbn [INR]; unfold Rdiv; ring). rewrite P. unfold cis.
    replace (2 * PI * (-1 * 0)) with 0 by ring. rewrite cos_0, sin_0. reflexivity. }
  apply (not_hermitian _ _ 4 5%Z valid23 I).
  - apply StepProofs.map2_length; [unfold hessian_term; rewrite mapi_from_length; reflexivity|exact LF].
  - cbn. lia.
  - reflexivity.
  - change (Z.to_nat 5) with 5%nat. rewrite !nth_map2 by (rewrite ?LF; unfold hessian_term; rewrite ?mapi_from_length; cbn; lia). rewrite !A by lia.
    unfold hessian_term. rewrite !nth_mapi by (cbn; lia). cbn [Nat.add]. rewrite freq23_4, freq23_5. intros E. apply (f_equal Re) in E.
    unfold hess_value, hess_coeff in E. cbn in E. pose proof PI_RGT_0. nra.
Qed.

(** ** Penalty *)
Lemma odd_pow_neg x p : Nat.odd p = true -> (- x) ^ p = - x ^ p.
Proof.
  intros H. apply Nat.odd_spec in H. destruct H as [m ->]. rewrite !pow_add, !pow_mult. replace ((- x) ^ 2) with (x ^ 2) by ring. ring.
Qed.
Lemma dlim_local f g x l r : 0 < r -> (forall h, Rabs h < r -> g (x + h) = f (x + h)) -> derivable_pt_lim f x l -> derivable_pt_lim g x l.
Proof.
  intros Hr E D eps He. destruct (D eps He) as [d Hd]. exists (mkposreal (Rmin r d) (Rmin_pos _ _ Hr (cond_pos d))). intros h H0 Hh. cbn in Hh.
  rewrite E by (apply (Rlt_le_trans _ _ _ Hh), Rmin_l). replace (g x) with (f x).
  - apply Hd; [exact H0|]. apply (Rlt_le_trans _ _ _ Hh), Rmin_r.
  - pose proof (E 0 ltac:(rewrite Rabs_R0; exact Hr)) as E0. rewrite Rplus_0_r in E0. symmetry. exact E0.
Qed.
Theorem penalty_derivative P p x : Nat.odd p = true -> x <> 0 \/ (3 <= p)%nat ->
  derivable_pt_lim (penalty_function P p) x (penalty P p x).
Proof.
  intros Ho Hx. unfold penalty. destruct (Rlt_dec 0 x) as [X|X].
  - apply (dlim_local (fun _ => 0) _ x 0 x X); [|apply derivable_pt_lim_const].
    intros h Hh. apply Rabs_def2 in Hh. unfold penalty_function. rewrite Rabs_right by lra. ring.
  - destruct (Req_EM_T x 0) as [->|N0].
    + destruct Hx as [Hx|Hx]; [contradiction|]. replace (- (2) * P * INR p * 0 ^ (p - 1)) with 0 by (rewrite pow_i by lia; ring).
      intros eps He. set (c := 1 + 2 * Rabs P). assert (Hc : 1 <= c) by (unfold c; pose proof (Rabs_pos P); lra).
      assert (Hd : 0 < Rmin 1 (eps / c)).
      { apply Rmin_pos; [lra|]. apply Rdiv_lt_0_compat; lra. }
      exists (mkposreal _ Hd). intros h H0 Hh. cbn in Hh.
      assert (H1 : Rabs h < 1) by (apply (Rlt_le_trans _ _ _ Hh), Rmin_l). assert (H2 : Rabs h < eps / c) by (apply (Rlt_le_trans _ _ _ Hh), Rmin_r).
      rewrite Rplus_0_l. unfold penalty_function. rewrite Rabs_R0, pow_i by lia.
      replace ((P * (Rabs h ^ p - h ^ p) - P * (0 - 0)) / h - 0) with (P * ((Rabs h ^ p - h ^ p) / h)) by (field; exact H0).
      rewrite Rabs_mult.
      assert (B : Rabs ((Rabs h ^ p - h ^ p) / h) <= 2 * Rabs h).
      { unfold Rdiv. rewrite Rabs_mult, Rabs_inv.
        assert (HA : 0 < Rabs h) by (apply Rabs_pos_lt; exact H0).
        apply (Rmult_le_reg_r (Rabs h)); [exact HA|]. rewrite Rmult_assoc, Rinv_l, Rmult_1_r by lra.
        apply (Rle_trans _ (2 * Rabs h ^ p)).
        - replace (Rabs h ^ p - h ^ p) with (Rabs h ^ p + - h ^ p) by ring. apply (Rle_trans _ _ _ (Rabs_triang _ _)).
          rewrite Rabs_Ropp, <- !RPow_abs, Rabs_Rabsolu. lra.
        - replace p with (2 + (p - 2))%nat by lia. rewrite pow_add.
          assert (Rabs h ^ (p - 2) <= 1) by (rewrite <- (pow1 (p - 2)); apply pow_incr; lra).
          pose proof (pow_lt (Rabs h) (p - 2) HA). nra. }
      apply (Rle_lt_trans _ (Rabs P * (2 * Rabs h))); [apply Rmult_le_compat_l; [apply Rabs_pos|exact B]|].
      apply (Rle_lt_trans _ (c * Rabs h)); [unfold c; pose proof (Rabs_pos h); pose proof (Rabs_pos P); nra|].
      apply (Rmult_lt_reg_r (/ c)); [apply Rinv_0_lt_compat; lra|]. replace (c * Rabs h * / c) with (Rabs h) by (field; lra). exact H2.
    + assert (X' : x < 0) by lra.
      apply (dlim_local (fun y => - (2) * P * y ^ p) _ x _ (- x)); [lra| |].
      * intros h Hh. apply Rabs_def2 in Hh. unfold penalty_function. rewrite Rabs_left by lra. rewrite odd_pow_neg by exact Ho. ring.
      * refine (dlim_ext _ _ _ _ _ _ _ (derivable_pt_lim_scal _ (- (2) * P) x _ (derivable_pt_lim_pow x p))); [reflexivity|].
        replace (pred p) with (p - 1)%nat by lia. ring.
Qed.
Theorem penalty_even : exists P p x, Nat.even p = true /\ x < 0 /\ derivable_pt_lim (penalty_function P p) x 0 /\ penalty P p x <> 0.
Proof.
  exists 1, 2%nat, (-1). split; [reflexivity|]. split; [lra|]. split.
  - refine (dlim_ext (fun _ => 0) _ _ _ _ _ _ (derivable_pt_lim_const 0 (-1))); [|reflexivity].
    intros y. unfold penalty_function. replace (Rabs y ^ 2) with (y ^ 2); [ring|]. cbn. rewrite !Rmult_1_r. apply (Rsqr_abs y).
  - unfold penalty. destruct (Rlt_dec 0 (-1)); [lra|]. cbn. lra.
Qed.
