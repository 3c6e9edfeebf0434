From Verif Require Import GradSpec RealProofs GradProofs GradProofs2 GradProofs3 GradProofs4 DftProofs IndexProofs StepProofs ConserveProofs EnergyProofs EnergyProofs3 Vec CVec Complex.
From Coq Require Import Lra Lia Qreals.
Open Scope R_scope.

(** Charge in a uniform isotropic conductor decays. *)
Section Relax.
  Variable dom : list Z.
  Hypothesis Hv : valid_domain dom.
  Hypothesis Hs : square_layout dom.
  Hypothesis Hm : moderate dom.
  Let ft := fftw_transform dom.
  Let n := nodes dom.
  Let U : unitary_transform n ft := fftw_unitary dom Hv.
  Let G : good_transform n ft := fftw_good dom Hv.

  Definition relax_rate (k : nat) : R :=
    rsum (length dom) (fun d => (2 * PI * grad_freq false (nth d (tfreq (fftw_transform dom) k) 0)) ^ 2) / kk dom k.
  Lemma relax_range k : (k < n)%nat -> 0 <= relax_rate k <= 1.
  Proof.
    intros Hk. unfold relax_rate. pose proof (kk_pos dom k) as K. split.
    - apply Rmult_le_pos; [|left; apply Rinv_0_lt_compat, K]. apply rsum_nonneg. intros d _. apply pow2_ge_0.
    - apply (Rmult_le_reg_r (kk dom k)); [exact K|]. unfold Rdiv. rewrite Rmult_assoc, Rinv_l, Rmult_1_r, Rmult_1_l by lra.
      apply (Rle_trans _ (4 * PI * PI * norm_sq (tfreq ft k))).
      + pose proof (norm_sq_rsum (tfreq ft k)) as NS. fold ft in NS. rewrite NS. pose proof (tfreq_length dom Hv k Hk) as LT. fold ft in LT. rewrite LT, <- rsum_mul_l.
        apply rsum_le. intros d _. pose proof (grad_freq_exact dom Hv Hm k d Hk) as GE. rewrite GE. fold ft.
        destruct (Req_EM_T (nth d (tfreq ft k) 0) (1 / 2)) as [E|E]; [|apply Req_le; ring].
        rewrite E. pose proof PI_RGT_0. replace ((2 * PI * 0) ^ 2) with 0 by ring. assert (0 < PI * PI) by nra. nra.
      + unfold kk. fold ft. pose proof PI_RGT_0. lra.
  Qed.

  Theorem relaxation ext sigma s (rho : brick) x e t tmp k :
    (forall i d d2, (d < length dom)%nat -> (d2 < length dom)%nat -> tensor_of (length dom) (sigma i) d d2 = if Nat.eqb d d2 then s else 0) ->
    length x = nodes dom -> rho e = fft ft x -> length tmp = nodes dom -> (k < nodes dom)%nat ->
    nth k (charge_term ft ext sigma (length dom) rho e t tmp) C0 = Cmul (RtoC (- (s * relax_rate k))) (nth k (fft ft x) C0).
  Proof.
    intros Iso L Er LT Hk. unfold charge_term. rewrite flux_nth by (rewrite LT; exact Hk). rewrite Er.
    pose proof (gt_fft_len _ _ G x L) as LF. pose proof (phi_length dom Hv x L) as LP. pose proof (kk_pos dom k) as K.
    assert (Lg : forall d, length (gradient ft d false (phi dom x)) = n) by (intros d; apply (gradient_len n ft U), LP).
    assert (CC : forall d, (d < length dom)%nat -> charge_current ft ext sigma (length dom) (fft ft x) d =
      map2 (fun u v => Cadd u (Cmul (RtoC s) v)) (repeat (RtoC (- (s * nth d ext 0))) n) (gradient ft d false (phi dom x))).
    { intros d Hd. pose proof (charge_current_ohm dom Hv Hm ext sigma x d L Hd) as E. fold ft in E. rewrite E.
      apply (list_eq_nth _ _ n); [rewrite map_length; apply ohm_length|apply StepProofs.map2_length; [apply repeat_length|apply Lg]|].
      intros j Hj. rewrite nth_map2 by (rewrite ?repeat_length, ?Lg; lia). rewrite (nth_indep (repeat _ n) C0 (RtoC (- (s * nth d ext 0)))) by (rewrite repeat_length; exact Hj). rewrite nth_repeat.
      rewrite nth_map_data by (unfold ohm_current; rewrite map_length, seq_length; exact Hj). unfold ohm_current.
      rewrite (EnergyProofs3.nth_map_seq (fun i => csum (length dom) (fun d0 => Cmul (RtoC (tensor_of (length dom) (sigma i) d0 d)) (Csub (RtoC (nth d0 ext 0)) (nth i (gradient ft d0 false (phi dom x)) C0)))) C0 (nodes dom) j Hj).
      rewrite (csum_single _ d); [|exact Hd|].
      - rewrite Iso, Nat.eqb_refl by assumption. destruct (nth j (gradient ft d false (phi dom x)) C0) as [a b]. apply C_eq; cbn; ring.
      - intros i Hi Hne. rewrite Iso by assumption. destruct (Nat.eqb_spec i d); [contradiction|]. change (RtoC 0) with C0. ring. }
    assert (T : forall d, (d < length dom)%nat ->
      Cmul (0, charge_mult (nth d (tfreq ft k) 0)) (nth k (fft ft (charge_current ft ext sigma (length dom) (fft ft x) d)) C0) =
      Cmul (RtoC (- (s * ((2 * PI * grad_freq false (nth d (tfreq ft k) 0)) ^ 2 / kk dom k)))) (nth k (fft ft x) C0)).
    { intros d Hd. rewrite (CC d Hd), (ut_fft_add _ _ U _ _ _ (repeat_length _ n) (Lg d)).
      rewrite nth_map2 by (rewrite ?(gt_fft_len _ _ G _ (repeat_length _ n)), ?(gt_fft_len _ _ G _ (Lg d)); unfold n; lia).
      assert (EG : nth k (fft ft (gradient ft d false (phi dom x))) C0 = Cmul (RtoC (/ kk dom k)) (Cmul (0, 2 * PI * grad_freq false (nth d (tfreq ft k) 0)) (nth k (fft ft x) C0))).
      { unfold gradient. rewrite (gt_inverse _ _ G) by (rewrite grad_amp_len; apply (gt_fft_len _ _ G), LP).
        pose proof (fft_phi dom Hv x L) as EP. fold ft in EP. rewrite EP. unfold grad_amplitudes, phi_amp.
        rewrite !nth_mapi by (rewrite ?mapi_from_length; fold ft; rewrite LF; exact Hk). cbn [Nat.add]. fold ft. ring. }
      rewrite EG. pose proof (charge_nyquist dom Hv Hm k d Hk) as CN. cbv zeta in CN. fold ft in CN.
      assert (CM : charge_mult (nth d (tfreq ft k) 0) = 2 * PI * grad_freq false (nth d (tfreq ft k) 0)).
      { rewrite <- CN. unfold charge_mult. destruct (Rlt_dec _ _); ring. }
      rewrite CM. destruct (Nat.eq_dec k 0) as [K0|K0].
      - assert (F0 : nth d (tfreq ft k) 0 = 0) by (rewrite K0; apply norm_sq_zero, (gt_freq0 _ _ G)).
        assert (GF : grad_freq false (nth d (tfreq ft k) 0) = 0). { pose proof (grad_freq_exact dom Hv Hm k d Hk) as GE. fold ft in GE. rewrite GE, F0. destruct (Req_EM_T 0 (1 / 2)); reflexivity. }
        rewrite GF. replace (2 * PI * 0) with 0 by ring. apply C_eq; cbn; unfold Rdiv; ring.
      - pose proof (fft_const dom Hv Hs (RtoC (- (s * nth d ext 0))) k ltac:(lia) Hk K0) as FC. fold ft n in FC. rewrite FC.
        destruct (nth k (fft ft x) C0) as [a b]. apply C_eq; cbn; field; lra. }
    rewrite (csum_ext (length dom) _ _ T), csum_mul_r, csum_RtoC. f_equal. f_equal.
    rewrite (rsum_ext (length dom) _ (fun d => - s * / kk dom k * (2 * PI * grad_freq false (nth d (tfreq ft k) 0)) ^ 2)) by (intros; field; lra).
    rewrite rsum_mul_l. unfold relax_rate. fold ft. field. lra.
  Qed.
End Relax.
