From Verif Require Import GradSpec RealProofs GradProofs GradProofs2 GradProofs3 DftProofs IndexProofs StepProofs EnergyProofs EnergyProofs3 Vec CVec Complex.
From Coq Require Import Lra Lia Qreals.
Open Scope R_scope.

Lemma mapi_ext_lt {B} (f g : nat -> C -> B) d : forall i, (forall j z, (i <= j < i + length d)%nat -> f j z = g j z) -> mapi_from i f d = mapi_from i g d.
Proof.
  induction d as [|z d IH]; intros i E; cbn [mapi_from]; [reflexivity|]. cbn [length] in E. rewrite E by lia. f_equal. apply IH. intros j y Hj. apply E. lia.
Qed.
Lemma mapi_mapi {A B D} (f : nat -> A -> B) (g : nat -> B -> D) l : forall i, mapi_from i g (mapi_from i f l) = mapi_from i (fun j z => g j (f j z)) l.
Proof. induction l as [|z l IH]; intros i; cbn [mapi_from]; [reflexivity|]. rewrite IH. reflexivity. Qed.

Lemma voigt_tensor dim s d d2 : (dim = 2%nat \/ dim = 3%nat) -> (d < dim)%nat -> (d2 < dim)%nat -> nth (voigt_index dim d d2) s 0 = tensor_of dim s d d2.
Proof.
  intros [-> | ->] H1 H2.
  - destruct d as [|[|d]]; try lia; destruct d2 as [|[|d2]]; try lia; reflexivity.
  - destruct d as [|[|[|d]]]; try lia; destruct d2 as [|[|[|d2]]]; try lia; reflexivity.
Qed.

Section Charge.
  Variable dom : list Z.
  Hypothesis Hv : valid_domain dom.
  Hypothesis Hs : square_layout dom.
  Hypothesis Hm : moderate dom.
  Let ft := fftw_transform dom.
  Let n := nodes dom.
  Let U : unitary_transform n ft := fftw_unitary dom Hv.
  Let G : good_transform n ft := fftw_good dom Hv.

  Definition kk (k : nat) : R := 4 * PI * PI * norm_sq (tfreq ft k) + 2 * PI * (1 / 10000000000000000).
  Lemma kk_pos k : 0 < kk k.
  Proof. unfold kk. pose proof (norm_sq_nonneg (tfreq ft k)). pose proof PI_RGT_0. nra. Qed.

  Definition phi_amp (X : data) : data := mapi_from 0 (fun k z => Cmul (RtoC (/ kk k)) z) X.
  Definition phi (x : data) : data := to_real ft (phi_amp (fft ft x)).

  Lemma phi_amp_length X : length (phi_amp X) = length X.
  Proof. apply mapi_from_length. Qed.
  Lemma phi_length x : length x = nodes dom -> length (phi x) = nodes dom.
  Proof. intros L. apply (tr_length n ft U). rewrite phi_amp_length. apply (gt_fft_len _ _ G), L. Qed.
  Lemma fft_phi x : length x = nodes dom -> fft ft (phi x) = phi_amp (fft ft x).
  Proof. intros L. apply (gt_inverse _ _ G). rewrite phi_amp_length. apply (gt_fft_len _ _ G), L. Qed.

  Lemma phi_real x : realf dom x -> realf dom (phi x).
  Proof.
    intros H. apply (realf_to_real dom Hv Hs). apply (herm_mapi dom Hv); [|apply (herm_fft dom Hv Hs), H].
    exact (isotropic_herm dom Hv (fun s => / (4 * PI * PI * s + 2 * PI * (1 / 10000000000000000)))).
  Qed.

  Theorem poisson x j : length x = nodes dom -> (j < nodes dom)%nat ->
    nth j x C0 = Cadd (Copp (nth j (laplacian ft (phi x)) C0)) (Cmul (RtoC (2 * PI * (1 / 10000000000000000))) (nth j (phi x) C0)).
  Proof.
    intros L Hj. pose proof (gt_fft_len _ _ G x L) as LF. fold n in Hj, L.
    rewrite <- (gt_left _ _ G x L) at 1. unfold laplacian. rewrite (fft_phi x L).
    set (P := phi_amp (fft ft x)). assert (LP : length P = n) by (unfold P; rewrite phi_amp_length; exact LF).
    set (Q := mapi_from 0 (fun j z => lap_eval (tfreq ft j) 1 z) P). assert (LQ : length Q = n) by (unfold Q; rewrite mapi_from_length; exact LP).
    replace (fft ft x) with (map2 (fun u v => Cadd u (Cmul (RtoC (2 * PI * (1 / 10000000000000000))) v)) (map (Cmul (Copp C1)) Q) P).
    - rewrite (tr_add n ft U) by (try assumption; rewrite map_length; exact LQ). rewrite (tr_scale n ft U) by assumption.
      unfold phi. fold P. ring.
    - apply (list_eq_nth _ _ n); [apply StepProofs.map2_length; [rewrite map_length; exact LQ|exact LP]|exact LF|].
      intros k Hk. rewrite nth_map2 by (rewrite ?map_length; lia). rewrite nth_map_data by lia. unfold Q. rewrite nth_mapi by lia. cbn [Nat.add].
      rewrite lap_eval_symbol, pow_1. unfold P, phi_amp. rewrite nth_mapi by (rewrite LF; exact Hk). cbn [Nat.add].
      pose proof (kk_pos k) as K. assert (K0 : kk k <> 0) by lra. destruct (nth k (fft ft x) C0) as [a b]. unfold lap_symbol.
      apply C_eq; cbn [Re Im Cadd Cmul Copp RtoC C1 fst snd].
      + transitivity ((4 * PI * PI * norm_sq (tfreq ft k) + 2 * PI * (1 / 10000000000000000)) * (/ kk k) * a); [unfold kk; ring|]. fold (kk k). rewrite Rinv_r by exact K0. ring.
      + transitivity ((4 * PI * PI * norm_sq (tfreq ft k) + 2 * PI * (1 / 10000000000000000)) * (/ kk k) * b); [unfold kk; ring|]. fold (kk k). rewrite Rinv_r by exact K0. ring.
  Qed.

  (** the Nyquist test of the charge term agrees with that of the gradient *)
  Lemma charge_nyquist k d : (k < nodes dom)%nat ->
    (if Rlt_dec (1 / 10000000000) (Rabs (Rabs (nth d (tfreq ft k) 0) - 1 / 2)) then nth d (tfreq ft k) 0 else 0) = grad_freq false (nth d (tfreq ft k) 0).
  Proof.
    intros Hk. pose proof (grad_freq_exact dom Hv Hm k d Hk) as GE. cbv zeta in GE. change (fftw_transform dom) with ft in GE. rewrite GE. clear GE. set (f := nth d (tfreq ft k) 0).
    destruct (Rlt_dec _ _) as [L|L]; destruct (Req_EM_T f (1 / 2)) as [E|E]; try reflexivity.
    - exfalso. rewrite E in L. rewrite (Rabs_right (1 / 2)) in L by lra. replace (1 / 2 - 1 / 2) with 0 in L by ring. rewrite Rabs_R0 in L. lra.
    - exfalso. apply E. destruct (lt_dec d (length dom)) as [Hd|Hd].
      + destruct (tfreq_fraction dom Hv k d Hk Hd) as (c & m & M & Hc & Hin & E'). unfold f, ft in *. rewrite E' in *.
        apply near_half_real; [apply (moderate_in dom Hv Hm), Hin|exact Hc|]. lra.
      + unfold f in *. rewrite nth_overflow in * by (unfold ft; rewrite (tfreq_length dom Hv k Hk); lia).
        rewrite Rabs_R0 in L. replace (0 - 1 / 2) with (- (1 / 2)) in L by ring. rewrite Rabs_Ropp, (Rabs_right (1 / 2)) in L by lra. lra.
  Qed.

  Lemma charge_field_grad ext x d : length x = nodes dom ->
    charge_field ft ext (fft ft x) d = map (fun z => Csub z (RtoC (nth d ext 0))) (gradient ft d false (phi x)).
  Proof.
    intros L. pose proof (gt_fft_len _ _ G x L) as LF. unfold charge_field. f_equal. unfold gradient. rewrite (fft_phi x L).
    f_equal. unfold grad_amplitudes, phi_amp. rewrite mapi_mapi. apply mapi_ext_lt. intros k z Hk. cbv zeta.
    rewrite LF in Hk. cbn [Nat.add] in Hk. pose proof (charge_nyquist k d (proj2 Hk)) as E. rewrite <- E.
    pose proof (kk_pos k) as K. pose proof PI_RGT_0 as P0. pose proof (norm_sq_nonneg (tfreq ft k)) as N0.
    assert (K0 : kk k <> 0) by lra. assert (D0 : 2 * PI * norm_sq (tfreq ft k) + 1 / 10000000000000000 <> 0) by nra.
    destruct (Rlt_dec _ _) as [T|T].
    - destruct z as [a b]. set (f := nth d (tfreq ft k) 0).
      assert (E2 : f / (2 * PI * norm_sq (tfreq ft k) + 1 / 10000000000000000) = / kk k * (2 * PI * f)).
      { apply (Rmult_eq_reg_r (kk k)); [|exact K0]. transitivity (2 * PI * f).
        - unfold kk. replace (4 * PI * PI * norm_sq (tfreq ft k) + 2 * PI * (1 / 10000000000000000)) with (2 * PI * (2 * PI * norm_sq (tfreq ft k) + 1 / 10000000000000000)) by ring.
          field. nra.
        - field. exact K0. }
      rewrite E2. apply C_eq; cbn; ring.
    - apply C_eq; cbn; ring.
  Qed.

  Lemma dom_dim : length dom = 2%nat \/ length dom = 3%nat.
  Proof. exact (proj1 Hv). Qed.

  Lemma charge_current_ohm ext sigma x d2 : length x = nodes dom -> (d2 < length dom)%nat ->
    charge_current ft ext sigma (length dom) (fft ft x) d2 =
    map Copp (ohm_current ft ext (fun i => tensor_of (length dom) (sigma i)) (length dom) (nodes dom) (phi x) d2).
  Proof.
    intros L Hd2. unfold charge_current, ohm_current. rewrite (gt_fft_len _ _ G x L), map_map. apply map_ext_in. intros i Hi. apply in_seq in Hi.
    rewrite (csum_ext (length dom) _ (fun d => Cmul (Copp C1) (Cmul (RtoC (tensor_of (length dom) (sigma i) d d2)) (Csub (RtoC (nth d ext 0)) (nth i (gradient ft d false (phi x)) C0))))).
    - rewrite csum_mul_l. ring.
    - intros d Hd. rewrite (voigt_tensor _ _ _ _ dom_dim Hd Hd2). rewrite charge_field_grad by exact L.
      rewrite nth_map_data by (unfold ft; rewrite (gradient_length dom Hv d false _ (phi_length x L)); unfold n in Hi; lia). ring.
  Qed.

  Lemma ohm_length ext sg dim m p d2 : length (ohm_current ft ext sg dim m p d2) = m.
  Proof. unfold ohm_current. rewrite map_length, seq_length. reflexivity. Qed.

  Lemma charge_mult_grad x d : length x = nodes dom ->
    mapi_from 0 (fun k z => Cmul z (0, charge_mult (nth d (tfreq ft k) 0))) (fft ft x) = grad_amplitudes ft d false (fft ft x).
  Proof.
    intros L. unfold grad_amplitudes. apply mapi_ext_lt. intros k z Hk. f_equal. f_equal. rewrite (gt_fft_len _ _ G x L) in Hk. cbn [Nat.add] in Hk.
    rewrite <- (charge_nyquist k d (proj2 Hk)). unfold charge_mult. destruct (Rlt_dec _ _); ring.
  Qed.

  Theorem charge_transport ext sigma (rho : brick) x e t tmp :
    length x = nodes dom -> rho e = fft ft x -> length tmp = nodes dom ->
    to_real ft (charge_term ft ext sigma (length dom) rho e t tmp) =
    map Copp (sum_over (length dom) (nodes dom) (fun d => gradient ft d false
      (ohm_current ft ext (fun i => tensor_of (length dom) (sigma i)) (length dom) (nodes dom) (phi x) d))).
  Proof.
    intros L Er LT. unfold charge_term. set (J := fun d => ohm_current ft ext (fun i => tensor_of (length dom) (sigma i)) (length dom) (nodes dom) (phi x) d).
    assert (LJ : forall d, length (J d) = n) by (intros d; apply ohm_length).
    rewrite (flux_divergence n ft U charge_mult (length dom) _ (fun d => map Copp (J d))); [|exact LT|].
    - apply (list_eq_nth _ _ n); [apply sum_over_length|rewrite map_length; apply sum_over_length|]. intros j Hj.
      rewrite nth_map_data by (rewrite sum_over_length; exact Hj). rewrite !sum_over_nth by exact Hj.
      transitivity (Cmul (Copp C1) (csum (length dom) (fun d => nth j (gradient ft d false (J d)) C0))); [|ring].
      rewrite <- csum_mul_l. apply csum_ext. intros d _.
      rewrite charge_mult_grad by (rewrite map_length; apply LJ). fold (gradient ft d false (map Copp (J d))).
      rewrite (map_ext Copp (Cmul (Copp C1))) by (intros; ring).
      unfold gradient.
      assert (LFJ : length (fft ft (J d)) = n) by (apply (gt_fft_len _ _ G), LJ).
      replace (grad_amplitudes ft d false (fft ft (map (Cmul (Copp C1)) (J d)))) with (map (Cmul (Copp C1)) (grad_amplitudes ft d false (fft ft (J d)))).
      + apply (tr_scale n ft U); [rewrite grad_amp_len; exact LFJ|exact Hj].
      + assert (EF : fft ft (map (Cmul (Copp C1)) (J d)) = map (Cmul (Copp C1)) (fft ft (J d))).
        { assert (Z : forall y m, length y = m -> map (Cmul (Copp C1)) y = map2 (fun u v => Cadd u (Cmul (Copp (Cadd C1 C1)) v)) y y).
          { intros y m _. induction y as [|a y IH]; [reflexivity|]. cbn [map map2]. rewrite <- IH. f_equal. ring. }
          rewrite (Z (J d) n (LJ d)), (ut_fft_add _ _ U _ _ _ (LJ d) (LJ d)). symmetry. exact (Z _ n LFJ). }
        rewrite EF. unfold grad_amplitudes. clear. generalize 0%nat. induction (fft ft (J d)) as [|z l IH]; intros i; cbn [map mapi_from]; [reflexivity|].
        f_equal; [ring|]. apply IH.
    - intros d Hd. split; [rewrite map_length; apply LJ|]. rewrite Er. f_equal. apply charge_current_ohm; assumption.
  Qed.

  Theorem current_ohm ext sigma x d : length x = nodes dom -> (d < length dom)%nat ->
    current ft ext sigma (length dom) x true d =
    map Re (ohm_current ft ext (fun i => tensor_of (length dom) (sigma i)) (length dom) (nodes dom) (phi x) d).
  Proof.
    intros L Hd. unfold current. rewrite charge_current_ohm by assumption. rewrite map_map. apply map_ext. intros z. cbn. unfold Re. ring.
  Qed.

  (** ** A uniform isotropic conductor *)
  Lemma fft_const c k : (0 < nodes dom)%nat -> (k < nodes dom)%nat -> k <> 0%nat -> nth k (fft ft (repeat c (nodes dom))) C0 = C0.
  Proof.
    intros Hn Hk K0. set (X := map (Cmul (Cmul (RtoC (INR (nodes dom))) c)) (unit_at (nodes dom) 0)).
    assert (LX : length X = nodes dom) by (unfold X, unit_at; rewrite !map_length, seq_length; reflexivity).
    assert (NX : forall i, (i < nodes dom)%nat -> nth i X C0 = if Nat.eqb i 0 then Cmul (RtoC (INR (nodes dom))) c else C0).
    { intros i Hi. unfold X. rewrite nth_map_data by (unfold unit_at; rewrite map_length, seq_length; exact Hi). rewrite unit_at_nth by exact Hi. destruct (Nat.eqb i 0); ring. }
    assert (E : to_real ft X = repeat c (nodes dom)).
    { apply (list_eq_nth _ _ (nodes dom)); [apply (tr_length n ft U), LX|apply repeat_length|]. intros j Hj.
      unfold ft. rewrite (to_real_nth dom Hv Hs) by assumption. fold ft. rewrite (csum_single _ 0%nat); [|exact Hn|].
      - rewrite (NX 0%nat Hn). cbn [Nat.eqb].
        assert (R0 : rdot (tfreq ft 0) (node_point dom j) = 0).
        { pose proof (gt_freq0 _ _ G) as F0. revert F0. generalize (tfreq ft 0) (node_point dom j). clear.
          induction l as [|x l IH]; intros r H; [reflexivity|]. destruct r as [|y r]; [reflexivity|]. cbn [norm_sq rdot] in *.
          pose proof (norm_sq_nonneg l). assert (x = 0) by nra. subst x. rewrite (IH r) by lra. ring. }
        rewrite R0, cis_0. rewrite (nth_indep _ C0 c) by (rewrite repeat_length; exact Hj). rewrite nth_repeat.
        assert (NZ : RtoC (INR (nodes dom)) <> C0) by (apply RtoC_neq0; apply not_0_INR; lia).
        unfold Cdiv. field. exact NZ.
      - intros i Hi Hne. rewrite NX by exact Hi. destruct (Nat.eqb_spec i 0); [contradiction|ring]. }
    rewrite <- E, (gt_inverse _ _ G X LX), (NX k Hk). destruct (Nat.eqb_spec k 0); [contradiction|reflexivity].
  Qed.
End Charge.
