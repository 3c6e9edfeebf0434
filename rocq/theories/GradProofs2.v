From Verif Require Import GradSpec RealProofs GradProofs DftProofs IndexProofs StepProofs SddProofs EnergyProofs EnergyProofs3 Vec CVec Complex.
From Coq Require Import Lra Lia Qreals.
Open Scope R_scope.

Section Nyquist.
  Variable dom : list Z.
  Hypothesis Hv : valid_domain dom.
  Hypothesis Hs : square_layout dom.
  Hypothesis Hm : moderate dom.
  Let ft := fftw_transform dom.

  Lemma moderate_in m : In m dom -> (0 < m <= 5000000000)%Z.
  Proof.
    intros H. split; [exact (proj1 (Forall_forall _ _) (proj2 Hv) m H)|]. exact (proj1 (Forall_forall _ _) Hm m H).
  Qed.

  Lemma tfreq_range k d : (k < nodes dom)%nat -> - (1 / 2) < nth d (tfreq ft k) 0 <= 1 / 2.
  Proof.
    intros Hk. destruct (lt_dec d (length dom)) as [Hd|Hd].
    - destruct (tfreq_fraction dom Hv k d Hk Hd) as (c & m & M & Hc & _ & E). unfold ft. rewrite E.
      destruct (freq1_range c m M Hc) as [A B]. apply Qlt_Rlt in A. apply Qle_Rle in B. unfold Q2R in A at 1, B at 2. cbn in A, B. lra.
    - rewrite nth_overflow by (unfold ft; rewrite (tfreq_length dom Hv k Hk); lia). lra.
  Qed.

  Lemma grad_freq_exact k d : (k < nodes dom)%nat ->
    grad_freq false (nth d (tfreq ft k) 0) = if Req_EM_T (nth d (tfreq ft k) 0) (1 / 2) then 0 else nth d (tfreq ft k) 0.
  Proof.
    intros Hk. unfold grad_freq. set (f := nth d (tfreq ft k) 0).
    destruct (Rlt_dec (Rabs (f - 1 / 2)) (1 / 10000000000)) as [L|L]; destruct (Req_EM_T f (1 / 2)) as [E|E]; try reflexivity.
    - exfalso. apply E. destruct (lt_dec d (length dom)) as [Hd|Hd].
      + destruct (tfreq_fraction dom Hv k d Hk Hd) as (c & m & M & Hc & Hin & E'). unfold f, ft in *. rewrite E' in *.
        apply near_half_real; [apply moderate_in, Hin|exact Hc|]. left. apply Rabs_def2 in L. rewrite (Rabs_right (Q2R (freq1 c m))) by lra.
        apply Rabs_def1; lra.
      + unfold f in *. rewrite nth_overflow in * by (unfold ft; rewrite (tfreq_length dom Hv k Hk); lia). apply Rabs_def2 in L. lra.
    - exfalso. apply L. rewrite E. replace (1 / 2 - 1 / 2) with 0 by ring. rewrite Rabs_R0. lra.
  Qed.

  (** A multiplier i g(f_d), odd on the frequencies below one half and zero at
      one half, gives conjugate values at conjugate nodes. *)
  Lemma odd_herm (g : R -> R) d : g (1 / 2) = 0 ->
    (forall k, (k < nodes dom)%nat -> nth d (tfreq ft k) 0 <> 1 / 2 -> g (- nth d (tfreq ft k) 0) = - g (nth d (tfreq ft k) 0)) ->
    herm_fun dom (fun j => (0, g (nth d (tfreq ft j) 0))).
  Proof.
    intros G0 Go u w Hu Hw Hc. cbv beta. destruct (conj_nth _ _ d (conj_tfreq dom u w Hv Hu Hw Hc)) as [E|[E1 E2]]; unfold ft in *.
    - assert (Ne : nth d (tfreq (fftw_transform dom) u) 0 <> 1 / 2). { intros C. pose proof (tfreq_range w d Hw) as Rw. unfold ft in Rw. rewrite E, C in Rw. lra. }
      rewrite E, (Go u Hu Ne). apply C_eq; cbn; ring.
    - rewrite E1, E2, G0. apply C_eq; cbn; ring.
  Qed.
  Lemma odd_herm_all (g : R -> R) d : g (1 / 2) = 0 -> (forall f, g (- f) = - g f) -> herm_fun dom (fun j => (0, g (nth d (tfreq ft j) 0))).
  Proof. intros G0 Go. apply odd_herm; [exact G0|]. intros k _ _. apply Go. Qed.

  Lemma grad_herm d : herm_fun dom (fun j => (0, 2 * PI * grad_freq false (nth d (tfreq ft j) 0))).
  Proof.
    intros u w Hu Hw Hc. pose proof (odd_herm (fun f => 2 * PI * (if Req_EM_T f (1 / 2) then 0 else f)) d) as H.
    cbv beta in *. rewrite !grad_freq_exact by assumption. apply H; try assumption.
    - destruct (Req_EM_T (1 / 2) (1 / 2)); [ring|congruence].
    - intros k Hk Ne. pose proof (tfreq_range k d Hk) as B.
      destruct (Req_EM_T (- nth d (tfreq ft k) 0) (1 / 2)) as [E|E]; [lra|].
      destruct (Req_EM_T (nth d (tfreq ft k) 0) (1 / 2)) as [E'|E']; [contradiction|ring].
  Qed.

  Lemma herm_grad_amp d X : herm dom X -> herm dom (grad_amplitudes ft d false X).
  Proof.
    intros H. unfold grad_amplitudes. rewrite (mapi_ext _ (fun j z => Cmul (0, 2 * PI * grad_freq false (nth d (tfreq ft j) 0)) z)) by (intros; ring).
    apply herm_mapi; [exact Hv|apply grad_herm|exact H].
  Qed.

  Theorem gradient_real d x : realf dom x -> realf dom (gradient ft d false x).
  Proof. intros H. unfold gradient. apply (realf_to_real dom Hv Hs), herm_grad_amp, (herm_fft dom Hv Hs), H. Qed.

  (** The Nyquist part of a real field does not contribute to the real part. *)
  Definition nyq (d : nat) (X : data) : data := mapi_from 0 (fun k z => Cmul (RtoC (if Req_EM_T (nth d (tfreq ft k) 0) (1 / 2) then 1 else 0)) z) X.
  Lemma herm_nyq d X : herm dom X -> herm dom (nyq d X).
  Proof.
    intros H. apply (herm_mapi dom Hv); [|exact H]. intros u w Hu Hw Hc.
    destruct (conj_nth _ _ d (conj_tfreq dom u w Hv Hu Hw Hc)) as [E|[E1 E2]]; unfold ft in *.
    - pose proof (tfreq_range u d Hu) as R1. pose proof (tfreq_range w d Hw) as R2. unfold ft in *. rewrite Cconj_RtoC.
      destruct (Req_EM_T (nth d (tfreq (fftw_transform dom) w) 0) (1 / 2)); destruct (Req_EM_T (nth d (tfreq (fftw_transform dom) u) 0) (1 / 2)); try lra; reflexivity.
    - rewrite E1, E2, Cconj_RtoC. reflexivity.
  Qed.

  Lemma grad_split d X j : length X = nodes dom -> (j < nodes dom)%nat ->
    nth j (to_real ft (grad_amplitudes ft d true X)) C0 =
    Cadd (nth j (to_real ft (grad_amplitudes ft d false X)) C0) (Cmul (0, PI) (nth j (to_real ft (nyq d X)) C0)).
  Proof.
    intros L Hj. unfold ft. rewrite !to_real_nth by (try assumption; unfold nyq; rewrite ?grad_amp_length, ?mapi_from_length; exact L).
    unfold Cdiv. rewrite (csum_ext (nodes dom) (fun k => Cmul (nth k (grad_amplitudes (fftw_transform dom) d true X) C0) (cis (rdot (tfreq (fftw_transform dom) k) (node_point dom j))))
      (fun k => Cadd (Cmul (nth k (grad_amplitudes (fftw_transform dom) d false X) C0) (cis (rdot (tfreq (fftw_transform dom) k) (node_point dom j))))
                     (Cmul (0, PI) (Cmul (nth k (nyq d X) C0) (cis (rdot (tfreq (fftw_transform dom) k) (node_point dom j))))))).
    - rewrite csum_plus, csum_mul_l. ring.
    - intros k Hk. unfold grad_amplitudes, nyq. rewrite !nth_mapi by (rewrite L; exact Hk). cbn [Nat.add].
      rewrite grad_freq_keep. pose proof (grad_freq_exact k d Hk) as E. unfold ft in *. rewrite E.
      destruct (Req_EM_T (nth d (tfreq (fftw_transform dom) k) 0) (1 / 2)) as [E1|E1].
      + rewrite E1. replace (0, 2 * PI * (1 / 2)) with (0, PI) by (f_equal; field). replace (0, 2 * PI * 0) with C0 by (apply C_eq; cbn; ring).
        change (RtoC 1) with C1. ring.
      + change (RtoC 0) with C0. ring.
  Qed.

  Theorem gradient_derivative x d j : length x = nodes dom -> real_field x -> (j < nodes dom)%nat ->
    Im (nth j (gradient ft d false x) C0) = 0 /\
    derivable_pt_lim (fun h => Re (interp dom x (along d h (node_point dom j)))) 0 (Re (nth j (gradient ft d false x) C0)).
  Proof.
    intros L Hx Hj. split.
    - destruct (gradient_real d x (conj L Hx)) as [L' H]. apply real_field_nth; [exact H|rewrite L'; exact Hj].
    - refine (dlim_ext _ _ _ _ _ _ _ (gradient_keep_derivative dom Hv Hs x d j L Hj)); [reflexivity|].
      unfold gradient at 1. pose proof (fftw_good dom Hv) as G. fold ft.
      rewrite (grad_split d (fft ft x) j) by (try assumption; apply (gt_fft_len _ _ G), L).
      pose proof (herm_fft dom Hv Hs x (conj L Hx)) as HX. pose proof (realf_to_real dom Hv Hs _ (herm_nyq d _ HX)) as [LN RN].
      pose proof (proj1 (real_field_nth _) RN j ltac:(rewrite LN; exact Hj)) as I0.
      unfold gradient. fold ft in I0. destruct (nth j (to_real ft (nyq d (fft ft x))) C0) as [a b].
      cbn [Im snd] in I0. cbn. rewrite I0. unfold Re. ring.
  Qed.

  (** ** Laplacian *)
  Definition d2amp (d : nat) (X : data) : data :=
    mapi_from 0 (fun k z => Cmul z (0, 2 * PI * nth d (tfreq ft k) 0)) (mapi_from 0 (fun k z => Cmul z (0, 2 * PI * nth d (tfreq ft k) 0)) X).
  Lemma d2amp_length d X : length (d2amp d X) = length X.
  Proof. unfold d2amp. rewrite !mapi_from_length. reflexivity. Qed.
  Lemma d2_second x d j : length x = nodes dom -> (j < nodes dom)%nat ->
    second_derivative (fun h => Re (interp dom x (along d h (node_point dom j)))) (Re (nth j (to_real ft (d2amp d (fft ft x))) C0)).
  Proof.
    intros L Hj. pose proof (gt_fft_len _ _ (fftw_good dom Hv) x L) as LF.
    exists (fun h => Re (dinterp dom d (mapi_from 0 (fun k z => Cmul z (0, 2 * PI * nth d (tfreq ft k) 0)) (fft ft x)) (node_point dom j) h)). split.
    - intros h. refine (dlim_ext _ _ _ _ _ _ _ (dinterp_deriv dom Hv d (fft ft x) (node_point dom j) h LF)); [|reflexivity].
      intros y. rewrite interp_along by assumption. reflexivity.
    - refine (dlim_ext _ _ _ _ _ _ _ (dinterp_deriv dom Hv d _ (node_point dom j) 0 _)).
      + intros y. reflexivity.
      + rewrite dinterp_0 by (try assumption; rewrite !mapi_from_length; exact LF). reflexivity.
      + rewrite mapi_from_length. exact LF.
  Qed.

  Lemma norm_sq_rsum f : norm_sq f = rsum (length f) (fun d => nth d f 0 * nth d f 0).
  Proof.
    induction f as [|x f IH]; [reflexivity|]. cbn [norm_sq length]. rewrite IH. clear.
    assert (H : forall n (g : nat -> R), rsum (S n) g = g 0%nat + rsum n (fun i => g (S i))).
    { induction n as [|n IH]; intros g; [cbn; ring|]. cbn [rsum] in *. rewrite IH. ring. }
    rewrite H. reflexivity.
  Qed.

  Lemma csum_Re_zero n (g : nat -> C) : csum n g = (rsum n (fun i => Re (g i)), rsum n (fun i => Im (g i))).
  Proof. apply C_eq; [apply csum_re|apply csum_im]. Qed.

  Lemma laplacian_sum x j : length x = nodes dom -> (j < nodes dom)%nat ->
    nth j (laplacian ft x) C0 = csum (length dom) (fun d => nth j (to_real ft (d2amp d (fft ft x))) C0).
  Proof.
    intros L Hj. pose proof (gt_fft_len _ _ (fftw_good dom Hv) x L) as LF. fold ft in LF. unfold laplacian.
    unfold ft at 1. rewrite to_real_nth by (try assumption; rewrite mapi_from_length; exact LF).
    rewrite (csum_ext (length dom) _ (fun d => Cmul (csum (nodes dom) (fun k => Cmul (nth k (d2amp d (fft ft x)) C0) (cis (rdot (tfreq ft k) (node_point dom j))))) (Cinv (RtoC (INR (nodes dom)))))).
    2:{ intros d _. unfold ft. rewrite to_real_nth by (try assumption; rewrite d2amp_length; exact LF). reflexivity. }
    rewrite csum_mul_r, csum_swap. unfold Cdiv. f_equal. apply csum_ext. intros k Hk. rewrite csum_mul_r. f_equal.
    rewrite nth_mapi by (rewrite LF; exact Hk). cbn [Nat.add]. rewrite lap_eval_symbol, pow_1.
    rewrite (csum_ext (length dom) _ (fun d => Cmul (RtoC (- (4 * PI * PI) * (nth d (tfreq ft k) 0 * nth d (tfreq ft k) 0))) (nth k (fft ft x) C0))).
    2:{ intros d _. unfold d2amp. rewrite !nth_mapi by (rewrite ?mapi_from_length, LF; exact Hk). cbn [Nat.add]. destruct (nth k (fft ft x) C0) as [a b].
        apply C_eq; cbn; ring. }
    rewrite csum_mul_r. f_equal. rewrite csum_RtoC. f_equal. unfold lap_symbol. rewrite rsum_mul_l. fold ft. rewrite norm_sq_rsum.
    unfold ft at 1. rewrite (tfreq_length dom Hv k Hk). ring.
  Qed.

  Theorem laplacian_second x j : length x = nodes dom -> (j < nodes dom)%nat ->
    exists l, (forall d, (d < length dom)%nat -> second_derivative (fun h => Re (interp dom x (along d h (node_point dom j)))) (l d)) /\
      Re (nth j (laplacian ft x) C0) = rsum (length dom) l.
  Proof.
    intros L Hj. exists (fun d => Re (nth j (to_real ft (d2amp d (fft ft x))) C0)). split.
    - intros d _. apply d2_second; assumption.
    - rewrite laplacian_sum by assumption. apply csum_re.
  Qed.

  Lemma laplacian_real x : realf dom x -> realf dom (laplacian ft x).
  Proof.
    intros H. apply (realf_to_real dom Hv Hs).
    rewrite (mapi_ext _ (fun j z => Cmul (RtoC (- (4 * PI * PI * norm_sq (tfreq ft j)))) z)).
    - apply (herm_mapi dom Hv); [exact (isotropic_herm dom Hv (fun s => - (4 * PI * PI * s)))|]. apply (herm_fft dom Hv Hs), H.
    - intros j z. rewrite lap_eval_symbol, pow_1. reflexivity.
  Qed.
End Nyquist.
