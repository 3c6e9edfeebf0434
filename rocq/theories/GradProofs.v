From Verif Require Import GradSpec RealProofs DftProofs IndexProofs StepProofs SddProofs EnergyProofs EnergyProofs3 Vec CVec Complex.
From Coq Require Import Lra Lia Qreals.
Open Scope R_scope.

(** ** Points and phases *)
Lemma rdot_along f d h r : length f = length r -> rdot f (along d h r) = rdot f r + nth d f 0 * h.
Proof.
  revert d r. induction f as [|x f IH]; intros d [|y r] L; cbn [length] in L; try lia.
  - destruct d; cbn; ring.
  - destruct d as [|d]; cbn [along rdot nth]; [ring|]. rewrite IH by lia. ring.
Qed.
Lemma rdot_freq_dot f : forall p, rdot (map Q2R f) (map IZR p) = freq_dot f p.
Proof. induction f as [|q f IH]; intros [|x p]; cbn [map rdot freq_dot]; try reflexivity. rewrite IH. reflexivity. Qed.

Lemma freq_length dom k f : valid_domain dom -> freq dom (Z.of_nat k) = Some f -> length f = length dom.
Proof.
  intros [[L|L] _] H; destruct dom as [|d0 [|d1 [|d2 [|d3 r]]]]; cbn [length] in L; try lia; cbn [freq] in H; injection H as <-; reflexivity.
Qed.
Lemma pos_length dom k p : valid_domain dom -> (k < nodes dom)%nat -> IndexModel.pos dom (Z.of_nat k) = Some p -> length p = length dom.
Proof.
  intros Hv Hk H. destruct (node_idx_pos dom _ Hv (nodes_lt dom k (proj2 Hv) Hk)) as (q & Hq & B & _).
  rewrite H in Hq. injection Hq as ->. symmetry. clear - B. induction B; cbn; congruence.
Qed.

  Lemma near_half_real c m : (0 < m <= 5000000000)%Z -> (0 <= c < m)%Z -> Rabs (Rabs (Q2R (freq1 c m)) - 1 / 2) <= 1 / 10000000000 ->
    Q2R (freq1 c m) = 1 / 2.
  Proof.
    intros Hm Hc H. pose proof (freq1_princ c m ltac:(lia) Hc) as E. apply Qeq_eqR in E.
    assert (M0 : IZR m <> 0) by (apply not_0_IZR; lia).
    rewrite Q2R_div, !Q2R_inject in E by (unfold Qeq; cbn; lia). rewrite E in *. clear E.
    assert (Mp : 0 < IZR m) by (apply IZR_lt; lia).
    assert (Mle : IZR m <= 5000000000) by (apply IZR_le; lia).
    assert (P : (- m < 2 * princ c m <= m)%Z) by (apply princ_range; lia).
    unfold Rdiv at 1 in H. rewrite Rabs_mult, (Rabs_right (/ IZR m)) in H by (left; apply Rinv_0_lt_compat; exact Mp). fold (Rdiv (Rabs (IZR (princ c m))) (IZR m)) in H. rewrite <- abs_IZR in H.
    assert (H' : Rabs (IZR (2 * Z.abs (princ c m) - m)) <= 1).
    { rewrite minus_IZR, mult_IZR. replace (2 * IZR (Z.abs (princ c m)) - IZR m) with ((IZR (Z.abs (princ c m)) / IZR m - 1 / 2) * (2 * IZR m)) by (field; exact M0).
      rewrite Rabs_mult, (Rabs_right (2 * IZR m)) by lra.
      apply Rle_trans with (1 / 10000000000 * (2 * 5000000000)); [|lra].
      apply Rmult_le_compat; [apply Rabs_pos|lra|exact H|lra]. }
    assert (Hlt : Rabs (IZR (2 * Z.abs (princ c m) - m)) < 1 \/ m = 5000000000%Z).
    { destruct (Z.eq_dec m 5000000000) as [->|Ne]; [right; reflexivity|left].
      assert (Ml : IZR m <= 4999999999) by (apply IZR_le; lia).
      rewrite minus_IZR, mult_IZR. replace (2 * IZR (Z.abs (princ c m)) - IZR m) with ((IZR (Z.abs (princ c m)) / IZR m - 1 / 2) * (2 * IZR m)) by (field; exact M0).
      rewrite Rabs_mult, (Rabs_right (2 * IZR m)) by lra.
      apply Rle_lt_trans with (1 / 10000000000 * (2 * 4999999999)); [|lra].
      apply Rmult_le_compat; [apply Rabs_pos|lra|exact H|lra]. }
    assert (Z0 : (2 * Z.abs (princ c m) = m)%Z).
    { destruct Hlt as [Hlt|Hm']; rewrite <- abs_IZR in *.
      - apply (lt_IZR _ 1) in Hlt. lia.
      - apply (le_IZR _ 1) in H'. lia. }
    assert (Z1 : (2 * princ c m = m)%Z) by lia.
    apply (f_equal IZR) in Z1. rewrite mult_IZR in Z1. apply (Rmult_eq_reg_r (IZR m)); [|exact M0]. unfold Rdiv. rewrite Rmult_assoc, Rinv_l by exact M0. lra.
  Qed.

Section Interp.
  Variable dom : list Z.
  Hypothesis Hv : valid_domain dom.
  Hypothesis Hs : square_layout dom.
  Let n := nodes dom.
  Let ft := fftw_transform dom.

  Lemma tfreq_length k : (k < nodes dom)%nat -> length (tfreq ft k) = length dom.
  Proof.
    intros Hk. destruct (freq_defined dom k Hv Hk) as (_ & f & _ & Hf). unfold ft. cbn [tfreq fftw_transform]. rewrite Hf, map_length.
    exact (freq_length dom k f Hv Hf).
  Qed.
  Lemma node_point_length j : (j < nodes dom)%nat -> length (node_point dom j) = length dom.
  Proof.
    intros Hj. unfold node_point. destruct (freq_defined dom j Hv Hj) as (p & _ & Hp & _). rewrite Hp, map_length.
    exact (pos_length dom j p Hv Hj Hp).
  Qed.

  Lemma cis_phase k j : (k < nodes dom)%nat -> (j < nodes dom)%nat ->
    cis (phase (fftw_dims dom) k j) = cis (rdot (tfreq ft k) (node_point dom j)).
  Proof.
    intros Hk Hj. destruct (freq_defined dom k Hv Hk) as (_ & f & _ & Hf). destruct (freq_defined dom j Hv Hj) as (p & _ & Hp & _).
    unfold ft, node_point. cbn [tfreq fftw_transform]. rewrite Hf, Hp, rdot_freq_dot.
    destruct (phase_freq dom k j f p Hv Hs Hk Hj Hf Hp) as [z Hz]. apply (cis_cong _ _ z). exact Hz.
  Qed.

  (** the inverse transform at a node *)
  Lemma to_real_nth X j : length X = nodes dom -> (j < nodes dom)%nat ->
    nth j (to_real ft X) C0 = Cdiv (csum (nodes dom) (fun k => Cmul (nth k X C0) (cis (rdot (tfreq ft k) (node_point dom j))))) (RtoC (INR (nodes dom))).
  Proof.
    intros L Hj. unfold to_real. rewrite div_real_nth, L. f_equal. unfold ft. cbn [ifft fftw_transform].
    pose proof (nprod_nodes dom (proj2 Hv)) as HN. rewrite dft_nth by (rewrite HN; exact Hj). rewrite HN.
    apply csum_ext. intros k Hk. f_equal. rewrite Rmult_1_l, phase_sym. apply cis_phase; assumption.
  Qed.

  Lemma interp_fft x r : length x = nodes dom ->
    interp dom x r = Cdiv (csum (nodes dom) (fun k => Cmul (nth k (fft ft x) C0) (cis (rdot (tfreq ft k) r)))) (RtoC (INR (nodes dom))).
  Proof.
    intros L. unfold interp. f_equal. apply csum_ext. intros k Hk. destruct (freq_defined dom k Hv Hk) as (_ & f & _ & Hf).
    rewrite Hf. unfold ft. rewrite (fft_amplitude dom x k f Hv Hs Hk Hf). cbn [tfreq fftw_transform]. rewrite Hf. reflexivity.
  Qed.

  Theorem interp_at_node x j : length x = nodes dom -> (j < nodes dom)%nat -> interp dom x (node_point dom j) = nth j x C0.
  Proof.
    intros L Hj. rewrite interp_fft by exact L. pose proof (fftw_good dom Hv) as G.
    rewrite <- to_real_nth by (try exact Hj; apply (gt_fft_len _ _ G), L). unfold ft. rewrite (gt_left _ _ G x L). reflexivity.
  Qed.

  (** ** Derivatives of the interpolant *)
  Lemma dlim_cis_re (X : C) a b h : derivable_pt_lim (fun h => Re (Cmul X (cis (a + b * h)))) h (Re (Cmul (Cmul X (0, 2 * PI * b)) (cis (a + b * h)))).
  Proof.
    destruct X as [u v].
    assert (A : derivable_pt_lim (fun h => 2 * PI * (a + b * h)) h (2 * PI * b)).
    { refine (dlim_ext _ _ _ _ _ _ _ (dlim_poly4 (2 * PI * a) (2 * PI * b) 0 0 0 h)); intros; ring. }
    pose proof (derivable_pt_lim_comp _ cos h _ _ A (derivable_pt_lim_cos _)) as Hc.
    pose proof (derivable_pt_lim_comp _ sin h _ _ A (derivable_pt_lim_sin _)) as Hsn.
    pose proof (derivable_pt_lim_minus _ _ _ _ _ (derivable_pt_lim_scal _ u _ _ Hc) (derivable_pt_lim_scal _ v _ _ Hsn)) as H.
    refine (dlim_ext _ _ _ _ _ _ _ H).
    - intros y. unfold minus_fct, mult_real_fct, comp, cis. cbn. reflexivity.
    - unfold cis. cbn. ring.
  Qed.

  Definition dinterp (d : nat) (X : data) (r : list R) (h : R) : C :=
    Cdiv (csum (nodes dom) (fun k => Cmul (nth k X C0) (cis (rdot (tfreq ft k) r + nth d (tfreq ft k) 0 * h)))) (RtoC (INR (nodes dom))).

  Lemma nodes_neq0 : INR (nodes dom) <> 0.
  Proof. rewrite <- (nprod_nodes dom (proj2 Hv)). apply INR_nprod_neq0, fftw_dims_pos, Hv. Qed.

  Lemma Re_Cdiv_real z x : x <> 0 -> Re (Cdiv z (RtoC x)) = Re z / x.
  Proof. intros Hx. destruct z as [a b]. unfold Cdiv. rewrite <- RtoC_inv by exact Hx. cbn. unfold Rdiv. ring. Qed.
  Lemma Im_Cdiv_real z x : x <> 0 -> Im (Cdiv z (RtoC x)) = Im z / x.
  Proof. intros Hx. destruct z as [a b]. unfold Cdiv. rewrite <- RtoC_inv by exact Hx. cbn. unfold Rdiv. ring. Qed.

  Lemma dinterp_deriv d X r h : length X = nodes dom ->
    derivable_pt_lim (fun h => Re (dinterp d X r h)) h (Re (dinterp d (mapi_from 0 (fun k z => Cmul z (0, 2 * PI * nth d (tfreq ft k) 0)) X) r h)).
  Proof.
    intros L. pose proof nodes_neq0 as N0.
    refine (dlim_ext (fun h => / INR (nodes dom) * rsum (nodes dom) (fun k => Re (Cmul (nth k X C0) (cis (rdot (tfreq ft k) r + nth d (tfreq ft k) 0 * h))))) _ _ _ _ _ _
      (derivable_pt_lim_scal _ (/ INR (nodes dom)) _ _ (dlim_rsum (nodes dom) _ h _ (fun k Hk => dlim_cis_re (nth k X C0) (rdot (tfreq ft k) r) (nth d (tfreq ft k) 0) h)))).
    - intros y. unfold dinterp. rewrite Re_Cdiv_real by exact N0. rewrite csum_re. unfold Rdiv. ring.
    - unfold dinterp. rewrite Re_Cdiv_real by exact N0. rewrite csum_re. unfold Rdiv. rewrite Rmult_comm. f_equal.
      apply rsum_ext. intros k Hk. rewrite nth_mapi by (rewrite L; exact Hk). reflexivity.
  Qed.

  Lemma interp_along x d j h : length x = nodes dom -> (j < nodes dom)%nat ->
    interp dom x (along d h (node_point dom j)) = dinterp d (fft ft x) (node_point dom j) h.
  Proof.
    intros L Hj. rewrite interp_fft by exact L. unfold dinterp. f_equal. apply csum_ext. intros k Hk. f_equal. f_equal.
    apply rdot_along. rewrite tfreq_length, node_point_length by assumption. reflexivity.
  Qed.
  Lemma dinterp_0 d X j : length X = nodes dom -> (j < nodes dom)%nat -> dinterp d X (node_point dom j) 0 = nth j (to_real ft X) C0.
  Proof.
    intros L Hj. rewrite to_real_nth by assumption. unfold dinterp. f_equal. apply csum_ext. intros k Hk. rewrite Rmult_0_r, Rplus_0_r. reflexivity.
  Qed.

  (** With the Nyquist mode kept the gradient is the derivative of the
      interpolant; no condition on the field. *)
  Lemma grad_freq_keep f : grad_freq true f = f.
  Proof. unfold grad_freq. destruct (Rlt_dec _ _); reflexivity. Qed.
  Lemma grad_amp_length comp keep X : length (grad_amplitudes ft comp keep X) = length X.
  Proof. apply mapi_from_length. Qed.
  Lemma gradient_length comp keep x : length x = nodes dom -> length (gradient ft comp keep x) = nodes dom.
  Proof.
    intros L. pose proof (fftw_good dom Hv) as G. unfold gradient, to_real. rewrite div_real_length. apply (gt_ifft_len _ _ G).
    rewrite grad_amp_length. apply (gt_fft_len _ _ G), L.
  Qed.

  Theorem gradient_keep_derivative x comp j : length x = nodes dom -> (j < nodes dom)%nat ->
    derivable_pt_lim (fun h => Re (interp dom x (along comp h (node_point dom j)))) 0 (Re (nth j (gradient ft comp true x) C0)).
  Proof.
    intros L Hj. pose proof (fftw_good dom Hv) as G. pose proof (gt_fft_len _ _ G x L) as LF.
    refine (dlim_ext _ _ _ _ _ _ _ (dinterp_deriv comp (fft ft x) (node_point dom j) 0 LF)).
    - intros h. rewrite interp_along by assumption. reflexivity.
    - rewrite dinterp_0 by (try assumption; rewrite mapi_from_length; exact LF). f_equal. unfold gradient, grad_amplitudes. f_equal. f_equal.
      apply mapi_ext. intros k z. rewrite grad_freq_keep. reflexivity.
  Qed.

  (** ** The Nyquist mode *)
  Lemma tfreq_fraction k d : (k < nodes dom)%nat -> (d < length dom)%nat ->
    exists c m, (0 < m)%Z /\ (0 <= c < m)%Z /\ In m dom /\ nth d (tfreq ft k) 0 = Q2R (freq1 c m).
  Proof.
    intros Hk Hd. clear Hs. destruct Hv as [Hr Hp]. pose proof (nodes_lt dom k Hp Hk) as B. unfold ft. cbn [tfreq fftw_transform].
    destruct dom as [|d0 [|d1 [|d2 [|d3 r]]]]; cbn [length] in Hr; try lia.
    - inversion Hp as [|? ? H0 Hp']; subst. inversion Hp' as [|? ? H1 _]; subst. cbn [freq map].
      unfold num_nodes in B. cbn in B.
      destruct d as [|[|d]]; cbn [length] in Hd; try lia; cbn [nth].
      + exists (row d0 d1 (Z.of_nat k)), d0. unfold row. repeat split; try lia; try (apply Z.rem_bound_pos; [apply Z.quot_pos; lia|lia]). left; reflexivity.
      + exists (col d1 (Z.of_nat k)), d1. unfold col. repeat split; try lia; try (apply Z.rem_bound_pos; lia). right; left; reflexivity.
    - inversion Hp as [|? ? H0 Hp']; subst. inversion Hp' as [|? ? H1 Hp'']; subst. inversion Hp'' as [|? ? H2 _]; subst. cbn [freq map].
      unfold num_nodes in B. cbn in B.
      destruct d as [|[|[|d]]]; cbn [length] in Hd; try lia; cbn [nth].
      + exists (row d0 d1 (Z.of_nat k)), d0. unfold row. repeat split; try lia; try (apply Z.rem_bound_pos; [apply Z.quot_pos; lia|lia]). left; reflexivity.
      + exists (col d1 (Z.of_nat k)), d1. unfold col. repeat split; try lia; try (apply Z.rem_bound_pos; lia). right; left; reflexivity.
      + exists (depth d0 d1 (Z.of_nat k)), d2. unfold depth. rewrite Z.quot_div_nonneg by nia. repeat split; try lia.
        * apply Z.div_pos; nia.
        * apply Z.div_lt_upper_bound; nia.
        * right; right; left; reflexivity.
  Qed.

End Interp.
