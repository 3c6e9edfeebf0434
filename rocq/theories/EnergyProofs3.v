From Verif Require Import EnergySpec EnergyProofs EnergyProofs2 StepProofs SddProofs Vec CVec Complex.
From Coq Require Import Lra Lia.
Open Scope R_scope.

Lemma nth_mapi {B} (f : nat -> C -> B) (b : B) (l : data) : forall i j, (j < length l)%nat -> nth j (mapi_from i f l) b = f (i + j)%nat (nth j l C0).
Proof.
  induction l as [|z l IH]; intros i j Hj; cbn [length] in Hj; [lia|].
  destruct j as [|j]; cbn [mapi_from nth]; [rewrite Nat.add_0_r; reflexivity|].
  rewrite IH by lia. f_equal. lia.
Qed.

Lemma maybe_lap_length lap ft d : length (maybe_laplacian lap ft d) = length d.
Proof. destruct lap; cbn [maybe_laplacian]; [apply mapi_from_length|reflexivity]. Qed.
Lemma maybe_lap_nth lap ft d j : (j < length d)%nat -> nth j (maybe_laplacian lap ft d) C0 = Cmul (symbol lap ft j) (nth j d C0).
Proof.
  intros Hj. destruct lap; cbn [maybe_laplacian symbol].
  - rewrite nth_mapi by exact Hj. rewrite lap_eval_symbol. cbn [Nat.add]. rewrite pow_1. reflexivity.
  - ring.
Qed.

Lemma nth_map2 {A} (f : A -> A -> A) (d : A) x y j : (j < length x)%nat -> length x = length y -> nth j (map2 f x y) d = f (nth j x d) (nth j y d).
Proof.
  revert y j. induction x as [|a x IH]; intros [|b y] j Hj He; cbn [length] in *; try lia.
  destruct j as [|j]; cbn [map2 nth]; [reflexivity|]. apply IH; lia.
Qed.
Lemma nth_map_data {B} (f : C -> B) (b : B) (l : data) j : (j < length l)%nat -> nth j (map f l) b = f (nth j l C0).
Proof. intros H. rewrite (nth_indep _ b (f C0)) by (rewrite map_length; exact H). apply map_nth. Qed.
Lemma nth_map_seq {B} (f : nat -> B) (b : B) n j : (j < n)%nat -> nth j (map f (seq 0 n)) b = f j.
Proof. intros H. rewrite (nth_indep _ b (f 0%nat)) by (rewrite map_length, seq_length; exact H). rewrite map_nth, seq_nth by exact H. reflexivity. Qed.

(** ** Ideal mixture term *)
Lemma it_mixed n it ft u j : unitary_transform n ft -> length u = n -> real_field u -> (j < n)%nat ->
  Cadd (Cmul (nth j (it_linear it ft n) C0) (nth j (fft ft u) C0))
       (nth j (it_nonlinear it ft (fft ft (it_derived it u))) C0) =
  Cmul (symbol (it_laplacian it) ft j)
       (nth j (fft ft (map (fun z => RtoC (it_prefactor it * Re z + (ideal_deriv (it_mix it) (Re z) - Re z))) u)) C0).
Proof.
  intros U Hu Hr Hj. pose proof (ut_good _ _ U) as G.
  assert (Ld : length (it_derived it u) = n) by (unfold it_derived; rewrite map_length; exact Hu).
  assert (Lfd : length (fft ft (it_derived it u)) = n) by exact (gt_fft_len _ _ G _ Ld).
  assert (Lfu : length (fft ft u) = n) by exact (gt_fft_len _ _ G _ Hu).
  unfold it_linear, it_nonlinear. rewrite !maybe_lap_nth by (rewrite ?repeat_length; lia).
  rewrite (nth_indep (repeat _ n) C0 (RtoC (it_prefactor it))) by (rewrite repeat_length; lia). rewrite nth_repeat.
  replace (map (fun z => RtoC (it_prefactor it * Re z + (ideal_deriv (it_mix it) (Re z) - Re z))) u)
    with (map2 (fun a b => Cadd a (Cmul (RtoC (it_prefactor it)) b)) (it_derived it u) u).
  - rewrite (ut_fft_add _ _ U _ _ _ Ld Hu). rewrite nth_map2 by lia. ring.
  - unfold it_derived. clear - Hr. induction Hr as [|z u Hz Hr IH]; [reflexivity|]. cbn [map map2]. f_equal; [|exact IH].
    destruct z as [a b]. cbn [Im snd] in Hz. rewrite Hz. unfold ideal_deriv, quadratic_prefactor.
    apply C_eq; cbn; field.
Qed.

Lemma it_mixed_1 n it ft u j : unitary_transform n ft -> length u = n -> real_field u -> (j < n)%nat -> it_prefactor it = 1 ->
  Cadd (Cmul (nth j (it_linear it ft n) C0) (nth j (fft ft u) C0))
       (nth j (it_nonlinear it ft (fft ft (it_derived it u))) C0) =
  Cmul (symbol (it_laplacian it) ft j) (nth j (fft ft (map (it_eval it) u)) C0).
Proof.
  intros U Hu Hr Hj P. rewrite (it_mixed n it ft u j U Hu Hr Hj). f_equal. f_equal. f_equal.
  apply map_ext. intros z. unfold it_eval. rewrite P. f_equal. ring.
Qed.

(** ** Pair correlation term *)
Lemma pt_implicit_nth pt ft n j : (j < n)%nat -> nth j (pt_implicit pt ft n) C0 =
  Cmul (symbol (pt_laplacian pt) ft j) (RtoC (- pt_evaluate pt (norm (tfreq ft j)))).
Proof.
  intros H. unfold pt_implicit. rewrite maybe_lap_nth by (rewrite map_length, seq_length; exact H).
  rewrite nth_map_seq by exact H. f_equal. csolve.
Qed.
Lemma pt_explicit_nth pt ft n d j : (j < n)%nat -> nth j (pt_explicit pt ft n d) C0 =
  Cmul (symbol (pt_laplacian pt) ft j) (Cmul (RtoC (- pt_evaluate pt (norm (tfreq ft j)))) (nth j d C0)).
Proof.
  intros H. unfold pt_explicit. rewrite maybe_lap_nth by (rewrite map_length, seq_length; exact H).
  rewrite nth_map_seq by exact H. f_equal. f_equal. csolve.
Qed.
Lemma pt_explicit_length pt ft n d : length (pt_explicit pt ft n d) = n.
Proof. unfold pt_explicit. rewrite maybe_lap_length, map_length, seq_length. reflexivity. Qed.

Lemma pt_implicit_explicit pt ft n d j : (j < n)%nat ->
  nth j (pt_explicit pt ft n d) C0 = Cmul (nth j (pt_implicit pt ft n) C0) (nth j d C0).
Proof. intros H. rewrite pt_explicit_nth, pt_implicit_nth by exact H. ring. Qed.

(** ** Functional derivatives *)
Lemma dlim_rsum n (f : nat -> R -> R) x (l : nat -> R) : (forall i, (i < n)%nat -> derivable_pt_lim (f i) x (l i)) ->
  derivable_pt_lim (fun e => rsum n (fun i => f i e)) x (rsum n l).
Proof.
  induction n as [|n IH]; intros H; cbn [rsum]; [exact (derivable_pt_lim_const 0 x)|].
  exact (derivable_pt_lim_plus _ _ _ _ _ (IH ltac:(intros i Hi; apply H; lia)) (H n ltac:(lia))).
Qed.

Lemma fold_energy (g : C -> R) u : forall s, fold_left (fun s z => s + g z) u s = s + rsum (length u) (fun i => g (nth i u C0)).
Proof.
  induction u as [|z u IH]; intros s; cbn [fold_left length]; [cbn [rsum]; ring|].
  rewrite IH. clear IH.
  assert (E : forall n (f : nat -> R), rsum (S n) f = f 0%nat + rsum n (fun i => f (S i))).
  { intros n f. induction n as [|n IH]; [cbn [rsum]; ring|]. cbn [rsum] in *. rewrite IH. ring. }
  rewrite E. cbn [nth]. ring.
Qed.

Lemma perturb_length u v eps : length u = length v -> length (perturb u v eps) = length u.
Proof. intros H. unfold perturb. apply map2_length; congruence. Qed.
Lemma perturb_nth u v eps j : (j < length u)%nat -> length u = length v -> nth j (perturb u v eps) C0 = Cadd (nth j u C0) (Cmul (RtoC eps) (nth j v C0)).
Proof. intros Hj H. unfold perturb. apply (nth_map2 (fun a b => Cadd a (Cmul (RtoC eps) b))); assumption. Qed.

Lemma it_energy_derivative n it u v : length u = n -> length v = n ->
  derivable_pt_lim (fun eps => it_energy it (perturb u v eps)) 0 (pairing n (map (it_eval it) u) v).
Proof.
  intros Hu Hv. unfold pairing.
  apply (dlim_ext (fun eps => rsum n (fun i => it_prefactor it * ideal_eval (it_mix it) (Re (nth i u C0) + eps * Re (nth i v C0)))) _ 0
    (rsum n (fun i => Re (nth i (map (it_eval it) u) C0) * Re (nth i v C0)))); [|reflexivity|].
  - intros eps. unfold it_energy. rewrite (fold_energy (fun z => it_prefactor it * ideal_eval (it_mix it) (Re z))).
    rewrite perturb_length by congruence. rewrite Hu, Rplus_0_l. apply rsum_ext. intros i Hi.
    rewrite perturb_nth by lia. f_equal. f_equal. destruct (nth i u C0), (nth i v C0). cbn. ring.
  - apply dlim_rsum. intros i Hi. rewrite nth_map_data by lia. unfold it_eval. cbn [Re RtoC fst].
    set (a := fst (nth i u C0)). set (b := fst (nth i v C0)). change (Re (nth i u C0)) with a. change (Re (nth i v C0)) with b.
    assert (A : derivable_pt_lim (fun eps => a + eps * b) 0 b).
    { refine (dlim_ext _ _ _ _ _ _ _ (dlim_poly4 a b 0 0 0 0)); intros; ring. }
    assert (D : derivable_pt_lim (fun eps => ideal_eval (it_mix it) (a + eps * b)) 0 (ideal_deriv (it_mix it) (a + 0 * b) * b)).
    { exact (derivable_pt_lim_comp (fun eps => a + eps * b) (ideal_eval (it_mix it)) 0 b _ A (ideal_deriv_correct (it_mix it) (a + 0 * b))). }
    refine (dlim_ext _ _ _ _ _ _ _ (derivable_pt_lim_scal _ (it_prefactor it) _ _ D)).
    + intros y. reflexivity.
    + replace (a + 0 * b) with a by ring. ring.
Qed.

(** The multiplier the energy applies at node [j]. *)
Definition pt_mult (pt : pair_term) (ft : transform) (j : nat) : R := pt_evaluate pt (norm (tfreq ft j)).

Lemma real_nth u j : real_field u -> Im (nth j u C0) = 0.
Proof.
  intros H. destruct (lt_dec j (length u)) as [L|L].
  - exact (proj1 (Forall_forall _ _) H _ (nth_In u C0 L)).
  - rewrite nth_overflow by lia. reflexivity.
Qed.

Lemma inner_re_real n g v : real_field v -> Re (inner n g v) = pairing n g v.
Proof.
  intros H. unfold inner, pairing. rewrite csum_re. apply rsum_ext. intros i _.
  pose proof (real_nth v i H) as E. destruct (nth i g C0), (nth i v C0). cbn in *. rewrite E. ring.
Qed.

Definition pt_form (pt : pair_term) (ft : transform) (n : nat) (u v : data) : R :=
  rsum n (fun j => pt_mult pt ft j * (Re (nth j (fft ft u) C0) * Re (nth j (fft ft v) C0) + Im (nth j (fft ft u) C0) * Im (nth j (fft ft v) C0))) / INR n.

Lemma pt_form_sym pt ft n u v : pt_form pt ft n u v = pt_form pt ft n v u.
Proof. unfold pt_form. f_equal. apply rsum_ext. intros j _. ring. Qed.

Lemma pairing_form n pt ft u v : unitary_transform n ft -> (0 < n)%nat -> length u = n -> length v = n -> real_field v ->
  forall d, length d = n -> (forall j, (j < n)%nat -> nth j d C0 = Cmul (RtoC (pt_mult pt ft j)) (nth j (fft ft u) C0)) ->
  pairing n (to_real ft d) v = pt_form pt ft n u v.
Proof.
  intros U Hn Hu Hv Hr d Hd Ed. rewrite <- (inner_re_real n _ v Hr).
  rewrite (fft_inner n ft d v U Hd Hv Hn). unfold pt_form.
  assert (N : INR n <> 0) by (apply not_0_INR; lia).
  unfold Cdiv. rewrite <- RtoC_inv by exact N.
  replace (Re (Cmul (inner n d (fft ft v)) (RtoC (/ INR n)))) with (Re (inner n d (fft ft v)) / INR n) by (destruct (inner n d (fft ft v)); cbn; field; exact N).
  f_equal. unfold inner. rewrite csum_re. apply rsum_ext. intros j Hj. rewrite Ed by exact Hj.
  destruct (nth j (fft ft u) C0), (nth j (fft ft v) C0). cbn. ring.
Qed.

Lemma pt_energy_form n pt ft u : unitary_transform n ft -> (0 < n)%nat -> length u = n -> real_field u ->
  pt_energy pt ft u = - (1 / 2) * pt_form pt ft n u u.
Proof.
  intros U Hn Hu Hr. pose proof (ut_good _ _ U) as G. unfold pt_energy. f_equal. rewrite Hu.
  set (d := mapi_from 0 _ (fft ft u)).
  assert (Ld : length d = n) by (unfold d; rewrite mapi_from_length; exact (gt_fft_len _ _ G _ Hu)).
  rewrite <- (pairing_form n pt ft u u U Hn Hu Hu Hr d Ld).
  - unfold pairing. apply rsum_ext. intros i _. pose proof (real_nth u i Hr) as E.
    destruct (nth i (to_real ft d) C0), (nth i u C0). cbn in *. rewrite E. ring.
  - intros j Hj. unfold d. rewrite nth_mapi by (rewrite (gt_fft_len _ _ G _ Hu); exact Hj). cbn [Nat.add]. unfold pt_mult, pt_evaluate. ring.
Qed.

Lemma real_perturb u v eps : real_field u -> real_field v -> real_field (perturb u v eps).
Proof.
  intros Hu. revert v. induction Hu as [|z u Hz Hu IH]; intros v Hv; [constructor|].
  destruct Hv as [|w v Hw Hv]; [constructor|]. cbn [perturb map2]. constructor; [|apply IH; exact Hv].
  destruct z, w. cbn in *. rewrite Hz, Hw. ring.
Qed.

Lemma pt_energy_derivative n pt ft u v : unitary_transform n ft -> (0 < n)%nat -> length u = n -> length v = n ->
  real_field u -> real_field v -> pt_laplacian pt = false ->
  derivable_pt_lim (fun eps => pt_energy pt ft (perturb u v eps)) 0 (pairing n (to_real ft (pt_explicit pt ft n (fft ft u))) v).
Proof.
  intros U Hn Hu Hv Ru Rv Hl. pose proof (ut_good _ _ U) as G.
  assert (E : pairing n (to_real ft (pt_explicit pt ft n (fft ft u))) v = - pt_form pt ft n u v).
  { pose (pt' := {| pt_temp := pt_temp pt; pt_peaks := pt_peaks pt; pt_prefactor := - pt_prefactor pt; pt_laplacian := false |}).
    rewrite (pairing_form n pt' ft u v U Hn Hu Hv Rv).
    - unfold pt_form. unfold Rdiv. rewrite Ropp_mult_distr_l, <- rsum_opp. f_equal. apply rsum_ext. intros j _.
      unfold pt_mult, pt_evaluate, pt'. cbn [pt_prefactor pt_temp pt_peaks]. ring.
    - apply pt_explicit_length.
    - intros j Hj. rewrite pt_explicit_nth by exact Hj. rewrite Hl. cbn [symbol]. unfold pt_mult, pt_evaluate, pt'. cbn [pt_prefactor pt_temp pt_peaks].
      destruct (nth j (fft ft u) C0). csolve. }
  rewrite E.
  refine (dlim_ext _ _ _ _ _ _ _ (dlim_poly4 (- (1/2) * pt_form pt ft n u u) (- pt_form pt ft n u v) (- (1/2) * pt_form pt ft n v v) 0 0 0)).
  - intros eps. rewrite (pt_energy_form n pt ft (perturb u v eps) U Hn).
    2:{ rewrite perturb_length; congruence. } 2:{ apply real_perturb; assumption. }
    assert (X : pt_form pt ft n (perturb u v eps) (perturb u v eps) = pt_form pt ft n u u + 2 * eps * pt_form pt ft n u v + eps * eps * pt_form pt ft n v v).
    { unfold pt_form. unfold perturb. rewrite (ut_fft_add _ _ U _ _ _ Hu Hv).
      unfold Rdiv. rewrite <- !Rmult_assoc, <- !(rsum_mul_l n), <- !Rmult_plus_distr_r, <- !rsum_plus. f_equal. apply rsum_ext. intros j Hj.
      rewrite nth_map2 by (rewrite ?(gt_fft_len _ _ G _ Hu), ?(gt_fft_len _ _ G _ Hv); lia).
      destruct (nth j (fft ft u) C0), (nth j (fft ft v) C0). cbn. ring. }
    rewrite X. field.
  - ring.
Qed.

(** ** Energy along the flow *)
(** The spectral right-hand side made of the two terms. *)
Definition flow (it : ideal_term) (pt : pair_term) (ft : transform) (n : nat) (u : data) : data :=
  map (fun j => Cadd (Cadd (Cmul (nth j (it_linear it ft n) C0) (nth j (fft ft u) C0))
                           (nth j (it_nonlinear it ft (fft ft (it_derived it u))) C0))
                     (Cmul (nth j (pt_implicit pt ft n) C0) (nth j (fft ft u) C0))) (seq 0 n).

Lemma lap_symbol_nonpos f : lap_symbol f <= 0.
Proof. unfold lap_symbol. pose proof (norm_sq_nonneg f). pose proof PI_RGT_0. assert (0 <= 4 * PI * PI * norm_sq f) by (apply Rmult_le_pos; nra). lra. Qed.

Lemma pairing_add n a b c v : (forall i, (i < n)%nat -> nth i c C0 = Cadd (nth i a C0) (nth i b C0)) -> pairing n c v = pairing n a v + pairing n b v.
Proof.
  intros H. unfold pairing. rewrite <- rsum_plus. apply rsum_ext. intros i Hi. rewrite H by exact Hi.
  destruct (nth i a C0), (nth i b C0). cbn. ring.
Qed.

Lemma flow_energy n it pt ft u : unitary_transform n ft -> (0 < n)%nat -> length u = n -> real_field u ->
  it_prefactor it = 1 -> it_laplacian it = true -> pt_laplacian pt = true ->
  real_field (to_real ft (flow it pt ft n u)) ->
  exists rate, derivable_pt_lim (fun eps => it_energy it (perturb u (to_real ft (flow it pt ft n u)) eps) +
                                            pt_energy pt ft (perturb u (to_real ft (flow it pt ft n u)) eps)) 0 rate /\ rate <= 0.
Proof.
  intros U Hn Hu Ru P Li Lp Rv. pose proof (ut_good _ _ U) as G.
  set (v := to_real ft (flow it pt ft n u)) in *.
  assert (Lf : length (flow it pt ft n u) = n) by (unfold flow; rewrite map_length, seq_length; reflexivity).
  assert (Lv : length v = n) by (unfold v, to_real; rewrite div_real_length; exact (gt_ifft_len _ _ G _ Lf)).
  pose (pt0 := {| pt_temp := pt_temp pt; pt_peaks := pt_peaks pt; pt_prefactor := pt_prefactor pt; pt_laplacian := false |}).
  exists (pairing n (map (it_eval it) u) v + pairing n (to_real ft (pt_explicit pt0 ft n (fft ft u))) v). split.
  - apply (derivable_pt_lim_plus (fun eps => it_energy it (perturb u v eps)) (fun eps => pt_energy pt ft (perturb u v eps))).
    + apply it_energy_derivative; assumption.
    + refine (dlim_ext _ _ _ _ _ _ _ (pt_energy_derivative n pt0 ft u v U Hn Hu Lv Ru Rv eq_refl)); [intros y|]; reflexivity.
  - set (g1 := map (it_eval it) u). set (g2h := pt_explicit pt0 ft n (fft ft u)).
    assert (L1 : length g1 = n) by (unfold g1; rewrite map_length; exact Hu).
    assert (L2 : length g2h = n) by (unfold g2h; apply pt_explicit_length).
    assert (L1h : length (fft ft g1) = n) by exact (gt_fft_len _ _ G _ L1).
    rewrite <- !(inner_re_real n _ v Rv).
    rewrite <- (gt_left _ _ G g1 L1). rewrite (fft_inner n ft (fft ft g1) v U L1h Lv Hn), (fft_inner n ft g2h v U L2 Lv Hn).
    assert (Ev : fft ft v = flow it pt ft n u) by exact (gt_inverse _ _ G _ Lf). rewrite Ev.
    assert (N : 0 < INR n) by (apply lt_0_INR; lia).
    unfold Cdiv. rewrite <- RtoC_inv by lra.
    assert (Sc : forall z, Re (Cmul z (RtoC (/ INR n))) = Re z * / INR n) by (intros [a b]; cbn; ring).
    rewrite !Sc, <- Rmult_plus_distr_r.
    assert (T : Re (inner n (fft ft g1) (flow it pt ft n u)) + Re (inner n g2h (flow it pt ft n u)) <= 0).
    { unfold inner. rewrite !csum_re, <- rsum_plus. rewrite <- (rsum_0 n). apply rsum_le. intros j Hj.
      assert (Ej : nth j (flow it pt ft n u) C0 = Cmul (RtoC (lap_symbol (tfreq ft j))) (Cadd (nth j (fft ft g1) C0) (nth j g2h C0))).
      { unfold flow. rewrite nth_map_seq by exact Hj. rewrite (it_mixed_1 n it ft u j U Hu Ru Hj P), Li.
        rewrite <- pt_implicit_explicit by exact Hj. unfold g2h. rewrite !pt_explicit_nth by exact Hj. rewrite Lp. cbn [symbol].
        change (pt_laplacian pt0) with false. cbn [symbol]. unfold pt_evaluate, pt0. cbn [pt_prefactor pt_temp pt_peaks]. fold g1. ring. }
      rewrite Ej. pose proof (lap_symbol_nonpos (tfreq ft j)) as L. set (l := lap_symbol (tfreq ft j)) in *.
      destruct (nth j (fft ft g1) C0) as [a b], (nth j g2h C0) as [c d]. cbn.
      pose proof (Rle_0_sqr (a + c)) as Q1. pose proof (Rle_0_sqr (b + d)) as Q2. unfold Rsqr in *. nra. }
    pose proof (Rinv_0_lt_compat _ N). nra.
Qed.
