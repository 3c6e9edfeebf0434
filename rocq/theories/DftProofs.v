(** Proofs about the discrete Fourier transform. *)
From Verif Require Import DftModel DftSpec IndexProofs.
From Coq Require Import Qreals FunctionalExtensionality Psatz.
Open Scope R_scope.

(** ** exp (2 pi i x) *)
Lemma cis_0 : cis 0 = C1.
Proof. unfold cis, C1. rewrite Rmult_0_r, cos_0, sin_0. reflexivity. Qed.
Lemma cis_add x y : cis (x + y) = Cmul (cis x) (cis y).
Proof.
  apply C_eq; unfold cis, Cmul, Re, Im; cbn [fst snd]; rewrite Rmult_plus_distr_l, ?cos_plus, ?sin_plus; ring.
Qed.
Lemma cis_opp x : cis (- x) = Cconj (cis x).
Proof.
  apply C_eq; unfold cis, Cconj, Re, Im; cbn [fst snd]; rewrite Ropp_mult_distr_r_reverse, ?cos_neg, ?sin_neg; reflexivity.
Qed.
Lemma cis_1 : cis 1 = C1.
Proof. unfold cis, C1. rewrite Rmult_1_r, cos_2PI, sin_2PI. reflexivity. Qed.
Lemma cis_mul_nat x n : cis (INR n * x) = Cpow (cis x) n.
Proof.
  induction n as [|n IH]; [cbn [INR Cpow]; rewrite Rmult_0_l; apply cis_0|].
  rewrite S_INR, Rmult_plus_distr_r, Rmult_1_l, Rplus_comm, cis_add, IH. reflexivity.
Qed.
Lemma Cpow_1 n : Cpow C1 n = C1.
Proof. induction n as [|n IH]; cbn [Cpow]; [reflexivity|rewrite IH; ring]. Qed.
Lemma cis_nat n : cis (INR n) = C1.
Proof. rewrite <- (Rmult_1_r (INR n)), cis_mul_nat, cis_1. apply Cpow_1. Qed.
Lemma cis_int z : cis (IZR z) = C1.
Proof.
  destruct (Z_le_gt_dec 0 z) as [H|H].
  - rewrite <- (Z2Nat.id z H), <- INR_IZR_INZ. apply cis_nat.
  - replace (IZR z) with (- INR (Z.to_nat (- z))).
    + rewrite cis_opp, cis_nat. csolve.
    + rewrite INR_IZR_INZ, Z2Nat.id by lia. rewrite opp_IZR. ring.
Qed.
Lemma cis_cong x y z : x = y + IZR z -> cis x = cis y.
Proof. intros ->. rewrite cis_add, cis_int. ring. Qed.
Lemma cis_eq_1 x : cis x = C1 -> exists z : Z, x = IZR z.
Proof.
  intros H. apply (f_equal Re) in H. unfold cis, C1, Re in H. cbn [fst] in H.
  replace (2 * PI * x) with (2 * (PI * x)) in H by ring. rewrite cos_2a_sin in H.
  assert (S : sin (PI * x) = 0). { apply Rsqr_0_uniq. unfold Rsqr. lra. }
  apply sin_eq_0_0 in S. destruct S as [z Hz]. exists z. pose proof PI_RGT_0.
  apply (Rmult_eq_reg_l PI); [|lra]. rewrite Hz. ring.
Qed.
Lemma cis_neq0 x : cis x <> C0.
Proof.
  intros H. assert (A : Cmul (cis x) (cis (- x)) = C1) by (rewrite <- cis_add, Rplus_opp_r; apply cis_0).
  rewrite H in A. apply C1_neq_0. rewrite <- A. ring.
Qed.
Lemma cis_unit x : Cmul (cis x) (Cconj (cis x)) = C1.
Proof. rewrite <- cis_opp, <- cis_add, Rplus_opp_r. apply cis_0. Qed.

(** ** Orthogonality *)
Lemma geometric z d : Cmul (Csub z C1) (csum d (fun a => Cpow z a)) = Csub (Cpow z d) C1.
Proof.
  induction d as [|d IH]; [cbn [csum Cpow]; ring|]. cbn [csum Cpow].
  transitivity (Cadd (Cmul (Csub z C1) (csum d (fun a => Cpow z a))) (Cmul (Csub z C1) (Cpow z d))); [ring|]. rewrite IH. ring.
Qed.

Lemma ortho1 d (J J' : nat) : (J < d)%nat -> (J' < d)%nat ->
  csum d (fun a => cis (INR a * ((INR J - INR J') / INR d))) = if Nat.eqb J J' then RtoC (INR d) else C0.
Proof.
  intros HJ HJ'. assert (Hd : 0 < INR d) by (apply lt_0_INR; lia).
  destruct (Nat.eqb_spec J J') as [->|Hn].
  - rewrite (csum_ext d _ (fun _ => C1)).
    + rewrite csum_const. ring.
    + intros i _. rewrite Rminus_diag_eq by reflexivity. unfold Rdiv. rewrite Rmult_0_l, Rmult_0_r. apply cis_0.
  - set (x := (INR J - INR J') / INR d).
    rewrite (csum_ext d _ (fun a => Cpow (cis x) a)) by (intros; apply cis_mul_nat).
    assert (Hz : cis x <> C1).
    { intros E. apply cis_eq_1 in E. destruct E as [z Hz].
      assert (E : INR J - INR J' = IZR z * INR d) by (rewrite <- Hz; unfold x; field; lra).
      rewrite !INR_IZR_INZ, <- minus_IZR, <- mult_IZR in E. apply eq_IZR in E.
      assert (Cz : (z = 0 \/ 1 <= z \/ z <= -1)%Z) by lia. destruct Cz as [Cz|[Cz|Cz]]; [subst z; lia|nia|nia]. }
    assert (G : Cmul (Csub (cis x) C1) (csum d (fun a => Cpow (cis x) a)) = C0).
    { rewrite geometric, <- cis_mul_nat. replace (INR d * x) with (IZR (Z.of_nat J - Z.of_nat J')).
      - rewrite cis_int. ring.
      - unfold x. rewrite minus_IZR, <- !INR_IZR_INZ. field. lra. }
    apply Cmul_eq0 in G. destruct G as [G|G]; [|exact G].
    exfalso. apply Hz. transitivity (Cadd (Csub (cis x) C1) C1); [ring|]. rewrite G. ring.
Qed.

Lemma nprod_pos dims : Forall (fun d => (0 < d)%nat) dims -> (0 < nprod dims)%nat.
Proof. induction 1; cbn [nprod]; [lia|]. nia. Qed.

Lemma phase_sym dims : forall k j, phase dims k j = phase dims j k.
Proof. induction dims as [|d ds IH]; intros k j; cbn [phase]; [reflexivity|]. rewrite (IH (k mod nprod ds)). unfold Rdiv. ring. Qed.

Lemma ortho dims : Forall (fun d => (0 < d)%nat) dims -> forall j j', (j < nprod dims)%nat -> (j' < nprod dims)%nat ->
  csum (nprod dims) (fun k => cis (phase dims k j - phase dims k j')) = if Nat.eqb j j' then RtoC (INR (nprod dims)) else C0.
Proof.
  induction 1 as [|d ds Hd Hds IH]; intros j j' Hj Hj'.
  - cbn [nprod phase csum] in *. replace (Nat.eqb j j') with true by (symmetry; apply Nat.eqb_eq; lia).
    rewrite Rminus_diag_eq by reflexivity. rewrite cis_0. cbn [INR]. csolve.
  - cbn [nprod phase] in *. pose proof (nprod_pos ds Hds) as HM. set (M := nprod ds) in *.
    rewrite csum_split.
    rewrite (csum_ext d _ (fun a => Cmul (cis (INR a * ((INR (j / M) - INR (j' / M)) / INR d)))
       (csum M (fun b => cis (phase ds b (j mod M) - phase ds b (j' mod M)))))).
    + rewrite csum_mul_r, IH by (apply Nat.mod_upper_bound; lia).
      rewrite ortho1 by (apply Nat.div_lt_upper_bound; lia).
      pose proof (Nat.div_mod j M ltac:(lia)). pose proof (Nat.div_mod j' M ltac:(lia)).
      destruct (Nat.eqb_spec (j / M) (j' / M)) as [E|E]; destruct (Nat.eqb_spec (j mod M) (j' mod M)) as [F|F];
      destruct (Nat.eqb_spec j j') as [G|G]; try (exfalso; congruence); try ring.
      rewrite mult_INR, RtoC_mul. reflexivity.
    + intros a Ha. rewrite <- csum_mul_l. apply csum_ext. intros b Hb. rewrite <- cis_add. f_equal.
      assert (E1 : ((a * M + b) / M = a)%nat) by (rewrite Nat.div_add_l by lia; rewrite Nat.div_small by exact Hb; lia).
      assert (E2 : ((a * M + b) mod M = b)%nat) by (rewrite Nat.add_comm, Nat.mod_add by lia; apply Nat.mod_small; exact Hb).
      rewrite E1, E2. unfold Rdiv. ring.
Qed.

(** ** The transform *)
Lemma dft_length s dims x : length (dft s dims x) = nprod dims.
Proof. unfold dft. rewrite map_length, seq_length. reflexivity. Qed.
Lemma nth_map_seq {A} (f : nat -> A) n k d : (k < n)%nat -> nth k (map f (seq 0 n)) d = f k.
Proof.
  intros H. rewrite (nth_indep _ d (f O)) by (rewrite map_length, seq_length; exact H).
  rewrite (map_nth f (seq 0 n) O k), seq_nth by exact H. reflexivity.
Qed.
Lemma dft_nth s dims x k : (k < nprod dims)%nat ->
  nth k (dft s dims x) C0 = csum (nprod dims) (fun j => Cmul (nth j x C0) (cis (s * phase dims k j))).
Proof. intros H. unfold dft.
  exact (nth_map_seq (fun k => csum (nprod dims) (fun j => Cmul (nth j x C0) (cis (s * phase dims k j)))) _ k C0 H). Qed.

Lemma list_eq_nth (x y : data) n : length x = n -> length y = n -> (forall i, (i < n)%nat -> nth i x C0 = nth i y C0) -> x = y.
Proof. intros Hx Hy H. apply (nth_ext x y C0 C0); [congruence|]. intros i Hi. apply H. lia. Qed.

Lemma dft_dft s dims x k : s = 1 \/ s = -1 -> Forall (fun d => (0 < d)%nat) dims -> (k < nprod dims)%nat ->
  nth k (dft (- s) dims (dft s dims x)) C0 = Cmul (RtoC (INR (nprod dims))) (nth k x C0).
Proof.
  intros Hs Hd Hk. rewrite dft_nth by exact Hk. set (N := nprod dims) in *.
  rewrite (csum_ext N _ (fun j => csum N (fun l => Cmul (nth l x C0) (Cmul (cis (s * phase dims j l)) (cis (- s * phase dims k j)))))).
  2: { intros j Hj. rewrite dft_nth by exact Hj. rewrite <- csum_mul_r. apply csum_ext. intros l Hl. ring. }
  rewrite csum_swap.
  rewrite (csum_ext N _ (fun l => Cmul (nth l x C0) (if Nat.eqb l k then RtoC (INR N) else C0))).
  - rewrite (csum_single N k _ Hk).
    + rewrite Nat.eqb_refl. ring.
    + intros i Hi Hn. destruct (Nat.eqb_spec i k); [contradiction|]. ring.
  - intros l Hl. rewrite csum_mul_l. f_equal. destruct Hs as [-> | ->].
    + transitivity (csum N (fun j => cis (phase dims j l - phase dims j k))); [|exact (ortho dims Hd l k Hl Hk)]. apply csum_ext. intros j Hj. rewrite <- cis_add. f_equal. rewrite (phase_sym dims k j). ring.
    + rewrite Nat.eqb_sym. transitivity (csum N (fun j => cis (phase dims j k - phase dims j l))); [|exact (ortho dims Hd k l Hk Hl)]. apply csum_ext. intros j Hj. rewrite <- cis_add. f_equal. rewrite (phase_sym dims k j). ring.
Qed.

Lemma div_real_nth d x i : nth i (div_real d x) C0 = Cdiv (nth i d C0) (RtoC x).
Proof.
  unfold div_real. destruct (lt_dec i (length d)) as [H|H].
  - rewrite (nth_indep _ C0 (Cdiv C0 (RtoC x))) by (rewrite map_length; exact H).
    rewrite (map_nth (fun z => Cdiv z (RtoC x))). reflexivity.
  - rewrite !nth_overflow by (rewrite ?map_length; lia). unfold Cdiv. ring.
Qed.

Lemma dft_scale s dims x c : c <> 0 -> dft s dims (div_real x c) = div_real (dft s dims x) c.
Proof.
  intros Hc. apply (list_eq_nth _ _ (nprod dims)).
  - apply dft_length.
  - unfold div_real. rewrite map_length. apply dft_length.
  - intros i Hi. rewrite div_real_nth, !dft_nth by exact Hi. unfold Cdiv. rewrite <- csum_mul_r. apply csum_ext.
    intros j Hj. rewrite div_real_nth. unfold Cdiv. ring.
Qed.

Lemma INR_nprod_neq0 dims : Forall (fun d => (0 < d)%nat) dims -> INR (nprod dims) <> 0.
Proof. intros H. apply not_0_INR. pose proof (nprod_pos _ H). lia. Qed.

Lemma dft_round s dims x : s = 1 \/ s = -1 -> Forall (fun d => (0 < d)%nat) dims -> length x = nprod dims ->
  div_real (dft (- s) dims (dft s dims x)) (INR (nprod dims)) = x.
Proof.
  intros Hs Hd Hx. apply (list_eq_nth _ _ (nprod dims)); [|exact Hx|].
  - unfold div_real. rewrite map_length. apply dft_length.
  - intros i Hi. rewrite div_real_nth, (dft_dft s) by assumption. field. apply RtoC_neq0, INR_nprod_neq0, Hd.
Qed.

(** ** The wrapper *)
Lemma fftw_dims_pos dom : Forall (fun d => (0 < d)%Z) dom -> Forall (fun d => (0 < d)%nat) (fftw_dims dom).
Proof. unfold fftw_dims. induction 1; cbn [map]; constructor; auto. lia. Qed.
Lemma nprod_nodes dom : Forall (fun d => (0 < d)%Z) dom -> nprod (fftw_dims dom) = nodes dom.
Proof.
  unfold nodes. induction 1 as [|d ds Hd Hds IH]; [reflexivity|].
  unfold fftw_dims, num_nodes in *. cbn [map nprod fold_right].
  pose proof (num_nodes_pos ds Hds) as P. unfold num_nodes in P. rewrite IH, Z2Nat.inj_mul by lia. reflexivity.
Qed.

Theorem fftw_inverse dom x : Forall (fun d => (0 < d)%Z) dom -> length x = nodes dom ->
  to_real (fftw_transform dom) (fft (fftw_transform dom) x) = x /\
  fft (fftw_transform dom) (to_real (fftw_transform dom) x) = x.
Proof.
  intros Hd Hx. pose proof (fftw_dims_pos dom Hd) as Hp. pose proof (nprod_nodes dom Hd) as HN.
  unfold to_real, fftw_transform. cbn [fft ifft]. split.
  - rewrite dft_length. replace 1 with (- (-1)) by ring. apply dft_round; [right; reflexivity|exact Hp|congruence].
  - rewrite Hx, dft_scale by (rewrite <- HN; apply INR_nprod_neq0, Hp).
    rewrite <- HN. apply (dft_round 1); [left; reflexivity|exact Hp|congruence].
Qed.

Lemma phase_0 dims : forall j, phase dims 0 j = 0.
Proof.
  induction dims as [|d ds IH]; intros j; cbn [phase]; [reflexivity|].
  destruct (Nat.eq_dec (nprod ds) 0) as [E|E].
  - rewrite E. cbn [Nat.div Nat.modulo INR]. rewrite IH. unfold Rdiv. ring.
  - rewrite Nat.div_0_l, Nat.mod_0_l by exact E. rewrite IH. cbn [INR]. unfold Rdiv. ring.
Qed.

Lemma freq1_0 n : (0 < n)%Z -> (freq1 0 n == 0)%Q.
Proof. intros H. rewrite freq1_princ by lia. unfold princ. destruct (Z.leb_spec (2 * 0) n); [|lia]. unfold Qdiv. rewrite Qmult_0_l. reflexivity. Qed.

Lemma fftw_freq0 dom : valid_domain dom -> norm_sq (tfreq (fftw_transform dom) 0) = 0.
Proof.
  intros [Hr Hp]. unfold fftw_transform. cbn [tfreq].
  assert (Z : forall n, (0 < n)%Z -> Q2R (freq1 0 n) = 0).
  { intros n Hn. rewrite (Qeq_eqR _ 0%Q (freq1_0 n Hn)). unfold Q2R. cbn. lra. }
  destruct dom as [|d0 [|d1 [|d2 [|d3 r]]]]; cbn [length] in Hr; try lia;
  repeat match goal with H : Forall _ (_ :: _) |- _ => inversion H; clear H; subst end; cbn [freq Z.of_nat].
  - unfold row, col. rewrite Z.quot_0_l, !Z.rem_0_l by lia. cbn [map norm_sq]. rewrite !Z by assumption. ring.
  - unfold row, col, depth. rewrite !Z.quot_0_l, !Z.rem_0_l by lia. cbn [map norm_sq]. rewrite !Z by assumption. ring.
Qed.

Theorem fftw_good dom : valid_domain dom -> good_transform (nodes dom) (fftw_transform dom).
Proof.
  intros Hv. pose proof Hv as [_ Hd]. constructor.
  - intros x _. cbn [fft fftw_transform]. rewrite dft_length. apply nprod_nodes, Hd.
  - intros x _. cbn [ifft fftw_transform]. rewrite dft_length. apply nprod_nodes, Hd.
  - intros x Hx. apply (fftw_inverse dom x Hd Hx).
  - intros x Hx. apply (fftw_inverse dom x Hd Hx).
  - intros x Hx. cbn [fft fftw_transform]. rewrite dft_nth by (apply nprod_pos, fftw_dims_pos, Hd).
    rewrite Csum_seq, Hx, nprod_nodes by exact Hd. apply csum_ext. intros j _. rewrite phase_0, Rmult_0_r, cis_0. ring.
  - apply fftw_freq0, Hv.
Qed.

Lemma map2_length {A B D} (f : A -> B -> D) x : forall y, length x = length y -> length (map2 f x y) = length x.
Proof. induction x as [|a x IH]; intros [|b y] H; cbn in *; try lia. rewrite IH by lia. reflexivity. Qed.
Lemma map2_nth (f : C -> C -> C) x : forall y i, length x = length y -> (i < length x)%nat ->
  nth i (map2 f x y) C0 = f (nth i x C0) (nth i y C0).
Proof.
  induction x as [|a x IH]; intros [|b y] i H Hi; cbn [length] in *; try lia. destruct i; cbn [nth map2]; [reflexivity|]. apply IH; lia.
Qed.

Lemma dft_linear s dims a x y : length x = nprod dims -> length y = nprod dims ->
  dft s dims (map2 (fun u v => Cadd u (Cmul a v)) x y) = map2 (fun u v => Cadd u (Cmul a v)) (dft s dims x) (dft s dims y).
Proof.
  intros Hx Hy. apply (list_eq_nth _ _ (nprod dims)).
  - apply dft_length.
  - rewrite map2_length; rewrite !dft_length; reflexivity.
  - intros i Hi. rewrite map2_nth by (rewrite !dft_length; auto). rewrite !dft_nth by exact Hi.
    rewrite <- csum_mul_l, <- csum_plus. apply csum_ext. intros j Hj. rewrite map2_nth by lia. ring.
Qed.

Lemma dft_parseval dims x y : Forall (fun d => (0 < d)%nat) dims -> 
  inner (nprod dims) (dft (-1) dims x) (dft (-1) dims y) = Cmul (RtoC (INR (nprod dims))) (inner (nprod dims) x y).
Proof.
  intros Hd. unfold inner. set (N := nprod dims).
  rewrite (csum_ext N _ (fun k => csum N (fun j => csum N (fun l =>
     Cmul (Cmul (nth j x C0) (Cconj (nth l y C0))) (cis (phase dims k l - phase dims k j)))))).
  - rewrite csum_swap. rewrite <- csum_mul_l. apply csum_ext. intros j Hj. rewrite csum_swap.
    rewrite (csum_ext N _ (fun l => Cmul (Cmul (nth j x C0) (Cconj (nth l y C0))) (if Nat.eqb l j then RtoC (INR N) else C0))).
    + rewrite (csum_single N j _ Hj).
      * rewrite Nat.eqb_refl. ring.
      * intros i Hi Hn. destruct (Nat.eqb_spec i j); [contradiction|ring].
    + intros l Hl. rewrite csum_mul_l. f_equal. exact (ortho dims Hd l j Hl Hj).
  - intros k Hk. rewrite !dft_nth by exact Hk. rewrite csum_conj, <- csum_mul_r. apply csum_ext. intros j Hj.
    rewrite <- csum_mul_l. apply csum_ext. intros l Hl. rewrite Cconj_mul, <- cis_opp.
    replace (phase dims k l - phase dims k j) with (-1 * phase dims k j + - (-1 * phase dims k l)) by ring. rewrite cis_add. ring.
Qed.

Theorem fftw_unitary dom : valid_domain dom -> unitary_transform (nodes dom) (fftw_transform dom).
Proof.
  intros Hv. pose proof Hv as [_ Hd]. pose proof (nprod_nodes dom Hd) as HN. constructor.
  - apply fftw_good, Hv.
  - intros a x y Hx Hy. cbn [fft fftw_transform]. apply dft_linear; congruence.
  - intros a x y Hx Hy. cbn [ifft fftw_transform]. apply dft_linear; congruence.
  - intros x y Hx Hy. cbn [fft fftw_transform]. rewrite <- HN. apply dft_parseval, fftw_dims_pos, Hd.
Qed.

(** ** Frequencies of the stored modes *)
Lemma col_nat b k : (0 < b)%nat -> col (Z.of_nat b) (Z.of_nat k) = Z.of_nat (k mod b).
Proof. intros H. unfold col. rewrite Z.rem_mod_nonneg by lia. rewrite Nat2Z.inj_mod. reflexivity. Qed.
Lemma row_nat a b k : (0 < a)%nat -> (0 < b)%nat -> row (Z.of_nat a) (Z.of_nat b) (Z.of_nat k) = Z.of_nat ((k / b) mod a).
Proof.
  intros Ha Hb. unfold row. rewrite Z.quot_div_nonneg by lia. rewrite Z.rem_mod_nonneg by (try apply Z.div_pos; lia).
  rewrite Nat2Z.inj_mod, Nat2Z.inj_div. reflexivity.
Qed.
Lemma depth_nat a b k : (0 < a)%nat -> (0 < b)%nat -> depth (Z.of_nat a) (Z.of_nat b) (Z.of_nat k) = Z.of_nat (k / (a * b)).
Proof. intros Ha Hb. unfold depth. rewrite Z.quot_div_nonneg by nia. rewrite Nat2Z.inj_div, Nat2Z.inj_mul. reflexivity. Qed.

Lemma Q2R_inject z : Q2R (inject_Z z) = IZR z.
Proof. unfold Q2R, inject_Z. cbn. field. Qed.

Lemma freq1_real c n : (0 <= c < n)%Z -> exists z, IZR c / IZR n = Q2R (freq1 c n) + IZR z.
Proof.
  intros H. destruct (freq1_cong c n ltac:(lia) H) as [z Hz]. exists (- z)%Z.
  apply Qeq_eqR in Hz. rewrite Q2R_minus, Q2R_div, !Q2R_inject in Hz.
  - rewrite opp_IZR. lra.
  - unfold Qeq. cbn. lia.
Qed.

Lemma axis c x n : (c < n)%nat -> exists z, INR c * INR x / INR n = Q2R (freq1 (Z.of_nat c) (Z.of_nat n)) * IZR (Z.of_nat x) + IZR z.
Proof.
  intros H. destruct (freq1_real (Z.of_nat c) (Z.of_nat n) ltac:(lia)) as [z Hz]. exists (z * Z.of_nat x)%Z.
  rewrite !INR_IZR_INZ, mult_IZR. replace (IZR (Z.of_nat c) * IZR (Z.of_nat x) / IZR (Z.of_nat n)) with (IZR (Z.of_nat c) / IZR (Z.of_nat n) * IZR (Z.of_nat x)) by (unfold Rdiv; ring).
  rewrite Hz. ring.
Qed.

Lemma nodes_lt dom k : Forall (fun d => (0 < d)%Z) dom -> (k < nodes dom)%nat -> (0 <= Z.of_nat k < num_nodes dom)%Z.
Proof. intros Hd H. unfold nodes in H. pose proof (num_nodes_pos dom Hd). lia. Qed.

Lemma phase_freq dom k j f p : valid_domain dom -> square_layout dom -> (k < nodes dom)%nat -> (j < nodes dom)%nat ->
  freq dom (Z.of_nat k) = Some f -> IndexModel.pos dom (Z.of_nat j) = Some p ->
  exists z, phase (fftw_dims dom) k j = freq_dot f p + IZR z.
Proof.
  intros [Hr Hp] Hs Hk Hj Hf Hq. pose proof (nodes_lt dom k Hp Hk) as Bk. pose proof (nodes_lt dom j Hp Hj) as Bj.
  destruct dom as [|d0 [|d1 [|d2 [|d3 r]]]]; cbn [length] in Hr; try lia.
  - inversion Hp as [|? ? H0 Hp']; subst. inversion Hp' as [|? ? H1 _]; subst.
    rewrite row_col_pos in Hq by (try assumption; unfold num_nodes in Bj; cbn in Bj; lia). injection Hq as <-.
    cbn [freq] in Hf. injection Hf as <-.
    assert (Lk : (k < Z.to_nat d0 * Z.to_nat d1)%nat) by (unfold num_nodes in Bk; cbn in Bk; nia).
    assert (Lj : (j < Z.to_nat d0 * Z.to_nat d1)%nat) by (unfold num_nodes in Bj; cbn in Bj; nia).
    rewrite <- (Z2Nat.id d0), <- (Z2Nat.id d1) by lia. assert (Pa : (0 < Z.to_nat d0)%nat) by lia. assert (Pb : (0 < Z.to_nat d1)%nat) by lia.
    set (a := Z.to_nat d0) in *. set (b := Z.to_nat d1) in *. clearbody a b. clear - Lk Lj Pa Pb.
    unfold fftw_dims. cbn [map]. rewrite !Nat2Z.id, !row_nat, !col_nat by assumption.
    cbn [phase nprod freq_dot]. rewrite !Nat.mul_1_r, !Nat.div_1_r.
    assert (Dk : (k / b < a)%nat) by (apply Nat.div_lt_upper_bound; lia).
    assert (Dj : (j / b < a)%nat) by (apply Nat.div_lt_upper_bound; lia).
    rewrite (Nat.mod_small (k / b) a), (Nat.mod_small (j / b) a) by assumption.
    destruct (axis (k / b) (j / b) a Dk) as [z1 E1].
    destruct (axis (k mod b) (j mod b) b (Nat.mod_upper_bound k b ltac:(lia))) as [z2 E2].
    exists (z1 + z2)%Z. rewrite plus_IZR, E1, E2. ring.
  - inversion Hp as [|? ? H0 Hp']; subst. inversion Hp' as [|? ? H1 Hp'']; subst. inversion Hp'' as [|? ? H2 _]; subst.
    rewrite row_col_depth_pos in Hq by (try assumption; unfold num_nodes in Bj; cbn in Bj; lia). injection Hq as <-.
    cbn [freq] in Hf. injection Hf as <-. unfold square_layout in Hs.
    assert (Lk : (k < Z.to_nat d0 * Z.to_nat d1 * Z.to_nat d2)%nat).
    { unfold num_nodes in Bk; cbn in Bk. apply Nat2Z.inj_lt. rewrite !Nat2Z.inj_mul, !Z2Nat.id by lia. lia. }
    assert (Lj : (j < Z.to_nat d0 * Z.to_nat d1 * Z.to_nat d2)%nat).
    { unfold num_nodes in Bj; cbn in Bj. apply Nat2Z.inj_lt. rewrite !Nat2Z.inj_mul, !Z2Nat.id by lia. lia. }
    assert (Hs' : Z.to_nat d2 = 1%nat \/ (Z.to_nat d0 = Z.to_nat d1 /\ Z.to_nat d1 = Z.to_nat d2)) by lia.
    rewrite <- (Z2Nat.id d0), <- (Z2Nat.id d1), <- (Z2Nat.id d2) by lia.
    assert (Pa : (0 < Z.to_nat d0)%nat) by lia. assert (Pb : (0 < Z.to_nat d1)%nat) by lia. assert (Pc : (0 < Z.to_nat d2)%nat) by lia.
    set (a := Z.to_nat d0) in *. set (b := Z.to_nat d1) in *. set (c := Z.to_nat d2) in *. clearbody a b c. clear - Lk Lj Pa Pb Pc Hs'.
    unfold fftw_dims. cbn [map]. rewrite !Nat2Z.id, !row_nat, !col_nat, !depth_nat by assumption.
    cbn [phase nprod freq_dot].
    destruct Hs' as [-> | [Eab Ebc]].
    + rewrite !Nat.mul_1_r, !Nat.div_1_r, !Nat.mod_1_r.
      rewrite Nat.mul_1_r in Lk, Lj.
      assert (Dk : (k / b < a)%nat) by (apply Nat.div_lt_upper_bound; lia).
      assert (Dj : (j / b < a)%nat) by (apply Nat.div_lt_upper_bound; lia).
      rewrite (Nat.mod_small (k / b) a), (Nat.mod_small (j / b) a) by assumption.
      rewrite (Nat.div_small k (a * b)), (Nat.div_small j (a * b)) by lia.
      destruct (axis (k / b) (j / b) a Dk) as [z1 E1].
      destruct (axis (k mod b) (j mod b) b (Nat.mod_upper_bound k b ltac:(lia))) as [z2 E2].
      exists (z1 + z2)%Z. rewrite plus_IZR, E1, E2. cbn [INR Z.of_nat]. unfold Rdiv. ring.
    + subst b c. rewrite !Nat.mul_1_r, !Nat.div_1_r.
      assert (Dk : (k / (a * a) < a)%nat) by (apply Nat.div_lt_upper_bound; nia).
      assert (M : forall n, ((n mod (a * a)) / a = (n / a) mod a)%nat).
      { intros n. symmetry. pose proof (Nat.mod_mul_r n a a ltac:(lia) ltac:(lia)) as E. rewrite E.
        rewrite Nat.mul_comm, Nat.div_add by lia. rewrite (Nat.div_small (n mod a) a) by (apply Nat.mod_upper_bound; lia). lia. }
      assert (M' : forall n, ((n mod (a * a)) mod a = n mod a)%nat).
      { intros n. rewrite (Nat.mod_mul_r n a a) by lia. rewrite Nat.mul_comm, Nat.mod_add by lia. apply Nat.mod_mod. lia. }
      rewrite !M, !M'.
      destruct (axis (k / (a * a)) (j / (a * a)) a Dk) as [z1 E1].
      destruct (axis ((k / a) mod a) ((j / a) mod a) a (Nat.mod_upper_bound _ a ltac:(lia))) as [z2 E2].
      destruct (axis (k mod a) (j mod a) a (Nat.mod_upper_bound k a ltac:(lia))) as [z3 E3].
      exists (z1 + z2 + z3)%Z. rewrite !plus_IZR, E1, E2, E3. ring.
Qed.

Lemma freq_defined dom k : valid_domain dom -> (k < nodes dom)%nat ->
  exists p f, IndexModel.pos dom (Z.of_nat k) = Some p /\ freq dom (Z.of_nat k) = Some f.
Proof.
  intros Hv Hk. destruct (freq_pos dom (Z.of_nat k) Hv (nodes_lt dom k (proj2 Hv) Hk)) as (p & f & A & _ & B & _).
  exists p, f. split; assumption.
Qed.

Theorem fft_amplitude dom x k f : valid_domain dom -> square_layout dom -> (k < nodes dom)%nat ->
  freq dom (Z.of_nat k) = Some f -> nth k (fft (fftw_transform dom) x) C0 = amplitude dom f x.
Proof.
  intros Hv Hs Hk Hf. cbn [fft fftw_transform]. pose proof (nprod_nodes dom (proj2 Hv)) as HN.
  rewrite dft_nth by (rewrite HN; exact Hk). rewrite HN. unfold amplitude. apply csum_ext. intros j Hj.
  destruct (freq_defined dom j Hv Hj) as (p & _ & Hp & _). rewrite Hp. f_equal.
  destruct (phase_freq dom k j f p Hv Hs Hk Hj Hf Hp) as [z Hz]. apply (cis_cong _ _ (- z)). rewrite Hz, opp_IZR. ring.
Qed.

Lemma freq_dot_conj f g : Forall2 (fun x y => (y == - x)%Q \/ ((y == 1 # 2)%Q /\ (x == 1 # 2)%Q)) f g ->
  forall p, exists z, freq_dot g p = - freq_dot f p + IZR z.
Proof.
  induction 1 as [|x y f g Hxy _ IH]; intros p; [exists 0%Z; destruct p; cbn; lra|].
  destruct p as [|a p]; [exists 0%Z; cbn; lra|]. destruct (IH p) as [z Hz]. cbn [freq_dot]. rewrite Hz.
  destruct Hxy as [E|[Ey Ex]].
  - exists z. rewrite (Qeq_eqR _ _ E), Q2R_opp. ring.
  - exists (z + a)%Z. rewrite (Qeq_eqR _ _ Ex), (Qeq_eqR _ _ Ey), plus_IZR. unfold Q2R. cbn. field.
Qed.

Theorem fft_real_symmetry dom x k m : valid_domain dom -> square_layout dom -> (k < nodes dom)%nat ->
  real_field x -> conjugate_node dom (Z.of_nat k) = Some m ->
  nth (Z.to_nat m) (fft (fftw_transform dom) x) C0 = Cconj (nth k (fft (fftw_transform dom) x) C0).
Proof.
  intros Hv Hs Hk Hx Hm. pose proof (nodes_lt dom k (proj2 Hv) Hk) as Bk.
  destruct (conj_involutive dom (Z.of_nat k) m Hv Bk Hm) as (Bm & _).
  assert (Hm' : (Z.to_nat m < nodes dom)%nat) by (unfold nodes; lia).
  destruct (freq_defined dom k Hv Hk) as (_ & f & _ & Hf).
  destruct (freq_defined dom (Z.to_nat m) Hv Hm') as (_ & g & _ & Hg).
  rewrite (fft_amplitude dom x k f), (fft_amplitude dom x (Z.to_nat m) g) by assumption.
  rewrite Z2Nat.id in Hg by lia. pose proof (conj_freq dom (Z.of_nat k) m f g Hv Bk Hm Hf Hg) as Hfg.
  unfold amplitude. rewrite csum_conj. apply csum_ext. intros j Hj.
  destruct (freq_defined dom j Hv Hj) as (p & _ & Hp & _). rewrite Hp, Cconj_mul. f_equal.
  - symmetry. apply Cconj_real. destruct (lt_dec j (length x)) as [L|L].
    + unfold real_field in Hx. rewrite Forall_forall in Hx. apply Hx, nth_In, L.
    + rewrite nth_overflow by lia. reflexivity.
  - rewrite <- cis_opp. destruct (freq_dot_conj f g Hfg p) as [z Hz]. apply (cis_cong _ _ (- z)). rewrite Hz, opp_IZR. ring.
Qed.

Theorem plane_wave_transform dom k f : valid_domain dom -> square_layout dom -> (k < nodes dom)%nat ->
  freq dom (Z.of_nat k) = Some f ->
  forall m, (m < nodes dom)%nat ->
  nth m (fft (fftw_transform dom) (plane_wave dom f)) C0 = if Nat.eqb m k then RtoC (INR (nodes dom)) else C0.
Proof.
  intros Hv Hs Hk Hf m Hm. cbn [fft fftw_transform]. pose proof (nprod_nodes dom (proj2 Hv)) as HN.
  pose proof (fftw_dims_pos dom (proj2 Hv)) as HP.
  rewrite dft_nth by (rewrite HN; exact Hm).
  rewrite (csum_ext _ _ (fun j => cis (phase (fftw_dims dom) j k - phase (fftw_dims dom) j m))).
  - rewrite Nat.eqb_sym, (ortho _ HP k m) by (rewrite HN; assumption). rewrite HN. reflexivity.
  - intros j Hj. rewrite HN in Hj. unfold plane_wave.
    rewrite (nth_map_seq (fun j => match IndexModel.pos dom (Z.of_nat j) with Some p => cis (freq_dot f p) | None => C0 end)) by exact Hj.
    destruct (freq_defined dom j Hv Hj) as (p & _ & Hp & _). rewrite Hp, <- cis_add.
    destruct (phase_freq dom k j f p Hv Hs Hk Hj Hf Hp) as [z Hz]. apply (cis_cong _ _ (- z)).
    rewrite (phase_sym _ j k), (phase_sym _ j m), Hz, opp_IZR. ring.
Qed.

(** ** Other three-dimensional domains *)
Lemma unit_at_nth n j i : (i < n)%nat -> nth i (unit_at n j) C0 = if Nat.eqb i j then C1 else C0.
Proof. intros H. unfold unit_at. apply (nth_map_seq (fun i => if Nat.eqb i j then C1 else C0) n i C0 H). Qed.

Lemma dft_unit s dims j k : (j < nprod dims)%nat -> (k < nprod dims)%nat ->
  nth k (dft s dims (unit_at (nprod dims) j)) C0 = cis (s * phase dims k j).
Proof.
  intros Hj Hk. rewrite dft_nth by exact Hk. rewrite (csum_single _ j _ Hj).
  - rewrite unit_at_nth, Nat.eqb_refl by exact Hj. ring.
  - intros i Hi Hn. rewrite unit_at_nth by exact Hi. destruct (Nat.eqb_spec i j); [contradiction|ring].
Qed.

Lemma amplitude_unit dom f j p : (j < nodes dom)%nat -> IndexModel.pos dom (Z.of_nat j) = Some p ->
  amplitude dom f (unit_at (nodes dom) j) = cis (- freq_dot f p).
Proof.
  intros Hj Hp. unfold amplitude. rewrite (csum_single _ j _ Hj).
  - rewrite Hp, unit_at_nth, Nat.eqb_refl by exact Hj. ring.
  - intros i Hi Hn. rewrite unit_at_nth by exact Hi. destruct (Nat.eqb_spec i j); [contradiction|].
    destruct (IndexModel.pos dom (Z.of_nat i)); ring.
Qed.

Lemma cis_inj x y : cis x = cis y -> exists z, x = y + IZR z.
Proof.
  intros H. assert (E : cis (x + - y) = C1). { rewrite cis_add, H, <- cis_add, Rplus_opp_r. apply cis_0. }
  apply cis_eq_1 in E. destruct E as [z Hz]. exists z. lra.
Qed.

Lemma inv_int_eq a b z : (2 <= a)%nat -> (2 <= b)%nat -> / INR a = / INR b + IZR z -> a = b.
Proof.
  intros Ha Hb H. assert (A : 2 <= INR a) by (apply (le_INR 2) in Ha; exact Ha). assert (B : 2 <= INR b) by (apply (le_INR 2) in Hb; exact Hb).
  assert (A1 : 0 < / INR a) by (apply Rinv_0_lt_compat; lra). assert (B1 : 0 < / INR b) by (apply Rinv_0_lt_compat; lra).
  assert (A2 : / INR a <= / 2) by (apply Rinv_le_contravar; lra). assert (B2 : / INR b <= / 2) by (apply Rinv_le_contravar; lra).
  assert (Hz : z = 0%Z). { assert (IZR z < IZR 1) by lra. assert (IZR (-1) < IZR z) by lra. apply lt_IZR in H0. apply lt_IZR in H1. lia. }
  subst z. rewrite Rplus_0_r in H. apply INR_eq. rewrite <- (Rinv_inv (INR a)), H, Rinv_inv. reflexivity.
Qed.

Lemma fft_at_unit dom k j f p : valid_domain dom -> (k < nodes dom)%nat -> (j < nodes dom)%nat ->
  IndexModel.pos dom (Z.of_nat j) = Some p ->
  nth k (fft (fftw_transform dom) (unit_at (nodes dom) j)) C0 = amplitude dom f (unit_at (nodes dom) j) ->
  exists z, phase (fftw_dims dom) k j = freq_dot f p + IZR z.
Proof.
  intros Hv Hk Hj Hp H. rewrite (amplitude_unit dom f j p Hj Hp) in H. pose proof (nprod_nodes dom (proj2 Hv)) as HN.
  cbn [fft fftw_transform] in H. rewrite <- HN in H. rewrite dft_unit in H by (rewrite HN; assumption).
  apply cis_inj in H. destruct H as [z Hz]. exists (- z)%Z. rewrite opp_IZR. lra.
Qed.

Theorem layout_3d_iff d0 d1 d2 : (2 <= d0)%Z -> (2 <= d1)%Z -> (2 <= d2)%Z ->
  ((forall x k f, length x = nodes [d0; d1; d2] -> (k < nodes [d0; d1; d2])%nat -> freq [d0; d1; d2] (Z.of_nat k) = Some f ->
      nth k (fft (fftw_transform [d0; d1; d2]) x) C0 = amplitude [d0; d1; d2] f x) <-> d0 = d1 /\ d1 = d2).
Proof.
  intros H0 H1 H2. assert (Hv : valid_domain [d0; d1; d2]) by (split; [right; reflexivity|repeat constructor; lia]).
  split.
  2: { intros Hs x k f _ Hk Hf. apply fft_amplitude; try assumption. right. exact Hs. }
  intros H. pose proof (proj2 Hv) as Hd.
  assert (Ea : (d0 = Z.of_nat (Z.to_nat d0))%Z) by lia. assert (Eb : (d1 = Z.of_nat (Z.to_nat d1))%Z) by lia. assert (Ec : (d2 = Z.of_nat (Z.to_nat d2))%Z) by lia.
  assert (Ga : (2 <= Z.to_nat d0)%nat) by lia. assert (Gb : (2 <= Z.to_nat d1)%nat) by lia. assert (Gc : (2 <= Z.to_nat d2)%nat) by lia.
  set (a := Z.to_nat d0) in *. set (b := Z.to_nat d1) in *. set (c := Z.to_nat d2) in *. clearbody a b c. subst d0 d1 d2.
  assert (N : nodes [Z.of_nat a; Z.of_nat b; Z.of_nat c] = (a * (b * c))%nat).
  { rewrite <- nprod_nodes by exact Hd. unfold fftw_dims. cbn [map nprod]. rewrite !Nat2Z.id. lia. }
  assert (Key : forall k, (k < a * (b * c))%nat -> exists z,
     phase [a; b; c] k k = Q2R (freq1 (Z.of_nat ((k / b) mod a)) (Z.of_nat a)) * IZR (Z.of_nat ((k / b) mod a))
        + (Q2R (freq1 (Z.of_nat (k mod b)) (Z.of_nat b)) * IZR (Z.of_nat (k mod b))
        + (Q2R (freq1 (Z.of_nat (k / (a * b))) (Z.of_nat c)) * IZR (Z.of_nat (k / (a * b))) + 0)) + IZR z).
  { intros k Hk.
    assert (Bk : (k < nodes [Z.of_nat a; Z.of_nat b; Z.of_nat c])%nat) by (rewrite N; exact Hk).
    pose proof (nodes_lt _ k Hd Bk) as Zk.
    assert (Hp : IndexModel.pos [Z.of_nat a; Z.of_nat b; Z.of_nat c] (Z.of_nat k)
       = Some [Z.of_nat ((k / b) mod a); Z.of_nat (k mod b); Z.of_nat (k / (a * b))]).
    { rewrite row_col_depth_pos by (try lia; unfold num_nodes in Zk; cbn in Zk; lia).
      rewrite row_nat, col_nat, depth_nat by lia. reflexivity. }
    assert (Hf : freq [Z.of_nat a; Z.of_nat b; Z.of_nat c] (Z.of_nat k)
       = Some [freq1 (Z.of_nat ((k / b) mod a)) (Z.of_nat a); freq1 (Z.of_nat (k mod b)) (Z.of_nat b); freq1 (Z.of_nat (k / (a * b))) (Z.of_nat c)]).
    { cbn [freq map]. rewrite row_nat, col_nat, depth_nat by lia. reflexivity. }
    assert (Hu : length (unit_at (nodes [Z.of_nat a; Z.of_nat b; Z.of_nat c]) k) = nodes [Z.of_nat a; Z.of_nat b; Z.of_nat c]).
    { unfold unit_at. rewrite map_length, seq_length. reflexivity. }
    destruct (fft_at_unit _ k k _ _ Hv Bk Bk Hp (H _ k _ Hu Bk Hf)) as [z Hz]. exists z.
    unfold fftw_dims in Hz. cbn [map] in Hz. rewrite !Nat2Z.id in Hz. rewrite Hz. reflexivity. }
  assert (Zq : forall n, (0 < n)%nat -> Q2R (freq1 (Z.of_nat 0) (Z.of_nat n)) * IZR (Z.of_nat 0) = 0) by (intros; cbn [Z.of_nat]; ring).
  assert (Oq : forall n, (2 <= n)%nat -> exists z, Q2R (freq1 (Z.of_nat 1) (Z.of_nat n)) * IZR (Z.of_nat 1) = / INR n + IZR z).
  { intros n Hn. destruct (axis 1 1 n ltac:(lia)) as [z Hz]. exists (- z)%Z. rewrite opp_IZR. cbn [INR] in Hz. unfold Rdiv in Hz. lra. }
  assert (Ebc : b = c).
  { destruct (Key 1%nat ltac:(nia)) as [z Hz].
    cbn [phase nprod] in Hz. rewrite !Nat.mul_1_r, !Nat.div_1_r in Hz.
    rewrite (Nat.div_small 1 (b * c)), (Nat.mod_small 1 (b * c)), (Nat.div_small 1 c), (Nat.mod_small 1 c), (Nat.div_small 1 b), (Nat.mod_small 0 a), (Nat.mod_small 1 b), (Nat.div_small 1 (a * b)) in Hz by nia.
    destruct (Oq b Gb) as [z' Hz']. rewrite Hz' in Hz. rewrite !Zq in Hz by lia. cbn [INR] in Hz.
    symmetry. apply (inv_int_eq c b (z' + z)%Z Gc Gb). rewrite plus_IZR. unfold Rdiv in Hz. lra. }
  subst c. split; [|reflexivity]. f_equal.
  destruct (Key b ltac:(nia)) as [z Hz].
  cbn [phase nprod] in Hz. rewrite !Nat.mul_1_r, !Nat.div_1_r in Hz.
  rewrite (Nat.div_small b (b * b)), (Nat.mod_small b (b * b)), Nat.div_same, Nat.mod_same, (Nat.mod_small 1 a), (Nat.div_small b (a * b)) in Hz by nia.
  destruct (Oq a Ga) as [z' Hz']. rewrite Hz' in Hz. rewrite !Zq in Hz by lia. cbn [INR] in Hz.
  symmetry. apply (inv_int_eq b a (z' + z)%Z Gb Ga). rewrite plus_IZR. unfold Rdiv in Hz. lra.
Qed.

Lemma cis_quarter : cis (/ 4) = Ci.
Proof. unfold cis, Ci. replace (2 * PI * / 4) with (PI / 2) by field. rewrite cos_PI2, sin_PI2. reflexivity. Qed.

Theorem real_symmetry_3d_refuted : exists dom x k m, valid_domain dom /\ (k < nodes dom)%nat /\ length x = nodes dom /\ real_field x /\
  conjugate_node dom (Z.of_nat k) = Some m /\
  nth (Z.to_nat m) (fft (fftw_transform dom) x) C0 <> Cconj (nth k (fft (fftw_transform dom) x) C0).
Proof.
  exists [2; 2; 4]%Z, (unit_at 16 1), 1%nat, 1%Z.
  split; [split; [right; reflexivity|repeat constructor]|]. split; [vm_compute; lia|]. split; [reflexivity|].
  split; [unfold real_field, unit_at; apply Forall_forall; intros z Hz; apply in_map_iff in Hz; destruct Hz as (i & <- & _); destruct (Nat.eqb i 1); reflexivity|].
  split; [reflexivity|]. cbn [fft fftw_transform]. change (Z.to_nat 1) with 1%nat.
  change (unit_at 16 1) with (unit_at (nprod (fftw_dims [2; 2; 4]%Z)) 1).
  rewrite dft_unit by (vm_compute; lia).
  replace (phase (fftw_dims [2; 2; 4]%Z) 1 1) with (/ 4).
  - replace (-1 * / 4) with (- / 4) by ring. rewrite cis_opp, cis_quarter. intros E. apply (f_equal Im) in E. cbn in E. lra.
  - change (fftw_dims [2; 2; 4]%Z) with [2; 2; 4]%nat. unfold phase, nprod.
    change (/ 4 = INR 0 * INR 0 / INR 2 + (INR 0 * INR 0 / INR 2 + (INR 1 * INR 1 / INR 4 + 0))). cbn [INR]. field.
Qed.
