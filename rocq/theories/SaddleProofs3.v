(** Sequences of amplitudes: the share of the fastest wave in an orientation,
    and the contraction of the reflected equation. *)
From Verif Require Import FileModel SddProofs SddSpec Vec CVec Complex.
From Coq Require Import Lia Lra.
Open Scope R_scope.

Lemma Cnorm2_nonneg z : 0 <= Cnorm2 z.
Proof. destruct z as [a b]. unfold Cnorm2. cbn [Re Im fst snd]. assert (H := Rle_0_sqr a). assert (H' := Rle_0_sqr b). unfold Rsqr in *. lra. Qed.
Lemma Cnorm2_mul a b : Cnorm2 (Cmul a b) = Cnorm2 a * Cnorm2 b.
Proof. destruct a as [x y], b as [u v]. unfold Cnorm2, Cmul. cbn [Re Im fst snd]. ring. Qed.
Lemma Cnorm2_RtoC x : Cnorm2 (RtoC x) = x * x.
Proof. unfold Cnorm2, RtoC. cbn [Re Im fst snd]. ring. Qed.
Lemma Cnorm2_conj z : Cnorm2 (Cconj z) = Cnorm2 z.
Proof. destruct z as [a b]. unfold Cnorm2, Cconj. cbn [Re Im fst snd]. ring. Qed.
Lemma Cnorm2_zero z : Cnorm2 z = 0 -> z = C0.
Proof.
  destruct z as [a b]. unfold Cnorm2. cbn [Re Im fst snd]. intros H. assert (H1 := Rle_0_sqr a). assert (H2 := Rle_0_sqr b). unfold Rsqr in *.
  assert (E1 : a * a = 0) by lra. assert (E2 : b * b = 0) by lra. apply Rmult_integral in E1. apply Rmult_integral in E2. unfold C0, RtoC. f_equal; tauto.
Qed.
Lemma re_bound w c : 0 <= c -> Cnorm2 w <= c * c -> - c <= Re w.
Proof.
  intros Hc H. destruct w as [a b]. unfold Cnorm2 in H. cbn [Re Im fst snd] in *. assert (H2 := Rle_0_sqr b). unfold Rsqr in H2.
  destruct (Rle_dec (- c) a) as [Ha|Ha]; [exact Ha|exfalso]. assert (c * c < a * a) by nra. lra.
Qed.

Lemma cauchy_schwarz n (a b : nat -> C) : Cnorm2 (csum n (fun i => Cmul (a i) (b i))) <= rsum n (fun i => Cnorm2 (a i)) * rsum n (fun i => Cnorm2 (b i)).
Proof.
  set (S := csum n (fun i => Cmul (a i) (b i))). set (A := rsum n (fun i => Cnorm2 (a i))). set (B := rsum n (fun i => Cnorm2 (b i))).
  assert (HA : 0 <= A) by (apply rsum_nonneg; intros; apply Cnorm2_nonneg).
  assert (H0 : 0 <= rsum n (fun i => Cnorm2 (Csub (Cmul (RtoC A) (b i)) (Cmul S (Cconj (a i)))))) by (apply rsum_nonneg; intros; apply Cnorm2_nonneg).
  assert (E : rsum n (fun i => Cnorm2 (Csub (Cmul (RtoC A) (b i)) (Cmul S (Cconj (a i))))) = A * (A * B) - A * Cnorm2 S).
  { rewrite (rsum_ext n _ (fun i => A * A * Cnorm2 (b i) - 2 * A * (Re S * Re (Cmul (a i) (b i)) + Im S * Im (Cmul (a i) (b i))) + Cnorm2 S * Cnorm2 (a i))).
    - rewrite rsum_plus, rsum_minus, !rsum_mul_l, rsum_plus, !rsum_mul_l, <- csum_re, <- csum_im. fold S A B. destruct S as [u v]. unfold Cnorm2. cbn [Re Im fst snd]. ring.
    - intros i Hi. destruct (a i) as [x y], (b i) as [z w], S as [u v]. unfold Cnorm2, Csub, Cadd, Copp, Cmul, Cconj, RtoC. cbn [Re Im fst snd]. ring. }
  rewrite E in H0. destruct HA as [HA|HA].
  - apply (Rmult_le_reg_l A); [exact HA|]. lra.
  - assert (Z : S = C0).
    { unfold S. apply csum_zero'. intros i Hi. assert (Ha : a i = C0).
      { apply Cnorm2_zero. assert (HX : Cnorm2 (a i) <= A). { unfold A. clear - Hi. revert Hi. induction n as [|n IH]; intros Hi; [lia|]. cbn [rsum].
          assert (0 <= rsum n (fun i => Cnorm2 (a i))) by (apply rsum_nonneg; intros; apply Cnorm2_nonneg). assert (H2 := Cnorm2_nonneg (a n)). destruct (Nat.eq_dec i n) as [->|Hne]; [lra|]. assert (H3 := IH ltac:(lia)). lra. }
        assert (H2 := Cnorm2_nonneg (a i)). lra. }
      rewrite Ha. ring. }
    rewrite Z, <- HA. unfold Cnorm2, C0, RtoC. cbn [Re Im fst snd]. lra.
Qed.

Section Shares.
  Variables (n : nat) (sg : nat -> R) (h : R) (w : nat -> R).
  Hypothesis Hw : forall k, (k < n)%nat -> 0 <= w k.
  Hypothesis H1 : rsum n w = 1.
  Hypothesis Hh : 0 <= h.
  Variables (lo hi : R).
  Hypothesis Hlo : forall k, (k < n)%nat -> lo <= sg k <= hi.
  Let mu := rsum n (fun k => sg k * w k).
  Lemma mean_bounds : lo <= mu <= hi.
  Proof.
    unfold mu. split.
    - replace lo with (rsum n (fun k => lo * w k)) by (rewrite rsum_mul_l, H1; ring). apply rsum_le. intros k Hk. apply Rmult_le_compat_r; [apply Hw, Hk|apply Hlo, Hk].
    - replace hi with (rsum n (fun k => hi * w k)) by (rewrite rsum_mul_l, H1; ring). apply rsum_le. intros k Hk. apply Rmult_le_compat_r; [apply Hw, Hk|apply Hlo, Hk].
  Qed.
  Lemma share_factor k k0 : (k < n)%nat -> (k0 < n)%nat -> sg k0 = hi -> h * (hi - lo) <= 1 ->
    let rho := 1 - h * (hi - sg k) / (1 + h * (hi - lo)) in
    (1 + h * (sg k - mu)) ^ 2 <= rho ^ 2 * (1 + h * (hi - mu)) ^ 2.
  Proof.
    intros Hk Hk0 E Hs rho. destruct mean_bounds as [M1 M2]. destruct (Hlo k Hk) as [A1 A2].
    assert (P0 : 0 <= h * (hi - mu)) by (apply Rmult_le_pos; lra). assert (P1 : 0 <= h * (hi - lo)) by (apply Rmult_le_pos; lra).
    assert (P2 : 0 <= h * (hi - sg k)) by (apply Rmult_le_pos; lra). assert (P3 : h * (hi - mu) <= h * (hi - lo)) by (apply Rmult_le_compat_l; lra).
    assert (P4 : h * (mu - sg k) <= h * (hi - lo)) by (apply Rmult_le_compat_l; lra).
    rewrite <- Rpow_mult_distr. apply pow_incr. split; [lra|]. unfold rho.
    assert (F : h * (hi - sg k) / (1 + h * (hi - lo)) * (1 + h * (hi - mu)) <= h * (hi - sg k)).
    { unfold Rdiv. rewrite Rmult_assoc. rewrite <- (Rmult_1_r (h * (hi - sg k))) at 2. apply Rmult_le_compat_l; [exact P2|]. apply (Rmult_le_reg_l (1 + h * (hi - lo))); [lra|]. rewrite <- Rmult_assoc, Rinv_r by lra. lra. }
    lra.
  Qed.
End Shares.

Section Contract.
  Variables (n k0 : nat) (sg : nat -> R) (v : nat -> C) (gam B d : R).
  Hypothesis Hk0 : (k0 < n)%nat.
  Hypothesis Hv : rsum n (fun k => Cnorm2 (v k)) = 1.
  Hypothesis Hd : 0 <= d.
  Hypothesis Hd2 : 1 - Cnorm2 (v k0) = d * d.
  Hypothesis Hg : 0 < gam.
  Hypothesis Hup : gam <= sg k0.
  Hypothesis Hdown : forall k, (k < n)%nat -> k <> k0 -> sg k <= - gam.
  Hypothesis HB : forall k, (k < n)%nat -> Rabs (sg k) <= B.
  Hypothesis Hsmall : 16 * (d * B) <= gam.

  Let off {A} (zero : A) (f : nat -> A) (k : nat) : A := if Nat.eqb k k0 then zero else f k.
  Lemma rsum_off f : rsum n f = f k0 + rsum n (off 0 f).
  Proof.
    rewrite (rsum_ext n f (fun k => kron k k0 * f k + off 0 f k)).
    - rewrite rsum_plus, rsum_kron_l by exact Hk0. reflexivity.
    - intros k Hk. unfold kron, off. destruct (Nat.eqb k k0); ring.
  Qed.
  Lemma csum_off f : csum n f = Cadd (f k0) (csum n (off C0 f)).
  Proof.
    apply C_eq.
    - rewrite csum_re, (rsum_off (fun i => Re (f i))). cbn [Re Cadd fst]. f_equal. rewrite csum_re. apply rsum_ext. intros i Hi. unfold off. destruct (Nat.eqb i k0); reflexivity.
    - rewrite csum_im, (rsum_off (fun i => Im (f i))). cbn [Im Cadd snd]. f_equal. rewrite csum_im. apply rsum_ext. intros i Hi. unfold off. destruct (Nat.eqb i k0); reflexivity.
  Qed.
  Variable z : nat -> C.
  Let Z := rsum n (fun k => Cnorm2 (z k)).
  Let v' := off C0 v.
  Lemma off_norm : rsum n (fun k => Cnorm2 (v' k)) = d * d.
  Proof.
    rewrite <- Hd2. assert (E := rsum_off (fun k => Cnorm2 (v k))). rewrite Hv in E. rewrite (rsum_ext n _ (off 0 (fun k => Cnorm2 (v k)))); [lra|].
    intros k Hk. unfold v', off. destruct (Nat.eqb k k0); [|reflexivity]. unfold Cnorm2, C0, RtoC. cbn [Re Im fst snd]. ring.
  Qed.
  Lemma d_le_1 : d <= 1.
  Proof. assert (H := Cnorm2_nonneg (v k0)). destruct (Rle_dec d 1) as [H0|H0]; [exact H0|]. assert (1 < d * d) by nra. lra. Qed.
  Lemma z_le : Cnorm2 (z k0) <= Z.
  Proof.
    unfold Z. rewrite (rsum_off (fun k => Cnorm2 (z k))). assert (0 <= rsum n (off 0 (fun k => Cnorm2 (z k)))); [|lra]. apply rsum_nonneg. intros k Hk. unfold off. destruct (Nat.eqb k k0); [lra|apply Cnorm2_nonneg].
  Qed.
  Lemma Z_pos : 0 <= Z.
  Proof. apply rsum_nonneg. intros. apply Cnorm2_nonneg. Qed.

  Lemma saddle_form : rsum n (fun k => sg k * Cnorm2 (z k))
      - 2 * Re (Cmul (csum n (fun k => Cmul (v k) (Cconj (z k)))) (csum n (fun k => Cmul (Cmul (RtoC (sg k)) (z k)) (Cconj (v k))))) <= - (gam / 2) * Z.
  Proof.
    assert (HB0 : sg k0 <= B) by (assert (H := HB k0 Hk0); assert (H' := Rle_abs (sg k0)); lra).
    set (X' := csum n (fun k => Cmul (v' k) (Cconj (z k)))). set (Y' := csum n (fun k => Cmul (Cmul (RtoC (sg k)) (z k)) (Cconj (v' k)))).
    assert (EX : csum n (fun k => Cmul (v k) (Cconj (z k))) = Cadd (Cmul (v k0) (Cconj (z k0))) X').
    { rewrite csum_off. f_equal. apply csum_ext. intros k Hk. unfold v', off. destruct (Nat.eqb k k0); [ring|reflexivity]. }
    assert (EY : csum n (fun k => Cmul (Cmul (RtoC (sg k)) (z k)) (Cconj (v k))) = Cadd (Cmul (Cmul (RtoC (sg k0)) (z k0)) (Cconj (v k0))) Y').
    { rewrite csum_off. f_equal. apply csum_ext. intros k Hk. unfold v', off. destruct (Nat.eqb k k0); [|reflexivity]. replace (Cconj C0) with C0 by csolve. ring. }
    rewrite EX, EY.
    assert (NX : Cnorm2 X' <= d * d * Z).
    { assert (H := cauchy_schwarz n v' (fun k => Cconj (z k))). cbv beta in H. fold X' in H. rewrite off_norm, (rsum_ext n (fun i => Cnorm2 (Cconj (z i))) (fun i => Cnorm2 (z i))) in H by (intros; apply Cnorm2_conj). exact H. }
    assert (BB : 0 <= B) by (assert (H := HB k0 Hk0); assert (H' := Rabs_pos (sg k0)); lra).
    assert (NY : Cnorm2 Y' <= B * B * Z * (d * d)).
    { assert (H := cauchy_schwarz n (fun k => Cmul (RtoC (sg k)) (z k)) (fun k => Cconj (v' k))). cbv beta in H. fold Y' in H.
      rewrite (rsum_ext n (fun i => Cnorm2 (Cconj (v' i))) (fun i => Cnorm2 (v' i))), off_norm in H by (intros; apply Cnorm2_conj).
      eapply Rle_trans; [exact H|]. apply Rmult_le_compat_r; [apply Rle_0_sqr|]. unfold Z. rewrite <- rsum_mul_l. apply rsum_le. intros k Hk. rewrite Cnorm2_mul, Cnorm2_RtoC.
      apply Rmult_le_compat_r; [apply Cnorm2_nonneg|]. assert (HBk := HB k Hk). assert (HP := Rabs_pos (sg k)). replace (sg k * sg k) with (Rabs (sg k) * Rabs (sg k)) by (rewrite <- Rabs_mult; apply Rabs_right; apply Rle_ge, Rle_0_sqr).
      apply Rmult_le_compat; assumption. }
    assert (V0 : Cnorm2 (v k0) = 1 - d * d) by lra. assert (D1 := d_le_1). assert (HZ := Z_pos). assert (Hz := z_le). assert (Hz0 := Cnorm2_nonneg (z k0)). assert (Hv0 := Cnorm2_nonneg (v k0)).
    assert (DD : 0 <= d * d <= 1) by (split; [apply Rle_0_sqr|nra]).
    assert (T : 0 <= d * B * Z) by (apply Rmult_le_pos; [apply Rmult_le_pos|]; assumption).
    assert (W1 : - (d * B * Z) <= Re (Cmul (Cmul (v k0) (Cconj (z k0))) Y')).
    { apply re_bound; [exact T|]. rewrite !Cnorm2_mul, Cnorm2_conj. replace (d * B * Z * (d * B * Z)) with (1 * Z * (B * B * Z * (d * d))) by ring.
      apply Rmult_le_compat; [apply Rmult_le_pos; assumption|apply Cnorm2_nonneg|apply Rmult_le_compat; lra|exact NY]. }
    assert (W2 : - (d * B * Z) <= Re (Cmul (Cmul (Cmul (RtoC (sg k0)) (z k0)) (Cconj (v k0))) X')).
    { apply re_bound; [exact T|]. rewrite !Cnorm2_mul, Cnorm2_conj, Cnorm2_RtoC. replace (d * B * Z * (d * B * Z)) with (B * B * Z * 1 * (d * d * Z)) by ring.
      apply Rmult_le_compat; [|apply Cnorm2_nonneg| |exact NX].
      - apply Rmult_le_pos; [apply Rmult_le_pos; [apply Rle_0_sqr|assumption]|assumption].
      - apply Rmult_le_compat; [apply Rmult_le_pos; [apply Rle_0_sqr|assumption]|assumption| |lra]. apply Rmult_le_compat; [apply Rle_0_sqr|assumption| |assumption]. apply Rmult_le_compat; lra. }
    assert (W3 : - (d * B * Z) <= Re (Cmul X' Y')).
    { apply re_bound; [exact T|]. rewrite Cnorm2_mul. replace (d * B * Z * (d * B * Z)) with (1 * Z * (B * B * Z * (d * d))) by ring.
      apply Rmult_le_compat; [apply Cnorm2_nonneg|apply Cnorm2_nonneg| |exact NY]. eapply Rle_trans; [exact NX|]. apply Rmult_le_compat_r; [exact HZ|lra]. }
    assert (ER : Re (Cmul (Cadd (Cmul (v k0) (Cconj (z k0))) X') (Cadd (Cmul (Cmul (RtoC (sg k0)) (z k0)) (Cconj (v k0))) Y'))
      = sg k0 * (Cnorm2 (v k0) * Cnorm2 (z k0)) + Re (Cmul (Cmul (v k0) (Cconj (z k0))) Y') + Re (Cmul (Cmul (Cmul (RtoC (sg k0)) (z k0)) (Cconj (v k0))) X') + Re (Cmul X' Y')).
    { destruct (v k0) as [a b], (z k0) as [x y], X' as [p q], Y' as [r t]. unfold Cnorm2, Cmul, Cadd, Cconj, RtoC. cbn [Re Im fst snd]. ring. }
    rewrite ER, V0.
    assert (S1 : rsum n (fun k => sg k * Cnorm2 (z k)) <= sg k0 * Cnorm2 (z k0) - gam * (Z - Cnorm2 (z k0))).
    { rewrite rsum_off. assert (EZ : Z = Cnorm2 (z k0) + rsum n (off 0 (fun k => Cnorm2 (z k)))) by (unfold Z; apply (rsum_off (fun k => Cnorm2 (z k)))).
      replace (Z - Cnorm2 (z k0)) with (rsum n (off 0 (fun k => Cnorm2 (z k)))) by lra. unfold Rminus. apply Rplus_le_compat_l. rewrite Ropp_mult_distr_l, <- rsum_mul_l. apply rsum_le. intros k Hk.
      unfold off. destruct (Nat.eqb_spec k k0) as [->|Hne]; [lra|]. apply Rmult_le_compat_r; [apply Cnorm2_nonneg|]. exact (Hdown k Hk Hne). }
    assert (S2 : sg k0 * (d * d * Cnorm2 (z k0)) <= d * B * Z).
    { replace (d * B * Z) with (B * (d * Z)) by ring. apply Rmult_le_compat; [lra|apply Rmult_le_pos; [apply DD|assumption]|lra|]. apply Rmult_le_compat; [apply DD|assumption|nra|exact Hz]. }
    assert (S3 : 16 * (d * B * Z) <= gam * Z) by (replace (16 * (d * B * Z)) with (16 * (d * B) * Z) by ring; apply Rmult_le_compat_r; assumption).
    assert (S4 : gam * Cnorm2 (z k0) <= sg k0 * Cnorm2 (z k0)) by (apply Rmult_le_compat_r; assumption).
    lra.
  Qed.

  (** The solution of the reflected equation is smaller than the old field. *)
  Lemma saddle_contracts dt y : 0 <= dt ->
    (forall k, (k < n)%nat -> y k = Csub (z k) (Cmul (RtoC dt) (Csub (Cmul (RtoC (sg k)) (z k)) (Cmul (RtoC 2) (Cmul (v k) (csum n (fun j => Cmul (Cmul (RtoC (sg j)) (z j)) (Cconj (v j))))))))) ->
    (1 + dt * (gam / 2)) ^ 2 * Z <= rsum n (fun k => Cnorm2 (y k)).
  Proof.
    intros Hdt Hy. set (Y := csum n (fun j => Cmul (Cmul (RtoC (sg j)) (z j)) (Cconj (v j)))) in *. set (c := 1 + dt * (gam / 2)).
    assert (Hc : 1 <= c) by (unfold c; assert (0 <= dt * (gam / 2)) by (apply Rmult_le_pos; lra); lra).
    assert (ER : rsum n (fun k => Re (Cmul (y k) (Cconj (z k)))) = Z - dt * (rsum n (fun k => sg k * Cnorm2 (z k)) - 2 * Re (Cmul (csum n (fun k => Cmul (v k) (Cconj (z k)))) Y))).
    { rewrite (rsum_ext n _ (fun k => Cnorm2 (z k) - dt * (sg k * Cnorm2 (z k) - 2 * Re (Cmul (Cmul (v k) (Cconj (z k))) Y)))).
      - rewrite rsum_minus, rsum_mul_l, rsum_minus, rsum_mul_l, <- csum_re, csum_mul_r. reflexivity.
      - intros k Hk. rewrite (Hy k Hk). destruct (z k) as [a b], (v k) as [p q], Y as [r t]. unfold Cnorm2, Csub, Cadd, Copp, Cmul, Cconj, RtoC. cbn [Re Im fst snd]. ring. }
    assert (F := saddle_form). fold Y in F. set (Q := rsum n (fun k => sg k * Cnorm2 (z k)) - _) in *.
    assert (G : c * Z <= rsum n (fun k => Re (Cmul (y k) (Cconj (z k))))). { rewrite ER. assert (dt * Q <= dt * (- (gam / 2) * Z)) by (apply Rmult_le_compat_l; assumption). unfold c. lra. }
    assert (HP : 0 <= rsum n (fun k => Cnorm2 (Csub (y k) (Cmul (RtoC c) (z k))))) by (apply rsum_nonneg; intros; apply Cnorm2_nonneg).
    assert (EP : rsum n (fun k => Cnorm2 (Csub (y k) (Cmul (RtoC c) (z k)))) = rsum n (fun k => Cnorm2 (y k)) - 2 * c * rsum n (fun k => Re (Cmul (y k) (Cconj (z k)))) + c * c * Z).
    { unfold Z. rewrite <- !rsum_mul_l, <- rsum_minus, <- rsum_plus. apply rsum_ext. intros k Hk. destruct (y k) as [a b], (z k) as [p q]. unfold Cnorm2, Csub, Cadd, Copp, Cmul, Cconj, RtoC. cbn [Re Im fst snd]. ring. }
    rewrite EP in HP. assert (c * (c * Z) <= c * rsum n (fun k => Re (Cmul (y k) (Cconj (z k))))) by (apply Rmult_le_compat_l; lra).
    replace (c ^ 2 * Z) with (c * (c * Z)) by ring. lra.
  Qed.
End Contract.
