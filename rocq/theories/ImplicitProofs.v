(** Linear models under ImplicitEuler. *)
From Verif Require Import ListAux FileModel StepProofs SddProofs DftSpec DftProofs RealSpec RealProofs SimSpec SimProofs2 SimProofs5 LinearSpec LinearProofs LinearProofs2 SaddleSpec SaddleProofs3 SaddleProofs4 TrackProofs ImplicitModel ImplicitSpec Vec CVec Complex.
From Coq Require Import Lia Lra.
Open Scope R_scope.

Lemma minus_length x : forall y, length y = length x -> length (minus x y) = length x.
Proof. induction x as [|a x IH]; intros [|b y] H; try discriminate; cbn [minus length] in *; [reflexivity|]. f_equal. apply IH. lia. Qed.
Lemma minus_app x1 : forall y1 x2 y2, length y1 = length x1 -> minus (x1 ++ x2) (y1 ++ y2) = minus x1 y1 ++ minus x2 y2.
Proof. induction x1 as [|a x IH]; intros [|b y] x2 y2 H; try discriminate; cbn [minus app length] in *; [reflexivity|]. f_equal. apply IH. lia. Qed.
Lemma minus_nth x : forall y j, length y = length x -> (j < length x)%nat -> nth j (minus x y) 0 = nth j x 0 - nth j y 0.
Proof. induction x as [|a x IH]; intros [|b y] j H Hj; cbn [length] in *; try lia. destruct j; cbn [minus nth]; [reflexivity|]. apply IH; lia. Qed.
Lemma minus_zero x : forall y, length y = length x -> Forall (fun r => r = 0) (minus x y) -> x = y.
Proof. induction x as [|a x IH]; intros [|b y] H F; try discriminate; cbn [minus length] in *; [reflexivity|]. inversion F; subst. f_equal; [lra|]. apply IH; [lia|assumption]. Qed.
Lemma minus_self x : Forall (fun r => r = 0) (minus x x).
Proof. induction x as [|a x IH]; cbn [minus]; constructor; [ring|exact IH]. Qed.
Lemma sum_squares_app x y : sum_squares (x ++ y) = sum_squares x + sum_squares y.
Proof. induction x as [|a x IH]; cbn [app sum_squares]; [ring|rewrite IH; ring]. Qed.
Lemma sum_squares_nonneg x : 0 <= sum_squares x.
Proof. induction x as [|a x IH]; cbn [sum_squares]; [lra|]. assert (H := pow2_ge_0 a). lra. Qed.
Lemma sum_squares_rsum x : sum_squares x = rsum (length x) (fun j => nth j x 0 ^ 2).
Proof. induction x as [|a x IH]; [reflexivity|]. cbn [sum_squares length]. rewrite rsum_first. cbn [nth]. rewrite <- IH. reflexivity. Qed.

Section Evolve.
  Variables (dom : list Z).
  Hypothesis Hv : valid_domain dom.
  Hypothesis Hsq : square_layout dom.
  Let n := nodes dom.
  Let ft := fftw_transform dom.
  Let U : unitary_transform n ft := fftw_unitary dom Hv.
  Let G := ut_good n ft U.

  Lemma amplitudes_length T r d : length (map (fun k => Cmul (RtoC (exp (T * r k))) (nth k (fft ft d) C0)) (seq 0 n)) = n.
  Proof. rewrite map_length, seq_length. reflexivity. Qed.
  Lemma amplitudes_nth T r d k : (k < n)%nat -> nth k (map (fun k => Cmul (RtoC (exp (T * r k))) (nth k (fft ft d) C0)) (seq 0 n)) C0 = Cmul (RtoC (exp (T * r k))) (nth k (fft ft d) C0).
  Proof.
    intros Hk. set (g := fun k => _). rewrite nth_indep with (d' := g 0%nat) by (rewrite map_length, seq_length; exact Hk). rewrite (map_nth g), seq_nth by exact Hk. reflexivity.
  Qed.
  Lemma evolved_length T r d : length (evolved n ft T r d) = n.
  Proof. unfold evolved, to_real. rewrite div_real_length. apply (gt_ifft_len _ _ G), amplitudes_length. Qed.
  Lemma evolved_mode T r d k : (k < n)%nat -> nth k (fft ft (evolved n ft T r d)) C0 = Cmul (RtoC (exp (T * r k))) (nth k (fft ft d) C0).
  Proof. intros Hk. unfold evolved. rewrite (gt_inverse _ _ G) by apply amplitudes_length. apply amplitudes_nth, Hk. Qed.
  Lemma evolved_zero r d : length d = n -> evolved n ft 0 r d = d.
  Proof.
    intros Hd. unfold evolved. replace (map _ (seq 0 n)) with (fft ft d); [apply (gt_left _ _ G d Hd)|].
    apply (list_eq_nth _ _ n); [apply (gt_fft_len _ _ G), Hd|apply amplitudes_length|]. intros k Hk. rewrite amplitudes_nth by exact Hk. rewrite Rmult_0_l, exp_0. change (RtoC 1) with C1. ring.
  Qed.
  Lemma evolved_add S T r d : evolved n ft S r (evolved n ft T r d) = evolved n ft (T + S) r d.
  Proof.
    unfold evolved at 1 3. f_equal. apply map_ext_in. intros k Hk. apply in_seq in Hk. rewrite evolved_mode by lia.
    replace ((T + S) * r k) with (S * r k + T * r k) by ring. rewrite exp_plus, RtoC_mul. ring.
  Qed.
  (** Equal rates at conjugate wave numbers keep fields real. *)
  Definition even_rate (r : nat -> R) : Prop :=
    forall k m, (k < n)%nat -> (m < n)%nat -> conjugate_node dom (Z.of_nat k) = Some (Z.of_nat m) -> r m = r k.
  Lemma evolved_real T r d : even_rate r -> length d = n -> real_field d -> real_field (evolved n ft T r d).
  Proof.
    intros He Hd Hr. unfold evolved, ft. apply (real_of_hermitian dom); [exact Hv|exact Hsq|apply amplitudes_length|].
    assert (HH := hermitian_of_real dom d Hv Hsq Hr). apply (herm_iff dom _ Hv) in HH.
    apply (herm_ext dom _ (fun k => Cmul (RtoC (exp (T * r k))) (nth k (fft ft d) C0)) Hv).
    - intros k Hk. apply amplitudes_nth, Hk.
    - intros k m Hk Hm Hc. cbv beta. rewrite Cconj_mul, Cconj_RtoC, (He k m Hk Hm Hc). f_equal. apply (HH k m Hk Hm Hc).
  Qed.
End Evolve.
