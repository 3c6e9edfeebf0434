(** Proofs for white noise: what a run with the Euler stepper accumulates. *)
From Verif Require Import ListAux ConserveProofs DftSpec StepProofs GradProofs3 SetupSpec CVec Vec.
From Verif Require Import Complex.
From Coq Require Import Lra.
Open Scope R_scope.

Lemma map3_zero_denum : forall h Y K n, length Y = n -> length K = n ->
  map3 (semi_implicit h) Y (vadd (repeat C0 n) K) (repeat C0 n) = map2 (fun u v => Cadd u (Cmul (RtoC h) v)) Y K.
Proof.
  intros h Y. induction Y as [|y Y IH]; intros [|k K] [|n] HY HK; try discriminate HY; try discriminate HK; [reflexivity|].
  cbn [repeat vadd map3 map2]. f_equal; [|apply IH; [cbn [length] in HY; lia|cbn [length] in HK; lia]].
  unfold semi_implicit. rewrite ConserveProofs.Cdiv_one. csolve.
Qed.

Section Run.
  Variables (n : nat) (ft : transform).
  Hypothesis U : unitary_transform n ft.

  Definition noise_at (strength : R) (x : nat -> R) : data := map (fun i => white_noise strength (x i)) (seq 0 n).
  Lemma noise_at_length s x : length (noise_at s x) = n.
  Proof. unfold noise_at. rewrite map_length, seq_length. reflexivity. Qed.
  Lemma noise_at_nth s x j : (j < n)%nat -> nth j (noise_at s x) C0 = white_noise s (x j).
  Proof.
    intros Hj. unfold noise_at. rewrite (nth_indep _ C0 (white_noise s (x 0%nat))) by (rewrite map_length, seq_length; exact Hj).
    rewrite (map_nth (fun i => white_noise s (x i))). rewrite seq_nth by exact Hj. reflexivity.
  Qed.

  Lemma noise_step dt t s x f d0 : length f = n ->
    exists g d1, euler_step (noise_pde s x n) ft None dt t {| e_fields := [f]; e_derived := [d0] |} = Some {| e_fields := [g]; e_derived := [d1] |}
    /\ length g = n /\ forall j, (j < n)%nat -> nth j g C0 = Cadd (nth j f C0) (Cmul (RtoC dt) (white_noise s (x j))).
  Proof.
    intros Lf. pose proof (ut_good _ _ U) as G.
    exists (to_real ft (map3 (semi_implicit dt) (fft ft f) (vadd (repeat C0 (length (fft ft f))) (fft ft (noise_at s x))) (repeat C0 (length (fft ft f))))).
    exists (fft ft (noise_at s x)). split; [reflexivity|].
    assert (L1 : length (fft ft f) = n) by (apply (gt_fft_len _ _ G), Lf).
    assert (L2 : length (fft ft (noise_at s x)) = n) by (apply (gt_fft_len _ _ G), noise_at_length).
    rewrite L1, map3_zero_denum by assumption. split.
    - apply (tr_length _ _ U). apply StepProofs.map2_length; assumption.
    - intros j Hj. rewrite (tr_add _ _ U) by assumption. rewrite !(gt_left _ _ G) by first [exact Lf|apply noise_at_length].
      rewrite noise_at_nth by exact Hj. reflexivity.
  Qed.

  Lemma noise_run_value dt s x f d0 steps : length f = n ->
    exists g d1, noise_run ft dt s x n steps {| e_fields := [f]; e_derived := [d0] |} = Some {| e_fields := [g]; e_derived := [d1] |}
    /\ length g = n /\ forall j, (j < n)%nat ->
       nth j g C0 = Cadd (nth j f C0) (RtoC (dt * sqrt (2 * s) * rsum steps (fun k => x k j))).
  Proof.
    intros Lf. induction steps as [|k IH].
    - exists f, d0. split; [reflexivity|]. split; [exact Lf|]. intros j _. cbn [rsum]. csolve.
    - destruct IH as (g & d1 & E & Lg & Hg). cbn [noise_run]. rewrite E.
      destruct (noise_step dt (time_of dt k) s (x k) g d1 Lg) as (g2 & d2 & E2 & L2 & H2).
      exists g2, d2. split; [exact E2|]. split; [exact L2|]. intros j Hj. rewrite H2, Hg by exact Hj.
      unfold white_noise. cbn [rsum]. csolve.
  Qed.
End Run.

(** ** Moments *)
Section Moments.
  Context {O : Type}.
  Variable E : expectation O.

  Lemma ex_zero : ex E (fun _ => 0) = 0.
  Proof.
    rewrite (ex_ext E (fun _ => 0) (fun o => 0 * (fun _ => 0) o)) by (intros o; ring).
    rewrite (ex_scal E 0 (fun _ => 0)). ring.
  Qed.
  Lemma ex_rsum n (f : nat -> O -> R) : ex E (fun o => rsum n (fun k => f k o)) = rsum n (fun k => ex E (f k)).
  Proof.
    induction n as [|n IH]; [exact ex_zero|]. cbn [rsum]. rewrite (ex_add E (fun o => rsum n (fun k => f k o)) (f n)). rewrite IH. reflexivity.
  Qed.

  Lemma rsum_indicator n k c : (k < n)%nat -> rsum n (fun l => if Nat.eqb k l then c else 0) = c.
  Proof.
    revert k. induction n as [|n IH]; intros k Hk; [lia|]. cbn [rsum]. destruct (Nat.eqb_spec k n) as [->|Hne].
    - replace (rsum n (fun l => if Nat.eqb n l then c else 0)) with 0; [ring|].
      symmetry. clear. assert (G : forall a, (a <= n)%nat -> rsum a (fun l => if Nat.eqb n l then c else 0) = 0).
      { induction a as [|a IHa]; intros Ha; [reflexivity|]. cbn [rsum]. rewrite IHa by lia. destruct (Nat.eqb_spec n a); [lia|ring]. }
      apply G. lia.
    - rewrite IH by lia. ring.
  Qed.

  Lemma covariance (x : nat -> nat -> O -> R) c n nn i j : white E n nn x -> (i < nn)%nat -> (j < nn)%nat ->
    ex E (fun o => (c * rsum n (fun k => x k i o)) * (c * rsum n (fun k => x k j o)))
    = (if Nat.eqb i j then INR n * c ^ 2 else 0).
  Proof.
    intros W Hi Hj.
    rewrite (ex_ext E _ (fun o => c ^ 2 * rsum n (fun k => rsum n (fun l => x k i o * x l j o)))).
    - rewrite (ex_scal E (c ^ 2) (fun o => rsum n (fun k => rsum n (fun l => x k i o * x l j o)))).
      rewrite (ex_rsum n (fun k o => rsum n (fun l => x k i o * x l j o))).
      assert (H : forall k, (k < n)%nat -> ex E (fun o => rsum n (fun l => x k i o * x l j o)) = if Nat.eqb i j then 1 else 0).
      { intros k Hk. rewrite (ex_rsum n (fun l o => x k i o * x l j o)).
        rewrite (rsum_ext n _ (fun l => if Nat.eqb k l then (if Nat.eqb i j then 1 else 0) else 0)).
        - apply rsum_indicator, Hk.
        - intros l Hl. rewrite (W k l i j Hk Hl Hi Hj). destruct (Nat.eqb k l), (Nat.eqb i j); reflexivity. }
      rewrite (rsum_ext n _ (fun _ => if Nat.eqb i j then 1 else 0)) by exact H.
      assert (S : forall a, rsum n (fun _ => a) = INR n * a).
      { intros a. clear. induction n as [|m IH]; [cbn [rsum]; cbn [INR]; ring|]. cbn [rsum]. rewrite IH, S_INR. ring. }
      rewrite S. destruct (Nat.eqb i j); ring.
    - intros o. transitivity (c ^ 2 * (rsum n (fun k => x k i o) * rsum n (fun l => x l j o))); [ring|]. f_equal.
      clear. set (f := fun k => x k i o). set (g := fun l => x l j o).
      change (rsum n f * rsum n g = rsum n (fun k => rsum n (fun l => f k * g l))).
      assert (A : forall m, rsum m (fun k => rsum n (fun l => f k * g l)) = rsum m f * rsum n g).
      { induction m as [|m IHm]; [cbn [rsum]; ring|]. cbn [rsum]. rewrite IHm.
        assert (B : forall a q, rsum q (fun l => a * g l) = a * rsum q g).
        { intros a q. induction q as [|q IHq]; [cbn [rsum]; ring|]. cbn [rsum]. rewrite IHq. ring. }
        rewrite B. ring. }
      symmetry. apply A.
  Qed.
End Moments.

(** Such numbers exist for any number of steps and nodes. *)
Definition average (N : nat) : expectation nat.
Proof.
  refine {| ex := fun f => / INR N * rsum N f |}.
  - intros f g H. f_equal. apply rsum_ext. intros i _. apply H.
  - intros f g. rewrite rsum_plus. ring.
  - intros c f. rewrite rsum_mul_l. ring.
Defined.

Lemma white_numbers steps n : (0 < steps * n)%nat ->
  white (average (steps * n)) steps n (fun k i m => if Nat.eqb (k * n + i) m then sqrt (INR (steps * n)) else 0).
Proof.
  intros HN k l i j Hk Hl Hi Hj. cbn [average ex]. set (N := (steps * n)%nat) in *.
  assert (B : (k * n + i < N)%nat) by (unfold N; nia).
  destruct (Nat.eqb_spec k l) as [->|Hkl]; cbn [andb].
  - destruct (Nat.eqb_spec i j) as [->|Hij].
    + rewrite (rsum_ext N _ (fun m => if Nat.eqb (l * n + j) m then INR N else 0)).
      * rewrite rsum_indicator by exact B. field. apply not_0_INR. lia.
      * intros m _. destruct (Nat.eqb (l * n + j) m); [apply sqrt_sqrt, pos_INR|ring].
    + rewrite (rsum_ext N _ (fun m => if Nat.eqb (l * n + i) m then 0 else 0)).
      * rewrite rsum_indicator by exact B. ring.
      * intros m _. destruct (Nat.eqb_spec (l * n + i) m), (Nat.eqb_spec (l * n + j) m); try lia; ring.
  - rewrite (rsum_ext N _ (fun m => if Nat.eqb (k * n + i) m then 0 else 0)).
    + rewrite rsum_indicator by exact B. ring.
    + intros m _. destruct (Nat.eqb_spec (k * n + i) m), (Nat.eqb_spec (l * n + j) m); try ring. exfalso. apply Hkl. nia.
Qed.
