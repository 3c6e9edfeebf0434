(** Lemmas for C98: what a declared equation computes is Lipschitz on bounded
    sets. *)
From Verif Require Import ListAux FileModel StepProofs LinearProofs2 LinearProofs3 ConvergeProofs LimitProofs.
From Verif Require Import DftSpec LimitSpec SplitSpec.
From Coq Require Import Reals Lra Lia List.
From Verif Require Import Complex.
Import ListNotations.
Open Scope R_scope.

(** ** Sizes and squares *)
Lemma norm_of_size z e : size z <= e -> Cnorm2 z <= e ^ 2.
Proof.
  unfold size, Cnorm2. intros H. pose proof (Rabs_pos (Re z)). pose proof (Rabs_pos (Im z)).
  assert (E1 : Re z * Re z = Rabs (Re z) * Rabs (Re z)) by (rewrite <- Rabs_mult, Rabs_right by nra; reflexivity).
  assert (E2 : Im z * Im z = Rabs (Im z) * Rabs (Im z)) by (rewrite <- Rabs_mult, Rabs_right by nra; reflexivity).
  cbn [pow]. rewrite ?Rmult_1_r. try rewrite E1; try rewrite E2. nra.
Qed.
Lemma size_of_norm z e : 0 <= e -> Cnorm2 z <= e ^ 2 -> size z <= 2 * e.
Proof.
  unfold size, Cnorm2. intros He H.
  assert (A1 : Rabs (Re z) <= e). { rewrite <- (Rabs_right e) by lra. apply Rsqr_le_abs_0. unfold Rsqr. nra. }
  assert (A2 : Rabs (Im z) <= e). { rewrite <- (Rabs_right e) by lra. apply Rsqr_le_abs_0. unfold Rsqr. nra. } lra.
Qed.
Lemma lipschitz_size g : lipschitz g -> forall r, exists K, 0 <= K /\ forall z w, size z <= r -> size w <= r -> size (Csub (g z) (g w)) <= K * size (Csub z w).
Proof.
  intros H r. destruct (H (r ^ 2)) as (K & HK). exists (2 * sqrt (Rabs K)). pose proof (sqrt_pos (Rabs K)) as P. split; [lra|]. intros z w Hz Hw.
  rewrite Rmult_assoc. pose proof (size_pos (Csub z w)) as Pe. apply size_of_norm; [apply Rmult_le_pos; lra|].
  rewrite Rpow_mult_distr. replace (sqrt (Rabs K) ^ 2) with (Rabs K) by (cbn [pow]; rewrite Rmult_1_r, sqrt_sqrt by apply Rabs_pos; reflexivity).
  apply Rle_trans with (1 := HK z w (norm_of_size _ _ Hz) (norm_of_size _ _ Hw)).
  assert (N : 0 <= Cnorm2 (Csub z w)) by apply Cnorm2_nonneg.
  apply Rle_trans with (Rabs K * Cnorm2 (Csub z w)); [apply Rmult_le_compat_r; [exact N|apply Rle_abs]|].
  apply Rmult_le_compat_l; [apply Rabs_pos|]. apply norm_of_size. lra.
Qed.

(** ** A calculus of Lipschitz bounds *)
Section Bounds.
  Variable X : Type.
  Variable P : X -> X -> R -> Prop.
  Hypothesis Ppos : forall p q e, P p q e -> 0 <= e.
  Definition regular (f : X -> C) : Prop := exists K M, 0 <= K /\ 0 <= M /\ forall p q e, P p q e -> size (f p) <= M /\ size (f q) <= M /\ size (Csub (f p) (f q)) <= K * e.

  Lemma regular_ext f g : (forall p, f p = g p) -> regular f -> regular g.
  Proof. intros E (K & M & HK & HM & H). exists K, M. split; [exact HK|]. split; [exact HM|]. intros p q e Hp. rewrite <- !E. exact (H p q e Hp). Qed.
  Lemma regular_const z : regular (fun _ => z).
  Proof.
    exists 0, (size z). split; [lra|]. split; [apply size_pos|]. intros p q e Hp. split; [lra|]. split; [lra|].
    replace (Csub z z) with C0 by csolve. rewrite size_0. lra.
  Qed.
  Lemma regular_add f g : regular f -> regular g -> regular (fun p => Cadd (f p) (g p)).
  Proof.
    intros (K & M & HK & HM & H) (K' & M' & HK' & HM' & H'). exists (K + K'), (M + M'). split; [lra|]. split; [lra|]. intros p q e Hp.
    destruct (H p q e Hp) as (H1 & H2 & H3). destruct (H' p q e Hp) as (H1' & H2' & H3').
    pose proof (size_add (f p) (g p)). pose proof (size_add (f q) (g q)). split; [lra|]. split; [lra|].
    replace (Csub (Cadd (f p) (g p)) (Cadd (f q) (g q))) with (Cadd (Csub (f p) (f q)) (Csub (g p) (g q))) by csolve.
    pose proof (size_add (Csub (f p) (f q)) (Csub (g p) (g q))). lra.
  Qed.
  Lemma regular_mul f g : regular f -> regular g -> regular (fun p => Cmul (f p) (g p)).
  Proof.
    intros (K & M & HK & HM & H) (K' & M' & HK' & HM' & H'). exists (K * M' + M * K'), (M * M').
    split; [apply Rplus_le_le_0_compat; apply Rmult_le_pos; assumption|]. split; [apply Rmult_le_pos; assumption|]. intros p q e Hp.
    destruct (H p q e Hp) as (H1 & H2 & H3). destruct (H' p q e Hp) as (H1' & H2' & H3').
    assert (Q : forall u v, size u <= M -> size v <= M' -> size (Cmul u v) <= M * M').
    { intros u v Hu Hv. eapply Rle_trans; [apply size_mul|]. apply Rmult_le_compat; (assumption || apply size_pos). }
    split; [apply Q; assumption|]. split; [apply Q; assumption|].
    replace (Csub (Cmul (f p) (g p)) (Cmul (f q) (g q))) with (Cadd (Cmul (Csub (f p) (f q)) (g p)) (Cmul (f q) (Csub (g p) (g q)))) by csolve.
    eapply Rle_trans; [apply size_add|]. replace ((K * M' + M * K') * e) with ((K * e) * M' + M * (K' * e)) by ring.
    apply Rplus_le_compat; (eapply Rle_trans; [apply size_mul|]); apply Rmult_le_compat; (assumption || apply size_pos).
  Qed.
  Lemma regular_comp g f : lipschitz g -> regular f -> regular (fun p => g (f p)).
  Proof.
    intros HG (K & M & HK & HM & H). destruct (lipschitz_size g HG M) as (G & HG0 & HGl).
    assert (B : forall z, size z <= M -> size (g z) <= size (g C0) + G * M).
    { intros z Hz. pose proof (size_of_sub (g z) (g C0)). pose proof (HGl z C0 Hz ltac:(rewrite size_0; exact HM)) as L.
      replace (Csub z C0) with z in L by csolve. assert (G * size z <= G * M) by (apply Rmult_le_compat_l; assumption). lra. }
    exists (G * K), (size (g C0) + G * M). pose proof (size_pos (g C0)) as Q0. assert (Q1 : 0 <= G * M) by (apply Rmult_le_pos; assumption).
    split; [apply Rmult_le_pos; assumption|]. split; [lra|]. intros p q e Hp. destruct (H p q e Hp) as (H1 & H2 & H3).
    split; [apply B; assumption|]. split; [apply B; assumption|]. eapply Rle_trans; [apply HGl; assumption|]. rewrite Rmult_assoc. apply Rmult_le_compat_l; assumption.
  Qed.
  Lemma regular_sum {I} (l : list I) (f : I -> X -> C) : (forall x, In x l -> regular (f x)) -> regular (fun p => Csum (map (fun x => f x p) l)).
  Proof.
    induction l as [|x l IH]; intros H; [cbn [map Csum]; apply regular_const|]. cbn [map Csum].
    apply regular_add; [apply H; left; reflexivity|]. apply IH. intros y Hy. apply H. right. exact Hy.
  Qed.
  Lemma regular_family (n : nat) (f : nat -> X -> C) : (forall j, (j < n)%nat -> regular (f j)) ->
    exists K M, 0 <= K /\ 0 <= M /\ forall j, (j < n)%nat -> forall p q e, P p q e -> size (f j p) <= M /\ size (f j q) <= M /\ size (Csub (f j p) (f j q)) <= K * e.
  Proof.
    induction n as [|n IH]; intros H; [exists 0, 0; split; [lra|]; split; [lra|]; intros; lia|].
    destruct IH as (K & M & HK & HM & HB); [intros j Hj; apply H; lia|]. destruct (H n ltac:(lia)) as (K' & M' & HK' & HM' & HB').
    exists (K + K'), (M + M'). split; [lra|]. split; [lra|]. intros j Hj p q e Hp. pose proof (Ppos p q e Hp) as He.
    assert (0 <= K * e) by (apply Rmult_le_pos; assumption). assert (0 <= K' * e) by (apply Rmult_le_pos; assumption).
    destruct (Nat.eq_dec j n) as [->|N]; [destruct (HB' p q e Hp) as (? & ? & ?)|destruct (HB j ltac:(lia) p q e Hp) as (? & ? & ?)]; repeat split; lra.
  Qed.
  Lemma regular_all (m n : nat) (f : nat -> nat -> X -> C) : (forall i j, (i < m)%nat -> (j < n)%nat -> regular (f i j)) ->
    exists K, 0 <= K /\ forall i j, (i < m)%nat -> (j < n)%nat -> forall p q e, P p q e -> size (Csub (f i j p) (f i j q)) <= K * e.
  Proof.
    induction m as [|m IH]; intros H; [exists 0; split; [lra|]; intros; lia|].
    destruct IH as (K & HK & HB); [intros i j Hi Hj; apply H; lia|]. destruct (regular_family n (f m)) as (K' & M' & HK' & _ & HB'); [intros j Hj; apply H; lia|].
    exists (K + K'). split; [lra|]. intros i j Hi Hj p q e Hp. pose proof (Ppos p q e Hp) as He.
    assert (0 <= K * e) by (apply Rmult_le_pos; assumption). assert (0 <= K' * e) by (apply Rmult_le_pos; assumption).
    destruct (Nat.eq_dec i m) as [->|N]; [destruct (HB' j Hj p q e Hp) as (? & ? & ?); lra|]. pose proof (HB i j ltac:(lia) Hj p q e Hp). lra.
  Qed.
End Bounds.

(** ** The transforms *)
Section Transform.
  Variables (n : nat) (ft : transform).
  Hypothesis UT : unitary_transform n ft.
  Hypothesis Hn : (0 < n)%nat.
  Let GT := ut_good n ft UT.

  Lemma rsum_entry (m : nat) (f : nat -> R) j : (forall i, (i < m)%nat -> 0 <= f i) -> (j < m)%nat -> f j <= Vec.rsum m f.
  Proof.
    induction m as [|m IH]; intros H Hj; [lia|]. cbn [Vec.rsum].
    assert (S0 : 0 <= Vec.rsum m f).
    { clear IH Hj. assert (H' : forall i, (i < m)%nat -> 0 <= f i) by (intros i Hi; apply H; lia). clear H. induction m as [|m IH]; cbn [Vec.rsum]; [lra|].
      pose proof (H' m ltac:(lia)). assert (0 <= Vec.rsum m f) by (apply IH; intros i Hi; apply H'; lia). lra. }
    destruct (Nat.eq_dec j m) as [->|N]; [lra|]. pose proof (IH ltac:(intros i Hi; apply H; lia) ltac:(lia)). pose proof (H m ltac:(lia)). lra.
  Qed.
  Lemma rsum_bound (m : nat) (f : nat -> R) b : (forall i, (i < m)%nat -> f i <= b) -> Vec.rsum m f <= INR m * b.
  Proof.
    induction m as [|m IH]; intros H; [cbn; lra|]. cbn [Vec.rsum]. rewrite S_INR. pose proof (IH ltac:(intros i Hi; apply H; lia)). pose proof (H m ltac:(lia)). lra.
  Qed.
  Lemma real_bound d e : length d = n -> 0 <= e -> (forall k, (k < n)%nat -> size (nth k (fft ft d) C0) <= e) -> forall j, (j < n)%nat -> size (nth j d C0) <= 2 * e.
  Proof.
    intros Hl He H j Hj. apply size_of_norm; [exact He|].
    assert (Hn' : 0 < INR n) by (apply lt_0_INR; exact Hn).
    apply Rle_trans with (energy d).
    - unfold energy. rewrite Hl. apply (rsum_entry n (fun i => Cnorm2 (nth i d C0)) j); [intros i _; apply Cnorm2_nonneg|exact Hj].
    - apply Rmult_le_reg_l with (1 := Hn'). rewrite (energy_modes n ft d UT Hl). apply rsum_bound. intros i Hi. apply norm_of_size, H, Hi.
  Qed.
  Lemma mode_bound d e : length d = n -> 0 <= e -> (forall j, (j < n)%nat -> size (nth j d C0) <= e) -> forall k, (k < n)%nat -> size (nth k (fft ft d) C0) <= 2 * (INR n * e).
  Proof.
    intros Hl He H k Hk. assert (Hn' : 0 < INR n) by (apply lt_0_INR; exact Hn). apply size_of_norm; [apply Rmult_le_pos; lra|].
    apply Rle_trans with (INR n * energy d).
    - rewrite (energy_modes n ft d UT Hl). apply (rsum_entry n (fun i => Cnorm2 (nth i (fft ft d) C0)) k); [intros i _; apply Cnorm2_nonneg|exact Hk].
    - rewrite Rpow_mult_distr. replace (INR n ^ 2 * e ^ 2) with (INR n * (INR n * e ^ 2)) by ring. apply Rmult_le_compat_l; [lra|].
      unfold energy. rewrite Hl. apply rsum_bound. intros i Hi. apply norm_of_size, H, Hi.
  Qed.
  Let minus (x y : data) := map2 (fun u v => Cadd u (Cmul (RtoC (-1)) v)) x y.
  Lemma minus_at x y j : length x = n -> length y = n -> (j < n)%nat -> nth j (minus x y) C0 = Csub (nth j x C0) (nth j y C0).
  Proof. intros Hx Hy Hj. unfold minus. rewrite (map2_at _ x y n j Hx Hy Hj). csolve. Qed.
  Lemma minus_length x y : length x = n -> length y = n -> length (minus x y) = n.
  Proof. intros Hx Hy. apply map2_length; assumption. Qed.
  Lemma real_close x y e : length x = n -> length y = n -> 0 <= e -> (forall k, (k < n)%nat -> size (Csub (nth k (fft ft x) C0) (nth k (fft ft y) C0)) <= e) ->
    forall j, (j < n)%nat -> size (Csub (nth j x C0) (nth j y C0)) <= 2 * e.
  Proof.
    intros Hx Hy He H j Hj. rewrite <- minus_at by assumption. apply real_bound; [apply minus_length; assumption|exact He| |exact Hj].
    intros k Hk. unfold minus. rewrite (ut_fft_add n ft UT) by assumption. fold minus.
    assert (Lx := gt_fft_len n ft GT x Hx). assert (Ly := gt_fft_len n ft GT y Hy).
    change (map2 (fun u v => Cadd u (Cmul (RtoC (-1)) v)) (fft ft x) (fft ft y)) with (minus (fft ft x) (fft ft y)). rewrite minus_at by assumption. apply H, Hk.
  Qed.
  Lemma mode_close x y e : length x = n -> length y = n -> 0 <= e -> (forall j, (j < n)%nat -> size (Csub (nth j x C0) (nth j y C0)) <= e) ->
    forall k, (k < n)%nat -> size (Csub (nth k (fft ft x) C0) (nth k (fft ft y) C0)) <= 2 * (INR n * e).
  Proof.
    intros Hx Hy He H k Hk. assert (Lx := gt_fft_len n ft GT x Hx). assert (Ly := gt_fft_len n ft GT y Hy).
    rewrite <- minus_at by assumption. unfold minus. rewrite <- (ut_fft_add n ft UT) by assumption.
    change (map2 (fun u v => Cadd u (Cmul (RtoC (-1)) v)) x y) with (minus x y).
    apply mode_bound; [apply minus_length; assumption|exact He| |exact Hk]. intros j Hj. rewrite minus_at by assumption. apply H, Hj.
  Qed.
  Lemma nth_map_seq (x : nat -> C) j : (j < n)%nat -> nth j (map x (seq 0 n)) C0 = x j.
  Proof. intros Hj. rewrite (nth_indep _ C0 (x 0%nat)) by (rewrite map_length, seq_length; exact Hj). rewrite map_nth, seq_nth by exact Hj. reflexivity. Qed.
  Lemma map_seq_length (x : nat -> C) : length (map x (seq 0 n)) = n.
  Proof. rewrite map_length, seq_length. reflexivity. Qed.

  (** values of the fields given by amplitudes, and amplitudes of values *)
  Lemma regular_real (X : Type) (P : X -> X -> R -> Prop) (Ppos : forall p q e, P p q e -> 0 <= e) (x : nat -> X -> C) : (forall k, (k < n)%nat -> regular X P (x k)) ->
    forall j, (j < n)%nat -> regular X P (fun p => nth j (to_real ft (map (fun k => x k p) (seq 0 n))) C0).
  Proof.
    intros H j Hj. destruct (regular_family X P Ppos n x H) as (K & M & HK & HM & HB). exists (2 * K), (2 * M). split; [lra|]. split; [lra|]. intros p q e Hp.
    pose proof (Ppos p q e Hp) as He.
    assert (Lr : forall p, length (to_real ft (map (fun k => x k p) (seq 0 n))) = n) by (intros p'; unfold to_real; rewrite div_real_length; apply (gt_ifft_len n ft GT), map_seq_length).
    assert (Ev : forall p k, (k < n)%nat -> nth k (fft ft (to_real ft (map (fun k => x k p) (seq 0 n)))) C0 = x k p).
    { intros p' k Hk. rewrite (gt_inverse n ft GT) by apply map_seq_length. apply (nth_map_seq (fun k => x k p')), Hk. }
    assert (Q : forall p', (forall k, (k < n)%nat -> size (x k p') <= M) -> size (nth j (to_real ft (map (fun k => x k p') (seq 0 n))) C0) <= 2 * M).
    { intros p' Hm. apply real_bound; [apply Lr|exact HM| |exact Hj]. intros k Hk. rewrite Ev by exact Hk. apply Hm, Hk. }
    split; [apply Q; intros k Hk; apply (HB k Hk p q e Hp)|]. split; [apply Q; intros k Hk; apply (HB k Hk p q e Hp)|].
    rewrite Rmult_assoc. apply real_close; [apply Lr|apply Lr|apply Rmult_le_pos; assumption| |exact Hj]. intros k Hk. rewrite !Ev by exact Hk. apply (HB k Hk p q e Hp).
  Qed.
  Lemma regular_mode (X : Type) (P : X -> X -> R -> Prop) (Ppos : forall p q e, P p q e -> 0 <= e) (x : nat -> X -> C) : (forall j, (j < n)%nat -> regular X P (x j)) ->
    forall k, (k < n)%nat -> regular X P (fun p => amplitude_at n ft k (fun j => x j p)).
  Proof.
    intros H k Hk. destruct (regular_family X P Ppos n x H) as (K & M & HK & HM & HB). assert (Hn' : 0 < INR n) by (apply lt_0_INR; exact Hn).
    exists (2 * (INR n * K)), (2 * (INR n * M)). split; [apply Rmult_le_pos; [lra|]; apply Rmult_le_pos; lra|]. split; [apply Rmult_le_pos; [lra|]; apply Rmult_le_pos; lra|].
    intros p q e Hp. pose proof (Ppos p q e Hp) as He. unfold amplitude_at.
    assert (Q : forall p', (forall k, (k < n)%nat -> size (x k p') <= M) -> size (nth k (fft ft (map (fun j => x j p') (seq 0 n))) C0) <= 2 * (INR n * M)).
    { intros p' Hm. apply mode_bound; [apply map_seq_length|exact HM| |exact Hk]. intros j Hj. rewrite (nth_map_seq (fun j => x j p')) by exact Hj. apply Hm, Hj. }
    split; [apply Q; intros j Hj; apply (HB j Hj p q e Hp)|]. split; [apply Q; intros j Hj; apply (HB j Hj p q e Hp)|].
    replace (2 * (INR n * K) * e) with (2 * (INR n * (K * e))) by ring.
    apply mode_close; [apply map_seq_length|apply map_seq_length|apply Rmult_le_pos; assumption| |exact Hk]. intros j Hj.
    rewrite (nth_map_seq (fun j => x j p)), (nth_map_seq (fun j => x j q)) by exact Hj. apply (HB j Hj p q e Hp).
  Qed.
End Transform.
