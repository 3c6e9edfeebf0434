(** The Fourier transform of a moved field. *)
From Verif Require Import SymmetrySpec DftProofs IndexProofs RealProofs StepProofs EnergyProofs3 Vec CVec Complex.
From Coq Require Import Lra Lia Qreals Permutation.
Open Scope R_scope.

(** ** Sums over nodes in another order *)
Lemma csum_list n (f : nat -> C) : csum n f = Csum (map f (seq 0 n)).
Proof.
  rewrite Csum_seq, map_length, seq_length. apply csum_ext. intros i Hi. symmetry. apply nth_map_seq. exact Hi.
Qed.
Lemma Csum_perm l l' : Permutation l l' -> Csum l = Csum l'.
Proof. induction 1; cbn [Csum]; [reflexivity|rewrite IHPermutation; reflexivity|ring|congruence]. Qed.
Lemma csum_reindex n (s : nat -> nat) f : (forall j, (j < n)%nat -> (s j < n)%nat) ->
  (forall i j, (i < n)%nat -> (j < n)%nat -> s i = s j -> i = j) -> csum n (fun j => f (s j)) = csum n f.
Proof.
  intros B I. rewrite !csum_list. rewrite <- (map_map s f). apply Csum_perm, Permutation_map.
  apply NoDup_Permutation_bis.
  - assert (G : forall m a, (a + m <= n)%nat -> NoDup (map s (seq a m))).
    { induction m as [|m IH]; intros a Ha; cbn [seq map]; [constructor|]. constructor; [|apply IH; lia].
      intros Hin. apply in_map_iff in Hin. destruct Hin as (j & E & Hj). apply in_seq in Hj. apply I in E; lia. }
    apply G. lia.
  - rewrite map_length. lia.
  - intros x Hx. apply in_map_iff in Hx. destruct Hx as (j & <- & Hj). apply in_seq in Hj. apply in_seq. split; [lia|]. cbn. apply B. lia.
Qed.

(** ** Phases as scalar products of positions *)
Fixpoint pdot (dom q p : list Z) : R :=
  match dom, q, p with d :: dom', a :: q', b :: p' => IZR a * IZR b / IZR d + pdot dom' q' p' | _, _, _ => 0 end.

Lemma freq_dot_pdot dom : Forall (fun d => (0 < d)%Z) dom -> forall q p, in_box dom q ->
  exists z, freq_dot (map (fun t => freq1 (fst t) (snd t)) (combine q dom)) p = pdot dom q p + IZR z.
Proof.
  induction 1 as [|d dom Hd Hf IH]; intros q p Hq; inversion Hq as [|? x ? q' Hx Hq']; subst; [exists 0%Z; destruct p; cbn; ring|].
  destruct p as [|b p]; [exists 0%Z; cbn; ring|]. destruct (IH q' p Hq') as [z Hz]. cbn [combine map fst snd freq_dot pdot]. rewrite Hz.
  destruct (freq1_real x d Hx) as [w Hw]. exists (z - w * b)%Z. rewrite minus_IZR, mult_IZR.
  replace (IZR x * IZR b / IZR d) with (IZR x / IZR d * IZR b) by (unfold Rdiv; ring). rewrite Hw. ring.
Qed.

Lemma phase_pdot dom k j q p : valid_domain dom -> square_layout dom -> (k < nodes dom)%nat -> (j < nodes dom)%nat ->
  IndexModel.pos dom (Z.of_nat k) = Some q -> IndexModel.pos dom (Z.of_nat j) = Some p ->
  exists z, phase (fftw_dims dom) k j = pdot dom q p + IZR z.
Proof.
  intros Hv Hs Hk Hj Hq Hp. destruct (freq_pos dom (Z.of_nat k) Hv (nodes_lt dom k (proj2 Hv) Hk)) as (q' & f & E1 & B & E2 & Ef).
  rewrite Hq in E1. injection E1 as <-. destruct (phase_freq dom k j f p Hv Hs Hk Hj E2 Hp) as [z Hz].
  destruct (freq_dot_pdot dom (proj2 Hv) q p B) as [w Hw]. rewrite <- Ef in Hw. exists (w + z)%Z. rewrite Hz, Hw, plus_IZR. ring.
Qed.

Lemma pdot_reduce dom : Forall (fun d => (0 < d)%Z) dom -> forall q p, exists z, pdot dom q (reduce dom p) = pdot dom q p + IZR z.
Proof.
  induction 1 as [|d dom Hd Hf IH]; intros q p; [exists 0%Z; destruct q; cbn; ring|].
  destruct p as [|b p]; [exists 0%Z; destruct q; cbn; ring|]. destruct q as [|a q]; [exists 0%Z; cbn; ring|].
  destruct (IH q p) as [z Hz]. cbn [reduce pdot]. rewrite Hz. exists (z - a * (b / d))%Z.
  rewrite Z.mod_eq by lia. rewrite !minus_IZR, !mult_IZR. field. apply not_0_IZR. lia.
Qed.
Lemma pdot_sym dom : forall q p, pdot dom q p = pdot dom p q.
Proof. induction dom as [|d dom IH]; intros [|a q] [|b p]; cbn [pdot]; try reflexivity. rewrite IH. unfold Rdiv. ring. Qed.

Lemma reduce_length dom : forall p, length p = length dom -> length (reduce dom p) = length dom.
Proof. induction dom as [|d dom IH]; intros [|x p] L; cbn [reduce length] in *; try lia. rewrite IH; lia. Qed.
Lemma reduce_in_box dom : Forall (fun d => (0 < d)%Z) dom -> forall p, length p = length dom -> in_box dom (reduce dom p).
Proof.
  induction 1 as [|d dom Hd Hf IH]; intros [|x p] L; cbn [length] in L; try discriminate; cbn [reduce]; constructor; [|apply IH; lia].
  apply Z.mod_pos_bound. lia.
Qed.
Lemma in_box_length dom p : in_box dom p -> length p = length dom.
Proof. intros H. induction H; cbn [length]; congruence. Qed.

(** ** Motions *)
Lemma shift_length v : forall p, length (shift v p) = length p.
Proof. induction v as [|a v IH]; intros [|x p]; cbn [shift length]; [reflexivity..|]. rewrite IH. reflexivity. Qed.
Lemma mirror_length axis : forall p, length (mirror axis p) = length p.
Proof. induction axis as [|a IH]; intros [|x p]; cbn [mirror length]; [reflexivity..|]. rewrite IH. reflexivity. Qed.
Lemma exchange_length {A} axis : forall p : list A, length (exchange axis p) = length p.
Proof. induction axis as [|a IH]; intros [|x [|y p]]; cbn [exchange length]; try reflexivity; rewrite IH; reflexivity. Qed.
Lemma motion_length dom g p : motion dom g -> length (g p) = length p.
Proof. intros []; [apply shift_length|apply mirror_length|apply exchange_length]. Qed.

Lemma mod_inj d x y : (0 < d)%Z -> (0 <= x < d)%Z -> (0 <= y < d)%Z -> forall a, ((x + a) mod d = (y + a) mod d)%Z -> x = y.
Proof.
  intros Hd Hx Hy a E. pose proof (Z.div_mod (x + a) d ltac:(lia)) as D1. pose proof (Z.div_mod (y + a) d ltac:(lia)) as D2. rewrite E in D1.
  assert (x - y = d * ((x + a) / d - (y + a) / d))%Z by lia.
  assert ((x + a) / d - (y + a) / d = 0)%Z by nia. nia.
Qed.
Lemma reduce_id dom : forall p, in_box dom p -> reduce dom p = p.
Proof. intros p H. induction H as [|d x dom p Hx _ IH]; cbn [reduce]; [reflexivity|]. rewrite IH, Z.mod_small by exact Hx. reflexivity. Qed.

Lemma shift_inj dom v : Forall (fun d => (0 < d)%Z) dom -> forall p p', in_box dom p -> in_box dom p' ->
  reduce dom (shift v p) = reduce dom (shift v p') -> p = p'.
Proof.
  intros Hf. revert v. induction Hf as [|d dom Hd Hf IH]; intros v p p' B B' E.
  - inversion B; inversion B'; reflexivity.
  - inversion B as [|? x ? q Hx Bq]; inversion B' as [|? x' ? q' Hx' Bq']; subst. destruct v as [|a v]; cbn [shift reduce] in E.
    + injection E as E1 E2. rewrite !reduce_id in E2 by assumption. rewrite !Z.mod_small in E1 by assumption. congruence.
    + injection E as E1 E2. f_equal; [exact (mod_inj d x x' Hd Hx Hx' a E1)|exact (IH v q q' Bq Bq' E2)].
Qed.
Lemma mirror_inj dom axis : Forall (fun d => (0 < d)%Z) dom -> forall p p', in_box dom p -> in_box dom p' ->
  reduce dom (mirror axis p) = reduce dom (mirror axis p') -> p = p'.
Proof.
  intros Hf. revert axis. induction Hf as [|d dom Hd Hf IH]; intros axis p p' B B' E.
  - inversion B; inversion B'; reflexivity.
  - inversion B as [|? x ? q Hx Bq]; inversion B' as [|? x' ? q' Hx' Bq']; subst. destruct axis as [|axis]; cbn [mirror reduce] in E; injection E as E1 E2.
    + rewrite !reduce_id in E2 by assumption. subst q'. f_equal.
      pose proof (mod_inj d (d - 1 - x) (d - 1 - x') Hd ltac:(lia) ltac:(lia) (1 - d)) as M.
      replace (d - 1 - x + (1 - d))%Z with (- x)%Z in M by lia. replace (d - 1 - x' + (1 - d))%Z with (- x')%Z in M by lia. specialize (M E1). lia.
    + rewrite !Z.mod_small in E1 by assumption. f_equal; [exact E1|exact (IH axis q q' Bq Bq' E2)].
Qed.
Lemma exchange_S {A} a (x : A) l : exchange (S a) (x :: l) = x :: exchange a l.
Proof. destruct l; [destruct a|]; reflexivity. Qed.
Lemma exchange_involutive {A} axis : forall p : list A, exchange axis (exchange axis p) = p.
Proof.
  induction axis as [|a IH]; intros [|x p]; [reflexivity|destruct p; reflexivity|reflexivity|]. rewrite !exchange_S, IH. reflexivity.
Qed.
Lemma in_box_exchange axis : forall dom p, in_box dom p -> in_box (exchange axis dom) (exchange axis p).
Proof.
  unfold in_box. induction axis as [|a IH]; intros dom p H; inversion H as [|d x dom' p' Hx H']; subst; try (constructor; fail).
  - inversion H' as [|d2 x2 dom2 p2 Hx2 H2]; subst; cbn [exchange]; repeat (constructor; try assumption).
  - rewrite !exchange_S. constructor; [exact Hx|]. apply IH, H'.
Qed.
Lemma exchange_inj dom axis : exchange axis dom = dom -> forall p p', in_box dom p -> in_box dom p' ->
  reduce dom (exchange axis p) = reduce dom (exchange axis p') -> p = p'.
Proof.
  intros Hd p p' B B' E. apply (in_box_exchange axis) in B. apply (in_box_exchange axis) in B'. rewrite Hd in B, B'.
  rewrite !reduce_id in E by assumption. apply (f_equal (exchange axis)) in E. rewrite !exchange_involutive in E. exact E.
Qed.

(** The motion of the nodes, the motion of the frequencies and the phase. *)
Definition freq_motion (dom : list Z) (g h : list Z -> list Z) (w : list Z -> R) : Prop :=
  forall q p, in_box dom q -> in_box dom p -> exists z, pdot dom q (g p) = pdot dom (h q) p + w q + IZR z.
Definition same_norm (dom : list Z) (h : list Z -> list Z) : Prop :=
  forall q, in_box dom q -> in_box dom (h q) /\
    norm_sq (map Q2R (map (fun t => freq1 (fst t) (snd t)) (combine (h q) dom))) = norm_sq (map Q2R (map (fun t => freq1 (fst t) (snd t)) (combine q dom))).

Lemma pdot_shift dom : forall q p v, length v = length dom -> length p = length dom -> length q = length dom -> pdot dom q (shift v p) = pdot dom q p + pdot dom q v.
Proof.
  induction dom as [|d dom IH]; intros [|a q] [|b p] [|c v] L1 L2 L3; cbn [length] in *; try lia; cbn [pdot shift]; [ring|].
  rewrite IH by lia. rewrite plus_IZR. unfold Rdiv. ring.
Qed.
Lemma pdot_mirror dom : forall axis q p, pdot dom q (mirror axis p) = pdot dom (mirror axis q) p.
Proof.
  induction dom as [|d dom IH]; intros axis q p; [destruct (mirror axis p), (mirror axis q); destruct q, p; reflexivity|].
  destruct axis as [|axis], q as [|a q], p as [|b p]; cbn [mirror pdot]; try reflexivity.
  - rewrite !opp_IZR. unfold Rdiv. ring.
  - rewrite IH. reflexivity.
Qed.
Lemma pdot_exchange dom : forall axis q p, length q = length dom -> length p = length dom ->
  pdot (exchange axis dom) (exchange axis q) (exchange axis p) = pdot dom q p.
Proof.
  induction dom as [|d dom IH]; intros axis [|a q] [|b p] L1 L2; cbn [length] in *; try lia; [destruct axis; reflexivity|].
  destruct axis as [|axis].
  - destruct dom as [|d2 dom], q as [|a2 q], p as [|b2 p]; cbn [length] in *; try lia; cbn [exchange pdot]; [reflexivity|ring].
  - assert (E : forall (A : Type) (x : A) l, exchange (S axis) (x :: l) = x :: exchange axis l) by (intros A x [|y l]; [destruct axis; reflexivity|reflexivity]).
    rewrite !E. cbn [pdot]. rewrite IH by lia. reflexivity.
Qed.

Lemma Q2R_norm_conj c n : (0 < n)%Z -> (0 <= c < n)%Z -> Q2R (freq1 ((- c) mod n) n) * Q2R (freq1 ((- c) mod n) n) = Q2R (freq1 c n) * Q2R (freq1 c n).
Proof.
  intros Hn Hc. assert (E : ((- c) mod n = Z.rem (n - c) n)%Z).
  { rewrite Z.rem_mod_nonneg by lia. replace (n - c)%Z with (- c + 1 * n)%Z by lia. rewrite Z.mod_add by lia. reflexivity. }
  rewrite E. destruct (freq1_conj c n Hn Hc) as [H|[H1 H2]].
  - rewrite (Qeq_eqR _ _ H), Q2R_opp. ring.
  - rewrite (Qeq_eqR _ _ H1), (Qeq_eqR _ _ H2). reflexivity.
Qed.

(** The motion of the frequencies. *)
Definition tau_pos (dom : list Z) (g : list Z -> list Z) (h : list Z -> list Z) (w : list Z -> R) : Prop :=
  freq_motion dom g h w /\ same_norm dom h /\ forall q q', in_box dom q -> in_box dom q' -> h q = h q' -> q = q'.

Lemma shift_frequencies dom v : length v = length dom -> tau_pos dom (shift v) (fun q => q) (fun q => pdot dom q v).
Proof.
  intros Lv. split.
  - intros q p Hq Hp. exists 0%Z. rewrite pdot_shift by first [assumption|apply in_box_length; assumption]. ring.
  - split; [|intros; assumption]. intros q Hq. split; [exact Hq|reflexivity].
Qed.
Lemma motion_frequencies dom g : valid_domain dom -> motion dom g -> exists h w, tau_pos dom g h w.
Proof.
  intros [_ Hf] [v Lv|axis Ha|axis Ha He].
  - eexists _, _. apply shift_frequencies, Lv.
  - exists (fun q => reduce dom (mirror axis q)), (fun _ => 0). split.
    + intros q p Hq Hp. rewrite pdot_mirror. destruct (pdot_reduce dom Hf p (mirror axis q)) as [z Hz]. exists (- z)%Z.
      rewrite (pdot_sym dom (reduce _ _) p), Hz, (pdot_sym dom p), opp_IZR. ring.
    + split; [|apply mirror_inj, Hf]. intros q Hq. split; [apply reduce_in_box; [exact Hf|]; rewrite mirror_length; apply in_box_length, Hq|].
      clear Ha. revert axis. induction Hq as [|d x dom q Hx Hq IH]; intros axis; [destruct axis; reflexivity|].
      inversion Hf; subst. destruct axis as [|axis]; cbn [mirror reduce combine map fst snd norm_sq].
      * rewrite Q2R_norm_conj by (try assumption). rewrite (reduce_id dom q Hq). reflexivity.
      * rewrite IH by assumption. rewrite (Z.mod_small x d Hx). reflexivity.
  - exists (exchange axis), (fun _ => 0). split.
    + intros q p Hq Hp. exists 0%Z. rewrite <- (pdot_exchange dom axis (exchange axis q) p) by (rewrite ?exchange_length; apply in_box_length; assumption).
      rewrite He, exchange_involutive. ring.
    + split; [|intros q q' _ _ E; apply (f_equal (exchange axis)) in E; rewrite !exchange_involutive in E; exact E]. intros q Hq. split; [rewrite <- He; apply in_box_exchange, Hq|].
      assert (L : length q = length dom) by (apply in_box_length, Hq). clear Hq Ha Hf. revert axis q He L.
      induction dom as [|d dom IH]; intros axis [|x q] He L; cbn [length] in L; try lia; [destruct axis; reflexivity|].
      destruct axis as [|axis].
      * destruct dom as [|d2 dom], q as [|x2 q]; cbn [length] in L; try lia; [reflexivity|]. cbn [exchange] in He. injection He as E1 _. subst d2.
        cbn [exchange combine map fst snd norm_sq]. ring.
      * assert (E : forall (A : Type) (x : A) l, exchange (S axis) (x :: l) = x :: exchange axis l) by (intros A y [|z l]; [destruct axis; reflexivity|reflexivity]).
        rewrite E in *. injection He as He. cbn [combine map fst snd norm_sq]. rewrite (IH axis q He) by lia. reflexivity.
Qed.
Lemma motion_inj dom g : valid_domain dom -> motion dom g -> forall p p', in_box dom p -> in_box dom p' -> reduce dom (g p) = reduce dom (g p') -> p = p'.
Proof.
  intros [_ Hf] [v Lv|axis Ha|axis Ha He]; [apply shift_inj, Hf|apply mirror_inj, Hf|apply exchange_inj, He].
Qed.
