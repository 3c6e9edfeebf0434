(** Proofs about elasticity. *)
From Verif Require Import ElasticModel ElasticSpec.
From Coq Require Import FunctionalExtensionality Psatz.
Open Scope R_scope.

(** ** Storage *)
Definition q3 (q : nat * nat * nat * nat) : Prop := let '(i, j, k, l) := q in (i < 3 /\ j < 3 /\ k < 3 /\ l < 3)%nat.

Lemma rindex_inj i j k l i' j' k' l' : q3 (i, j, k, l) -> q3 (i', j', k', l') ->
  rindex i j k l = rindex i' j' k' l' -> i = i' /\ j = j' /\ k = k' /\ l = l'.
Proof. unfold q3, rindex. intros. lia. Qed.

Lemma rat_rset_same t i j k l v : rat (rset t i j k l v) i j k l = v.
Proof. unfold rat, rset. rewrite Nat.eqb_refl. reflexivity. Qed.

Lemma quads_all i j k l : q3 (i, j, k, l) <-> In (i, j, k, l) quads.
Proof.
  split.
  - intros (Hi & Hj & Hk & Hl). unfold quads. assert (L : forall x, (x < 3)%nat -> In x loop3) by (unfold loop3; cbn; lia).
    apply in_flat_map. exists i. split; [exact (L i Hi)|]. apply in_flat_map. exists j. split; [exact (L j Hj)|].
    apply in_flat_map. exists k. split; [exact (L k Hk)|]. apply in_map_iff. exists l. split; [reflexivity|exact (L l Hl)].
  - intros H. unfold quads in H. apply in_flat_map in H. destruct H as (a & Ha & H). apply in_flat_map in H. destruct H as (b & Hb & H).
    apply in_flat_map in H. destruct H as (c & Hc & H). apply in_map_iff in H. destruct H as (d & E & Hd). injection E as <- <- <- <-.
    unfold loop3 in *. cbn in Ha, Hb, Hc, Hd. unfold q3. lia.
Qed.

Lemma fold_fill f L t i j k l : (forall q, In q L -> q3 q) -> q3 (i, j, k, l) ->
  (In (i, j, k, l) L \/ rat t i j k l = f i j k l) ->
  rat (fold_left (fun t q => let '(i, j, k, l) := q in rset t i j k l (f i j k l)) L t) i j k l = f i j k l.
Proof.
  revert t. induction L as [|[[[a b] c] d] L IH]; intros t HL Hq H; cbn [fold_left].
  - destruct H as [[]|H]. exact H.
  - apply IH; [intros q Hin; apply HL; right; exact Hin|exact Hq|].
    destruct (Nat.eq_dec (rindex i j k l) (rindex a b c d)) as [E|NE].
    + right. apply rindex_inj in E; [|exact Hq|apply HL; left; reflexivity]. destruct E as (-> & -> & -> & ->). apply rat_rset_same.
    + destruct H as [[E|H]|H]; [injection E as -> -> -> ->; congruence|left; exact H|right].
      unfold rat, rset. apply Nat.eqb_neq in NE. rewrite NE. exact H.
Qed.

Lemma rat_fill f i j k l : q3 (i, j, k, l) -> rat (fill f) i j k l = f i j k l.
Proof.
  intros H. apply fold_fill; [intros [[[a b] c] d] Hin; apply quads_all; exact Hin|exact H|left; apply quads_all; exact H].
Qed.

(** ** Rotations *)
Definition rot_sum (r : matrix) (t : tensor) (i j k l : nat) : R :=
  rsum 3 (fun m => rsum 3 (fun n => rsum 3 (fun p => rsum 3 (fun q => r i m * r j n * r k p * r l q * t m n p q)))).

Lemma rat_rotate r t i j k l : q3 (i, j, k, l) -> rat (rotate r t) i j k l = rot_sum r (rat t) i j k l.
Proof. intros H. unfold rotate. rewrite rat_fill by exact H. reflexivity. Qed.

Definition op1 (r : matrix) (t : tensor) : tensor := fun i j k l => rsum 3 (fun m => r i m * t m j k l).
Definition op2 (r : matrix) (t : tensor) : tensor := fun i j k l => rsum 3 (fun m => r j m * t i m k l).
Definition op3 (r : matrix) (t : tensor) : tensor := fun i j k l => rsum 3 (fun m => r k m * t i j m l).
Definition op4 (r : matrix) (t : tensor) : tensor := fun i j k l => rsum 3 (fun m => r l m * t i j k m).

Lemma rot_ops r t i j k l : rot_sum r t i j k l = op1 r (op2 r (op3 r (op4 r t))) i j k l.
Proof.
  unfold rot_sum, op1, op2, op3, op4. apply rsum_ext. intros m _. rewrite <- rsum_mul_l. apply rsum_ext. intros n _.
  rewrite <- !rsum_mul_l. apply rsum_ext. intros p _. rewrite <- !rsum_mul_l. apply rsum_ext. intros q _. ring.
Qed.

Ltac fe4 := let i := fresh "i" in let j := fresh "j" in let k := fresh "k" in let l := fresh "l" in
  apply functional_extensionality; intros i; apply functional_extensionality; intros j;
  apply functional_extensionality; intros k; apply functional_extensionality; intros l.
Lemma comm_gen (a b : nat -> R) (t : nat -> nat -> R) :
  rsum 3 (fun m => a m * rsum 3 (fun n => b n * t m n)) = rsum 3 (fun n => b n * rsum 3 (fun m => a m * t m n)).
Proof.
  rewrite (rsum_ext 3 _ (fun m => rsum 3 (fun n => a m * (b n * t m n)))) by (intros; rewrite rsum_mul_l; reflexivity).
  rewrite rsum_swap. apply rsum_ext. intros n _. rewrite <- rsum_mul_l. apply rsum_ext. intros; ring.
Qed.
Lemma comp_gen (a : nat -> R) (b : matrix) (t : nat -> R) :
  rsum 3 (fun m => a m * rsum 3 (fun n => b m n * t n)) = rsum 3 (fun n => rsum 3 (fun m => a m * b m n) * t n).
Proof.
  rewrite (rsum_ext 3 _ (fun m => rsum 3 (fun n => a m * (b m n * t n)))) by (intros; rewrite rsum_mul_l; reflexivity).
  rewrite rsum_swap. apply rsum_ext. intros n _. rewrite <- rsum_mul_r. apply rsum_ext. intros; ring.
Qed.
Lemma op12 a b t : op1 a (op2 b t) = op2 b (op1 a t). Proof. fe4. exact (comm_gen (a i) (b j) (fun m n => t m n k l)). Qed.
Lemma op13 a b t : op1 a (op3 b t) = op3 b (op1 a t). Proof. fe4. exact (comm_gen (a i) (b k) (fun m n => t m j n l)). Qed.
Lemma op14 a b t : op1 a (op4 b t) = op4 b (op1 a t). Proof. fe4. exact (comm_gen (a i) (b l) (fun m n => t m j k n)). Qed.
Lemma op23 a b t : op2 a (op3 b t) = op3 b (op2 a t). Proof. fe4. exact (comm_gen (a j) (b k) (fun m n => t i m n l)). Qed.
Lemma op24 a b t : op2 a (op4 b t) = op4 b (op2 a t). Proof. fe4. exact (comm_gen (a j) (b l) (fun m n => t i m k n)). Qed.
Lemma op34 a b t : op3 a (op4 b t) = op4 b (op3 a t). Proof. fe4. exact (comm_gen (a k) (b l) (fun m n => t i j m n)). Qed.
Lemma op11 a b t : op1 a (op1 b t) = op1 (mmul 3 a b) t. Proof. fe4. exact (comp_gen (a i) b (fun n => t n j k l)). Qed.
Lemma op22 a b t : op2 a (op2 b t) = op2 (mmul 3 a b) t. Proof. fe4. exact (comp_gen (a j) b (fun n => t i n k l)). Qed.
Lemma op33 a b t : op3 a (op3 b t) = op3 (mmul 3 a b) t. Proof. fe4. exact (comp_gen (a k) b (fun n => t i j n l)). Qed.
Lemma op44 a b t : op4 a (op4 b t) = op4 (mmul 3 a b) t. Proof. fe4. exact (comp_gen (a l) b (fun n => t i j k n)). Qed.

Lemma rot_sum_ext r t t' i j k l : (forall i j k l, q3 (i, j, k, l) -> t i j k l = t' i j k l) -> rot_sum r t i j k l = rot_sum r t' i j k l.
Proof.
  intros H. unfold rot_sum. apply rsum_ext; intros m Hm. apply rsum_ext; intros n Hn. apply rsum_ext; intros p Hp. apply rsum_ext; intros q Hq.
  rewrite (H m n p q) by (repeat split; assumption). reflexivity.
Qed.

Lemma rot_comp a b t i j k l : rot_sum a (rot_sum b t) i j k l = rot_sum (mmul 3 a b) t i j k l.
Proof.
  rewrite !rot_ops. assert (E : rot_sum b t = op1 b (op2 b (op3 b (op4 b t)))) by (fe4; apply rot_ops). rewrite E.
  rewrite <- op14, <- op13, <- op12, op11. rewrite <- op24, <- op23, op22. rewrite <- op34, op33, op44. reflexivity.
Qed.

Theorem rotate_composes a b t i j k l : q3 (i, j, k, l) ->
  rat (rotate a (rotate b t)) i j k l = rat (rotate (mmul 3 a b) t) i j k l.
Proof.
  intros H. rewrite !rat_rotate by exact H. rewrite (rot_sum_ext a (rat (rotate b t)) (rot_sum b (rat t))).
  - apply rot_comp.
  - intros. apply rat_rotate. assumption.
Qed.

Theorem rotate_sym_first r t : sym_first (rat t) -> sym_first (rat (rotate r t)).
Proof.
  intros H i j k l Hi Hj Hk Hl. rewrite !rat_rotate by (repeat split; assumption). unfold rot_sum. rewrite rsum_swap.
  apply rsum_ext; intros n Hn. apply rsum_ext; intros m Hm. apply rsum_ext; intros p Hp. apply rsum_ext; intros q Hq.
  rewrite (H m n p q) by assumption. ring.
Qed.
Theorem rotate_sym_last r t : sym_last (rat t) -> sym_last (rat (rotate r t)).
Proof.
  intros H i j k l Hi Hj Hk Hl. rewrite !rat_rotate by (repeat split; assumption). unfold rot_sum.
  apply rsum_ext; intros n Hn. apply rsum_ext; intros m Hm. rewrite rsum_swap. apply rsum_ext; intros p Hp. apply rsum_ext; intros q Hq.
  rewrite (H n m q p) by assumption. ring.
Qed.
Lemma swap_pairs (f : nat -> nat -> nat -> nat -> R) :
  rsum 3 (fun m => rsum 3 (fun n => rsum 3 (fun p => rsum 3 (fun q => f m n p q))))
  = rsum 3 (fun p => rsum 3 (fun q => rsum 3 (fun m => rsum 3 (fun n => f m n p q)))).
Proof. cbn [rsum]. ring. Qed.
Theorem rotate_sym_major r t : sym_major (rat t) -> sym_major (rat (rotate r t)).
Proof.
  intros H i j k l Hi Hj Hk Hl. rewrite !rat_rotate by (repeat split; assumption). unfold rot_sum. rewrite swap_pairs.
  apply rsum_ext; intros p Hp. apply rsum_ext; intros q Hq. apply rsum_ext; intros m Hm. apply rsum_ext; intros n Hn.
  rewrite (H m n p q) by assumption. ring.
Qed.

(** Contraction is covariant. *)
Lemma orth_cols r : orthogonal r -> forall p m, (p < 3)%nat -> (m < 3)%nat -> rsum 3 (fun k => r k p * r k m) = kron p m.
Proof. intros [_ H] p m Hp Hm. exact (H p m Hp Hm). Qed.
Lemma orth_rows r : orthogonal r -> forall p m, (p < 3)%nat -> (m < 3)%nat -> rsum 3 (fun k => r p k * r m k) = kron p m.
Proof. intros [H _] p m Hp Hm. exact (H p m Hp Hm). Qed.

Lemma inner_rot r (x y : nat -> R) : orthogonal r ->
  rsum 3 (fun k => rsum 3 (fun p => r k p * x p) * rsum 3 (fun m => r k m * y m)) = rsum 3 (fun p => x p * y p).
Proof.
  intros Ho. transitivity (rsum 3 (fun p => rsum 3 (fun m => rsum 3 (fun k => r k p * r k m) * (x p * y m)))).
  - cbn [rsum]. ring.
  - apply rsum_ext; intros p Hp. rewrite (rsum_ext 3 _ (fun m => kron p m * (x p * y m))).
    + exact (rsum_kron_l' 3 p (fun m => x p * y m) Hp).
    + intros m Hm. rewrite (orth_cols r Ho p m Hp Hm). reflexivity.
Qed.
Lemma rotated2_nested r e k l : rotated2 r e k l = rsum 3 (fun p => r k p * rsum 3 (fun q => r l q * e p q)).
Proof. unfold rotated2. apply rsum_ext; intros p _. rewrite <- rsum_mul_l. apply rsum_ext; intros; ring. Qed.
Lemma contract_rot r (t2 e : matrix) : orthogonal r ->
  rsum 3 (fun k => rsum 3 (fun l => rotated2 r t2 k l * rotated2 r e k l)) = rsum 3 (fun p => rsum 3 (fun q => t2 p q * e p q)).
Proof.
  intros Ho. rewrite rsum_swap.
  rewrite (rsum_ext 3 _ (fun l => rsum 3 (fun p => rsum 3 (fun q => r l q * t2 p q) * rsum 3 (fun q => r l q * e p q)))).
  - rewrite rsum_swap. apply rsum_ext; intros p Hp. exact (inner_rot r (fun q => t2 p q) (fun q => e p q) Ho).
  - intros l Hl. rewrite (rsum_ext 3 _ (fun k => rsum 3 (fun p => r k p * rsum 3 (fun q => r l q * t2 p q)) * rsum 3 (fun p => r k p * rsum 3 (fun q => r l q * e p q))))
      by (intros; rewrite !rotated2_nested; reflexivity).
    exact (inner_rot r (fun p => rsum 3 (fun q => r l q * t2 p q)) (fun p => rsum 3 (fun q => r l q * e p q)) Ho).
Qed.

Lemma rot_sum_pairs r t i j k l :
  rot_sum r t i j k l = rotated2 r (fun p q => rotated2 r (fun m n => t m n p q) i j) k l.
Proof.
  unfold rot_sum, rotated2. rewrite swap_pairs. apply rsum_ext; intros p _. apply rsum_ext; intros q _.
  rewrite <- rsum_mul_l. apply rsum_ext; intros m _. rewrite <- rsum_mul_l. apply rsum_ext; intros n _. ring.
Qed.

Theorem contraction_covariant r t e i j : orthogonal r -> (i < 3)%nat -> (j < 3)%nat ->
  contract_last (rotate r t) (rotated2 r e) i j = rotated2 r (contract_last t e) i j.
Proof.
  intros Ho Hi Hj. unfold contract_last.
  rewrite (rsum_ext 3 _ (fun k => rsum 3 (fun l => rotated2 r (fun p q => rotated2 r (fun m n => rat t m n p q) i j) k l * rotated2 r e k l))).
  - rewrite contract_rot by exact Ho. unfold rotated2.
    transitivity (rsum 3 (fun p => rsum 3 (fun q => rsum 3 (fun m => rsum 3 (fun n => r i m * r j n * (rat t m n p q * e p q)))))).
    + apply rsum_ext; intros p _. apply rsum_ext; intros q _. rewrite <- rsum_mul_r. apply rsum_ext; intros m _.
      rewrite <- rsum_mul_r. apply rsum_ext; intros n _. ring.
    + rewrite (swap_pairs (fun p q m n => r i m * r j n * (rat t m n p q * e p q))). apply rsum_ext; intros m _. apply rsum_ext; intros n _.
      rewrite <- rsum_mul_l. apply rsum_ext; intros p _. rewrite <- rsum_mul_l. reflexivity.
  - intros k Hk. apply rsum_ext; intros l Hl. rewrite rat_rotate by (repeat split; assumption). rewrite rot_sum_pairs. reflexivity.
Qed.

Lemma energy_contract (t : rank4) e : energy_density (rat t) e = / 2 * rsum 3 (fun i => rsum 3 (fun j => e i j * contract_last t e i j)).
Proof.
  unfold energy_density, contract_last. replace 0.5 with (/ 2) by lra. f_equal. apply rsum_ext; intros i _. apply rsum_ext; intros j _.
  rewrite <- rsum_mul_l. apply rsum_ext; intros k _. rewrite <- rsum_mul_l. apply rsum_ext; intros l _. ring.
Qed.
Theorem energy_invariant r t e : orthogonal r -> energy_density (rat (rotate r t)) (rotated2 r e) = energy_density (rat t) e.
Proof.
  intros Ho. rewrite !energy_contract. f_equal. rewrite <- (contract_rot r e (contract_last t e) Ho).
  apply rsum_ext; intros i Hi. apply rsum_ext; intros j Hj. rewrite contraction_covariant by assumption. reflexivity.
Qed.

(** ** Isotropic tensors *)
Lemma isotropic_at b v i j k l : q3 (i, j, k, l) ->
  rat (isotropic b v) i j k l = (b - 2 * shear_modulus b v / 3) * (kron i j * kron k l) + shear_modulus b v * (kron i k * kron j l + kron i l * kron j k).
Proof.
  intros H. unfold isotropic. rewrite rat_fill by exact H. unfold kron.
  destruct (Nat.eqb i j), (Nat.eqb k l), (Nat.eqb i k), (Nat.eqb j l), (Nat.eqb i l), (Nat.eqb j k); cbn [andb]; ring.
Qed.
Theorem isotropic_symmetric b v : sym_first (rat (isotropic b v)) /\ sym_last (rat (isotropic b v)) /\ sym_major (rat (isotropic b v)).
Proof.
  split; [|split]; intros i j k l Hi Hj Hk Hl; rewrite !isotropic_at by (repeat split; assumption);
  rewrite ?(kron_sym j i), ?(kron_sym l k), ?(kron_sym k i), ?(kron_sym l j), ?(kron_sym l i), ?(kron_sym k j); ring.
Qed.

Lemma rot_sum_linear r x y t u v i j k l :
  rot_sum r (fun i j k l => x * t i j k l + y * (u i j k l + v i j k l)) i j k l
  = x * rot_sum r t i j k l + y * (rot_sum r u i j k l + rot_sum r v i j k l).
Proof.
  rewrite !rot_ops. unfold op1, op2, op3, op4.
  assert (L : forall (a : nat -> R) f g h, rsum 3 (fun m => a m * (x * f m + y * (g m + h m))) = x * rsum 3 (fun m => a m * f m) + y * (rsum 3 (fun m => a m * g m) + rsum 3 (fun m => a m * h m)))
    by (intros; cbn [rsum]; ring).
  rewrite <- L. apply rsum_ext; intros m _. f_equal. rewrite <- L. apply rsum_ext; intros n _. f_equal. rewrite <- L.
  apply rsum_ext; intros p _. f_equal. exact (L (r l) _ _ _).
Qed.

Lemma rot_kron r : orthogonal r -> forall i j, (i < 3)%nat -> (j < 3)%nat -> rsum 3 (fun m => r i m * rsum 3 (fun n => r j n * kron m n)) = kron i j.
Proof.
  intros Ho i j Hi Hj. rewrite <- (orth_rows r Ho i j Hi Hj). apply rsum_ext; intros m Hm. f_equal.
  rewrite (rsum_ext 3 _ (fun n => kron m n * r j n)) by (intros; ring). exact (rsum_kron_l' 3 m (fun n => r j n) Hm).
Qed.
Lemma kron2_gen r : orthogonal r -> forall i j k l, q3 (i, j, k, l) ->
  rsum 3 (fun m => r i m * rsum 3 (fun n => r j n * rsum 3 (fun p => r k p * rsum 3 (fun q => r l q * (kron m n * kron p q))))) = kron i j * kron k l.
Proof.
  intros Ho i j k l (Hi & Hj & Hk & Hl).
  rewrite <- (rot_kron r Ho i j Hi Hj), <- (rot_kron r Ho k l Hk Hl). rewrite <- rsum_mul_r. apply rsum_ext; intros m _.
  rewrite Rmult_assoc, <- rsum_mul_r. f_equal. apply rsum_ext; intros n _. rewrite Rmult_assoc. f_equal. rewrite <- rsum_mul_l.
  apply rsum_ext; intros p _. rewrite <- !rsum_mul_l. apply rsum_ext; intros q _. ring.
Qed.

Theorem isotropic_invariant r b v i j k l : orthogonal r -> q3 (i, j, k, l) ->
  rat (rotate r (isotropic b v)) i j k l = rat (isotropic b v) i j k l.
Proof.
  intros Ho H. rewrite rat_rotate by exact H. rewrite isotropic_at by exact H.
  rewrite (rot_sum_ext r _ _ i j k l (isotropic_at b v)), rot_sum_linear. destruct H as (Hi & Hj & Hk & Hl). f_equal; f_equal; [|f_equal].
  - rewrite rot_ops. exact (kron2_gen r Ho i j k l (conj Hi (conj Hj (conj Hk Hl)))).
  - rewrite <- (kron2_gen r Ho i k j l) by (repeat split; assumption). rewrite rot_ops. unfold op1, op2, op3, op4.
    apply rsum_ext; intros m _. f_equal. exact (comm_gen (r j) (r k) (fun n p => rsum 3 (fun q => r l q * (kron m p * kron n q)))).
  - rewrite <- (kron2_gen r Ho i l j k) by (repeat split; assumption). rewrite rot_ops. unfold op1, op2, op3, op4.
    apply rsum_ext; intros m _. f_equal.
    rewrite (rsum_ext 3 _ (fun n => r j n * rsum 3 (fun q => r l q * rsum 3 (fun p => r k p * (kron m q * kron n p))))).
    + exact (comm_gen (r j) (r l) (fun n q => rsum 3 (fun p => r k p * (kron m q * kron n p)))).
    + intros n _. f_equal. exact (comm_gen (r k) (r l) (fun p q => kron m q * kron n p)).
Qed.

(** Energy of an isotropic body. *)
Theorem isotropic_energy b v e : (forall i j, (i < 3)%nat -> (j < 3)%nat -> e i j = e j i) ->
  energy_density (rat (isotropic b v)) e
  = / 2 * (b - 2 * shear_modulus b v / 3) * (rsum 3 (fun i => e i i)) ^ 2 + shear_modulus b v * rsum 3 (fun i => rsum 3 (fun j => e i j ^ 2)).
Proof.
  intros Hs. unfold energy_density.
  assert (E : forall i j k l, q3 (i,j,k,l) -> rat (isotropic b v) i j k l = (b - 2 * shear_modulus b v / 3) * (kron i j * kron k l) + shear_modulus b v * (kron i k * kron j l + kron i l * kron j k))
    by (intros; apply isotropic_at; assumption).
  set (lam := b - 2 * shear_modulus b v / 3) in *. set (mu := shear_modulus b v) in *. clearbody lam mu.
  rewrite (rsum_ext 3 _ (fun i => rsum 3 (fun j => rsum 3 (fun k => rsum 3 (fun l => (lam * (kron i j * kron k l) + mu * (kron i k * kron j l + kron i l * kron j k)) * e i j * e k l)))))
   by (intros i Hi; apply rsum_ext; intros j Hj; apply rsum_ext; intros k Hk; apply rsum_ext; intros l Hl; rewrite E by (repeat split; assumption); reflexivity).
  unfold kron. cbn [rsum Nat.eqb]. 
  rewrite (Hs 1%nat 0%nat), (Hs 2%nat 0%nat), (Hs 2%nat 1%nat) by lia.
  replace 0.5 with (/ 2) by lra. field.
Qed.

Lemma shear_pos b v : 0 < b -> -1 < v < 1 / 2 -> 0 < shear_modulus b v.
Proof.
  intros Hb [H1 H2]. unfold shear_modulus. apply Rmult_lt_0_compat; [|apply Rinv_0_lt_compat; lra].
  apply Rmult_lt_0_compat; lra.
Qed.
Lemma iso_energy_squares b mu (e : matrix) :
  / 2 * (b - 2 * mu / 3) * rsum 3 (fun i => e i i) ^ 2 + mu * rsum 3 (fun i => rsum 3 (fun j => e i j ^ 2))
    = / 2 * b * (ent e 0 0 + ent e 1 1 + ent e 2 2) ^ 2
      + mu / 3 * ((ent e 0 0 - ent e 1 1) ^ 2 + (ent e 1 1 - ent e 2 2) ^ 2 + (ent e 2 2 - ent e 0 0) ^ 2)
      + mu * (ent e 0 1 ^ 2 + ent e 1 0 ^ 2 + ent e 0 2 ^ 2 + ent e 2 0 ^ 2 + ent e 1 2 ^ 2 + ent e 2 1 ^ 2).
Proof. unfold ent. cbn [rsum]. field. Qed.

Theorem isotropic_energy_positive b v e : 0 < b -> -1 < v < 1 / 2 -> (forall i j, (i < 3)%nat -> (j < 3)%nat -> e i j = e j i) ->
  0 <= energy_density (rat (isotropic b v)) e /\
  (energy_density (rat (isotropic b v)) e = 0 -> forall i j, (i < 3)%nat -> (j < 3)%nat -> e i j = 0).
Proof.
  intros Hb Hv Hs. rewrite isotropic_energy by exact Hs. assert (Hm := shear_pos b v Hb Hv). set (mu := shear_modulus b v) in *. clearbody mu.
  rewrite iso_energy_squares.
  assert (P : forall x, 0 <= x ^ 2) by (intros; apply pow2_ge_0).
  set (x1 := ent e 0 0 + ent e 1 1 + ent e 2 2). set (x2 := ent e 0 0 - ent e 1 1). set (x3 := ent e 1 1 - ent e 2 2). set (x4 := ent e 2 2 - ent e 0 0).
  assert (A1 : 0 <= / 2 * b * x1 ^ 2) by (apply Rmult_le_pos; [lra|apply P]).
  assert (A2 : 0 <= mu / 3 * (x2 ^ 2 + x3 ^ 2 + x4 ^ 2)) by (apply Rmult_le_pos; [lra|assert (H1 := P x2); assert (H2 := P x3); assert (H3 := P x4); lra]).
  set (off := ent e 0 1 ^ 2 + ent e 1 0 ^ 2 + ent e 0 2 ^ 2 + ent e 2 0 ^ 2 + ent e 1 2 ^ 2 + ent e 2 1 ^ 2).
  assert (Ho : 0 <= off) by (unfold off; assert (H1 := P (ent e 0 1)); assert (H2 := P (ent e 1 0)); assert (H3 := P (ent e 0 2)); assert (H4 := P (ent e 2 0)); assert (H5 := P (ent e 1 2)); assert (H6 := P (ent e 2 1)); lra).
  assert (A3 : 0 <= mu * off) by (apply Rmult_le_pos; lra).
  split; [lra|]. intros Z.
  assert (Z1 : x1 ^ 2 = 0) by (apply Rmult_eq_reg_l with (/ 2 * b); lra).
  assert (Z2 : x2 ^ 2 + x3 ^ 2 + x4 ^ 2 = 0) by (apply Rmult_eq_reg_l with (mu / 3); lra).
  assert (Z3 : off = 0) by (apply Rmult_eq_reg_l with mu; lra).
  assert (S : forall x, x ^ 2 <= 0 -> x = 0) by (intros x Hx; assert (H := P x); assert (x ^ 2 = 0) by lra; nra).
  assert (B1 : x1 = 0) by (apply S; lra).
  assert (H1 := P x2); assert (H2 := P x3); assert (H3 := P x4).
  assert (B2 : x2 = 0) by (apply S; lra). assert (B3 : x3 = 0) by (apply S; lra).
  unfold off in Z3.
  assert (K1 := P (ent e 0 1)); assert (K2 := P (ent e 1 0)); assert (K3 := P (ent e 0 2)); assert (K4 := P (ent e 2 0)); assert (K5 := P (ent e 1 2)); assert (K6 := P (ent e 2 1)).
  assert (O1 : ent e 0 1 = 0) by (apply S; lra). assert (O2 : ent e 1 0 = 0) by (apply S; lra). assert (O3 : ent e 0 2 = 0) by (apply S; lra).
  assert (O4 : ent e 2 0 = 0) by (apply S; lra). assert (O5 : ent e 1 2 = 0) by (apply S; lra). assert (O6 : ent e 2 1 = 0) by (apply S; lra).
  unfold x1, x2, x3 in *.
  intros [|[|[|i]]] [|[|[|j]]] Hi Hj; try lia;
    match goal with |- e ?a ?b = 0 => change (ent e a b = 0) end; first [assumption | lra].
Qed.

(** ** Cubic tensors *)
Theorem cubic_major c11 c12 c44 : sym_major (rat (cubic_material c11 c12 c44)).
Proof.
  intros [|[|[|i]]] [|[|[|j]]] [|[|[|k]]] [|[|[|l]]] Hi Hj Hk Hl; try lia; reflexivity.
Qed.
Theorem cubic_entries c11 c12 c44 i j : (i < 3)%nat -> (j < 3)%nat -> i <> j ->
  rat (cubic_material c11 c12 c44) i i i i = c11 /\ rat (cubic_material c11 c12 c44) i i j j = c12 /\
  rat (cubic_material c11 c12 c44) i j i j = c44 /\ rat (cubic_material c11 c12 c44) i j j i = 0.
Proof.
  intros Hi Hj Hne. destruct i as [|[|[|i]]], j as [|[|[|j]]]; try lia; repeat split; reflexivity.
Qed.

(** ** Voigt *)
Definition voigt_spec (voigt : list R) : list R :=
  map (fun q => let '(i, j, k, l) := q in nth (6 * voigt_number i j + voigt_number k l) voigt 0) quads.
Definition all_entries (t : rank4) : list R := map (fun q => let '(i, j, k, l) := q in rat t i j k l) quads.

Lemma voigt_short voigt : (length voigt <= 36)%nat ->
  exists t, from_flat_voigt voigt = Some t /\ all_entries t = voigt_spec voigt.
Proof.
  intros H.
  do 37 (destruct voigt as [|? voigt]; [eexists; split; [cbv [from_flat_voigt length seq fold_left voigt_entry voigt_map Nat.div Nat.divmod Nat.modulo fst snd Nat.sub]; reflexivity|vm_compute; reflexivity]|]).
  cbn [length] in H. lia.
Qed.

Lemma map_eq_in {A B} (f g : A -> B) L : map f L = map g L -> forall x, In x L -> f x = g x.
Proof.
  induction L as [|a L IH]; intros E x [].
  - subst. cbn in E. injection E as E _. exact E.
  - cbn in E. injection E as _ E. exact (IH E x H).
Qed.
Theorem voigt_at voigt : (length voigt <= 36)%nat ->
  exists t, from_flat_voigt voigt = Some t /\
    forall i j k l, (i < 3)%nat -> (j < 3)%nat -> (k < 3)%nat -> (l < 3)%nat ->
      rat t i j k l = nth (6 * voigt_number i j + voigt_number k l) voigt 0.
Proof.
  intros H. destruct (voigt_short voigt H) as (t & E & A). exists t. split; [exact E|]. intros i j k l Hi Hj Hk Hl.
  assert (Hq : In (i, j, k, l) quads) by (apply quads_all; repeat split; assumption).
  exact (map_eq_in _ _ quads A (i, j, k, l) Hq).
Qed.
Lemma voigt_number_sym i j : voigt_number i j = voigt_number j i.
Proof. unfold voigt_number. rewrite (Nat.eqb_sym j i). destruct (Nat.eqb_spec i j); lia. Qed.
Theorem voigt_minor voigt t : (length voigt <= 36)%nat -> from_flat_voigt voigt = Some t -> sym_first (rat t) /\ sym_last (rat t).
Proof.
  intros H E. destruct (voigt_at voigt H) as (t' & E' & A). rewrite E in E'. injection E' as <-.
  split; intros i j k l Hi Hj Hk Hl; rewrite !A by assumption; f_equal; rewrite ?(voigt_number_sym j i), ?(voigt_number_sym l k); reflexivity.
Qed.
Theorem voigt_major voigt t : (length voigt <= 36)%nat -> from_flat_voigt voigt = Some t ->
  (forall p q, (p < 6)%nat -> (q < 6)%nat -> nth (6 * p + q) voigt 0 = nth (6 * q + p) voigt 0) -> sym_major (rat t).
Proof.
  intros H E S. destruct (voigt_at voigt H) as (t' & E' & A). rewrite E in E'. injection E' as <-.
  assert (V : forall i j, (i < 3)%nat -> (j < 3)%nat -> (voigt_number i j < 6)%nat)
    by (intros i j Hi Hj; unfold voigt_number; destruct (Nat.eqb_spec i j); lia).
  intros i j k l Hi Hj Hk Hl. rewrite !A by assumption. apply S; apply V; assumption.
Qed.
Theorem voigt_too_long voigt : (36 < length voigt)%nat -> from_flat_voigt voigt = None.
Proof.
  intros H. unfold from_flat_voigt. replace (length voigt) with (36 + S (length voigt - 37))%nat by lia.
  rewrite seq_app, fold_left_app. cbn [seq fold_left Nat.add].
  assert (N : forall t, voigt_entry voigt t 36 = None) by (intros [t|]; reflexivity). rewrite N.
  induction (seq 37 (length voigt - 37)) as [|a L IH]; [reflexivity|exact IH].
Qed.

(** ** Rotation matrices *)
Theorem rotation_orthogonal angle axis : (axis < 3)%nat -> orthogonal (rotation_matrix angle axis) /\ det3 (rotation_matrix angle axis) = 1.
Proof.
  intros H. assert (P := sin2_cos2 angle). unfold Rsqr in P. set (c := cos angle) in *. set (s := sin angle) in *.
  split; [split|]; destruct axis as [|[|[|axis]]]; try lia;
  unfold det3, ent, mmul, mtrans, kron, rotation_matrix, mset, mzero; fold c; fold s; clearbody c s;
  try (intros [|[|[|i]]] [|[|[|j]]] Hi Hj; try lia); cbn [rsum Nat.eqb andb]; lra.
Qed.
Theorem rotation_adds a b axis : (axis < 3)%nat -> meq_on 3 (mmul 3 (rotation_matrix a axis) (rotation_matrix b axis)) (rotation_matrix (a + b) axis).
Proof.
  intros H. destruct axis as [|[|[|axis]]]; try lia; intros [|[|[|i]]] [|[|[|j]]] Hi Hj; try lia;
  unfold mmul, rotation_matrix, mset, mzero; cbn [rsum Nat.eqb andb]; rewrite ?cos_plus, ?sin_plus; ring.
Qed.

(** ** Displacements *)
Lemma tiny_false x : / 10 ^ 10 <= Rabs x -> tiny x = false.
Proof. intros H. unfold tiny. destruct (Rlt_dec _ _); [lra|reflexivity]. Qed.
Lemma regular_not_tiny f : (exists i, (i < 3)%nat /\ / 10 ^ 10 <= Rabs (f i)) -> tiny (f 0%nat) && tiny (f 1%nat) && tiny (f 2%nat) = false.
Proof.
  intros (i & Hi & H). apply tiny_false in H. destruct i as [|[|[|i]]]; try lia; rewrite H; rewrite ?Bool.andb_false_r, ?Bool.andb_false_l; reflexivity.
Qed.

Theorem displacement_solves solve c f force m : solves solve -> (exists i, (i < 3)%nat /\ / 10 ^ 10 <= Rabs (f i)) ->
  det3 (displacement_matrix c f) <> 0 -> (m < 3)%nat ->
  csum 3 (fun n => csum 3 (fun j => csum 3 (fun l => Cmul (RtoC (c m j n l * (2 * PI * f j) * (2 * PI * f l))) (displacement solve c f force n)))) = force m.
Proof.
  intros Hs Hf Hd Hm. unfold displacement. rewrite regular_not_tiny by exact Hf.
  set (b := fun (i col : nat) => match col with O => Re (force i) | S _ => Im (force i) end).
  set (x := solve (displacement_matrix c f) b).
  assert (S0 := Hs _ b Hd m 0%nat Hm). assert (S1 := Hs _ b Hd m 1%nat Hm). fold x in S0, S1.
  transitivity (csum 3 (fun n => Cmul (RtoC (displacement_matrix c f m n)) (x n 0%nat, x n 1%nat))).
  - apply csum_ext; intros n Hn. unfold displacement_matrix.
    apply C_eq; rewrite ?csum_re, ?csum_im.
    + cbn [rsum csum Re Im Cadd Cmul RtoC C0 fst snd]. ring.
    + cbn [rsum csum Re Im Cadd Cmul RtoC C0 fst snd]. ring.
  - apply C_eq; rewrite ?csum_re, ?csum_im; [rewrite <- (S0 : _ = Re (force m))|rewrite <- (S1 : _ = Im (force m))];
    apply rsum_ext; intros n Hn; cbn; ring.
Qed.

Theorem displacement_zero solve c force i f : (forall a, (a < 3)%nat -> f a = 0) -> displacement solve c f force i = C0.
Proof.
  intros Hf. unfold displacement. rewrite (Hf 0%nat), (Hf 1%nat), (Hf 2%nat) by lia.
  assert (T : tiny 0 = true).
  { unfold tiny. rewrite Rabs_R0. destruct (Rlt_dec 0 (/ 10 ^ 10)) as [_|N]; [reflexivity|]. exfalso. apply N. apply Rinv_0_lt_compat, pow_lt. lra. }
  rewrite T. reflexivity.
Qed.

Theorem strain_symmetric f u m n : strain f u m n = strain f u n m.
Proof. unfold strain. ring. Qed.

Lemma drop_nyquist_id x : / 10 ^ 10 <= Rabs (Rabs x - 0.5) -> drop_nyquist x = x.
Proof. intros H. unfold drop_nyquist. rewrite tiny_false by exact H. reflexivity. Qed.

Definition grad (f : nat -> R) (a : nat) : C := (0, 2 * PI * f a).

Lemma strain_grad f u k l : regular_frequency f -> (k < 3)%nat -> (l < 3)%nat ->
  strain f u k l = Cmul (RtoC (/ 2)) (Cadd (Cmul (grad f l) (u k)) (Cmul (grad f k) (u l))).
Proof.
  intros [_ H] Hk Hl. unfold strain. rewrite !drop_nyquist_id by (apply H; assumption). unfold grad.
  apply C_eq; cbn [Re Im Cadd Cmul RtoC fst snd]; field.
Qed.

Lemma stiff_grad (c : tensor) f u m j : sym_last c -> regular_frequency f -> (m < 3)%nat -> (j < 3)%nat ->
  csum 3 (fun k => csum 3 (fun l => Cmul (RtoC (c m j k l)) (strain f u k l)))
  = csum 3 (fun k => csum 3 (fun l => Cmul (RtoC (c m j k l)) (Cmul (grad f l) (u k)))).
Proof.
  intros Hs Hf Hm Hj.
  set (A := csum 3 (fun k => csum 3 (fun l => Cmul (RtoC (c m j k l)) (Cmul (grad f l) (u k))))).
  assert (B : csum 3 (fun k => csum 3 (fun l => Cmul (RtoC (c m j k l)) (Cmul (grad f k) (u l)))) = A).
  { rewrite csum_swap. unfold A. apply csum_ext; intros k Hk. apply csum_ext; intros l Hl. rewrite (Hs m j l k) by assumption. reflexivity. }
  transitivity (Cmul (RtoC (/ 2)) (Cadd A A)).
  - rewrite <- B at 2. unfold A. rewrite <- csum_plus, <- csum_mul_l. apply csum_ext; intros k Hk.
    rewrite <- csum_plus, <- csum_mul_l. apply csum_ext; intros l Hl. rewrite strain_grad by assumption. ring.
  - apply C_eq; cbn [Re Im Cadd Cmul RtoC fst snd]; field.
Qed.

Theorem equilibrium solve (t : rank4) misfit f theta m :
  let c := rat t in
  let u := displacement solve c f (fun a => effective_force t misfit 3 a f theta) in
  solves solve -> sym_last c -> regular_frequency f -> det3 (displacement_matrix c f) <> 0 -> (m < 3)%nat ->
  divergence_mode f (stress_mode c (strain f u) misfit theta) m = C0.
Proof.
  intros c u Hs Hl Hf Hd Hm.
  assert (E := displacement_solves solve c f (fun a => effective_force t misfit 3 a f theta) m Hs (proj1 Hf) Hd Hm). fold u in E.
  unfold divergence_mode, stress_mode.
  rewrite (csum_ext 3 _ (fun j => Csub (csum 3 (fun k => csum 3 (fun l => Cmul (grad f j) (Cmul (RtoC (c m j k l)) (Cmul (grad f l) (u k))))))
     (Cmul (grad f j) (Cmul (RtoC (contract_last t misfit m j)) theta)))).
  - rewrite csum_sub.
    assert (E1 : csum 3 (fun j => csum 3 (fun k => csum 3 (fun l => Cmul (grad f j) (Cmul (RtoC (c m j k l)) (Cmul (grad f l) (u k))))))
      = Copp (effective_force t misfit 3 m f theta)).
    { rewrite <- E. rewrite csum_swap. 
      replace (Copp (csum 3 (fun n => csum 3 (fun j => csum 3 (fun l => Cmul (RtoC (c m j n l * (2 * PI * f j) * (2 * PI * f l))) (u n))))))
       with (Cmul (RtoC (-1)) (csum 3 (fun n => csum 3 (fun j => csum 3 (fun l => Cmul (RtoC (c m j n l * (2 * PI * f j) * (2 * PI * f l))) (u n)))))) by csolve.
      rewrite <- csum_mul_l. apply csum_ext; intros k Hk. rewrite <- csum_mul_l. apply csum_ext; intros j Hj. rewrite <- csum_mul_l.
      apply csum_ext; intros l Hl'. unfold grad. csolve. }
    rewrite E1. unfold effective_force. set (st := contract_last t misfit).
    assert (E2 : csum 3 (fun j => Cmul (grad f j) (Cmul (RtoC (st m j)) theta)) = Copp (csum 3 (fun j => Cmul (0, - st m j * 2 * PI * f j) theta))).
    { replace (Copp (csum 3 (fun j => Cmul (0, - st m j * 2 * PI * f j) theta))) with (Cmul (RtoC (-1)) (csum 3 (fun j => Cmul (0, - st m j * 2 * PI * f j) theta))) by csolve.
      rewrite <- csum_mul_l. apply csum_ext; intros j Hj. unfold grad. csolve. }
    rewrite E2. ring.
  - intros j Hj. fold (grad f j).
    rewrite (csum_ext 3 _ (fun k => Csub (csum 3 (fun l => Cmul (RtoC (c m j k l)) (strain f u k l))) (csum 3 (fun l => Cmul (RtoC (c m j k l * misfit k l)) theta)))).
    + rewrite csum_sub, stiff_grad by assumption.
      assert (E3 : csum 3 (fun k => csum 3 (fun l => Cmul (RtoC (c m j k l * misfit k l)) theta)) = Cmul (RtoC (contract_last t misfit m j)) theta).
      { unfold contract_last. fold c. cbn [csum rsum]. rewrite !RtoC_add. replace (RtoC 0) with C0 by reflexivity. ring. }
      rewrite E3. transitivity (Csub (Cmul (grad f j) (csum 3 (fun k => csum 3 (fun l => Cmul (RtoC (c m j k l)) (Cmul (grad f l) (u k))))))
        (Cmul (grad f j) (Cmul (RtoC (contract_last t misfit m j)) theta))); [ring|]. f_equal.
      rewrite <- csum_mul_l. apply csum_ext; intros k Hk. rewrite <- csum_mul_l. reflexivity.
    + intros k Hk. rewrite <- csum_sub. apply csum_ext; intros l Hl'. rewrite RtoC_mul. ring.
Qed.

(** Isotropic bodies: the matrix is regular. *)
Lemma matrix_iso b v f i j : (i < 3)%nat -> (j < 3)%nat -> displacement_matrix (rat (isotropic b v)) f i j
  = ((b + shear_modulus b v / 3) * (f i * f j) + shear_modulus b v * kron i j * rsum 3 (fun a => f a ^ 2)) * (2 * PI) ^ 2.
Proof.
  intros Hi Hj. unfold displacement_matrix. f_equal.
  rewrite (rsum_ext 3 _ (fun a => rsum 3 (fun c => ((b - 2 * shear_modulus b v / 3) * (kron i a * kron j c) + shear_modulus b v * (kron i j * kron a c + kron i c * kron a j)) * f a * f c)))
    by (intros a Ha; apply rsum_ext; intros c Hc; rewrite isotropic_at by (repeat split; assumption); reflexivity).
  set (mu := shear_modulus b v). clearbody mu. unfold kron.
  destruct i as [|[|[|i]]], j as [|[|[|j]]]; try lia; cbn [rsum Nat.eqb]; field.
Qed.
Theorem isotropic_det b v f : det3 (displacement_matrix (rat (isotropic b v)) f)
  = (2 * PI) ^ 6 * shear_modulus b v ^ 2 * (b + 4 * shear_modulus b v / 3) * rsum 3 (fun a => f a ^ 2) ^ 3.
Proof.
  unfold det3, ent. rewrite !matrix_iso by lia. set (mu := shear_modulus b v). clearbody mu. unfold kron. cbn [Nat.eqb rsum]. field.
Qed.
Theorem isotropic_regular b v f : 0 < b -> -1 < v < 1 / 2 -> (exists i, (i < 3)%nat /\ f i <> 0) ->
  det3 (displacement_matrix (rat (isotropic b v)) f) <> 0.
Proof.
  intros Hb Hv (i & Hi & Hf). rewrite isotropic_det. assert (Hm := shear_pos b v Hb Hv). assert (HP := PI_RGT_0).
  assert (N : 0 < rsum 3 (fun a => f a ^ 2)).
  { assert (0 <= rsum 3 (fun a => f a ^ 2)) by (apply rsum_nonneg; intros; apply pow2_ge_0).
    destruct (Req_dec (rsum 3 (fun a => f a ^ 2)) 0) as [Z|]; [|lra]. exfalso. apply Hf. apply (rsum_sq_zero 3 f); [|exact Hi].
    rewrite <- Z. apply rsum_ext; intros; ring. }
  assert (A1 : 0 < (2 * PI) ^ 6) by (apply pow_lt; lra). assert (A2 : 0 < shear_modulus b v ^ 2) by (apply pow_lt; lra).
  assert (A3 : 0 < rsum 3 (fun a => f a ^ 2) ^ 3) by (apply pow_lt; lra). assert (A4 : 0 < b + 4 * shear_modulus b v / 3) by lra.
  apply Rgt_not_eq. apply Rmult_lt_0_compat; [apply Rmult_lt_0_compat; [apply Rmult_lt_0_compat|]|]; assumption.
Qed.

(** Cramer's rule. *)
Definition with_col (a : matrix) (col : nat) (b : nat -> R) : matrix := fun i j => if Nat.eqb j col then b i else a i j.
Definition cramer (a b : matrix) : matrix := fun j col => det3 (with_col a j (fun i => b i col)) / det3 a.
Theorem cramer_solves : solves cramer.
Proof.
  intros a b Hd i col Hi. unfold cramer. set (d := det3 a) in *.
  transitivity (/ d * rsum 3 (fun j => a i j * det3 (with_col a j (fun i => b i col)))).
  - rewrite <- rsum_mul_l. apply rsum_ext; intros; unfold Rdiv; ring.
  - transitivity (/ d * (d * b i col)); [|field; exact Hd]. f_equal. unfold d, det3, ent, with_col.
    destruct i as [|[|[|i]]]; try lia; cbn [rsum Nat.eqb]; ring.
Qed.

(** ** Perturbation *)
Theorem perturbed_value n fft ifft freq misfit disp shape c k comp :
  sym_last c -> (forall i j, (i < 3)%nat -> (j < 3)%nat -> misfit i j = misfit j i) -> (comp < 3)%nat ->
  perturbed_force n 3 fft ifft freq misfit disp shape c k comp
  = Copp (csum 3 (fun q => csum 3 (fun i => csum 3 (fun j =>
      Cmul (RtoC (c comp q i j)) (Cmul (0, 2 * PI * freq k comp) (scaled_strain n fft ifft freq misfit disp shape i j k)))))).
Proof.
  intros Hs Hm Hc. 
  assert (S : forall i j, (i < 3)%nat -> (j < 3)%nat -> scaled_strain n fft ifft freq misfit disp shape i j = scaled_strain n fft ifft freq misfit disp shape j i).
  { intros i j Hi Hj. unfold scaled_strain.
    assert (E : (fun k => strain (freq k) (disp k) i j) = (fun k => strain (freq k) (disp k) j i)) by (apply functional_extensionality; intros; apply strain_symmetric).
    rewrite E, (Hm i j) by assumption. reflexivity. }
  unfold perturbed_force. set (T := scaled_strain n fft ifft freq misfit disp shape) in *. clearbody T.
  cbn [pairs_upto flat_map seq map app Nat.sub fold_left loop3 Nat.eqb csum].
  rewrite (S 1%nat 0%nat), (S 2%nat 0%nat), (S 2%nat 1%nat) by lia.
  rewrite !(Hs comp _ 1%nat 0%nat), !(Hs comp _ 2%nat 0%nat), !(Hs comp _ 2%nat 1%nat) by lia.
  apply C_eq; cbn [Re Im Cadd Csub Cmul RtoC Copp C0 fst snd]; ring.
Qed.

Theorem perturbed_zero n dim fft ifft freq misfit disp shape c k comp : freq k comp = 0 ->
  perturbed_force n dim fft ifft freq misfit disp shape c k comp = C0.
Proof.
  intros Hf. unfold perturbed_force. rewrite Hf.
  assert (I : forall s i j y acc, fold_left (fun acc q => Csub acc (Cmul (0, 2 * PI * y * c comp q i j * 0) s)) loop3 acc = acc).
  { intros s i j y acc. cbn [fold_left loop3]. apply C_eq; cbn [Re Im Csub Cmul fst snd]; ring. }
  assert (G : forall L, fold_left (fun acc ij => let '(i, j) := ij in
      let factor := if Nat.eqb i j then 1 else 2 in let s := scaled_strain n fft ifft freq misfit disp shape i j k in
      fold_left (fun acc q => Csub acc (Cmul (0, 2 * PI * factor * c comp q i j * 0) s)) loop3 acc) L C0 = C0).
  { induction L as [|[i j] L IH]; [reflexivity|]. cbn [fold_left]. cbv zeta.
    rewrite (I (scaled_strain n fft ifft freq misfit disp shape i j k) i j (if Nat.eqb i j then 1 else 2) C0). exact IH. }
  apply G.
Qed.
