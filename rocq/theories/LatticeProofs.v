(** Proofs about lattices. *)
From Verif Require Import LatticeModel LatticeSpec.
From Coq Require Import ZArith Zeven.
Open Scope R_scope.

Lemma two_pi : 2 * PI <> 0.
Proof. assert (H := PI_RGT_0). lra. Qed.

Theorem duality n c ci i j : is_inverse n c ci -> (i < n)%nat -> (j < n)%nat ->
  rsum n (fun x => c x i * reciprocal ci x j) = 2 * PI * kron i j.
Proof.
  intros [H _] Hi Hj. unfold reciprocal.
  rewrite (rsum_ext n _ (fun x => 2 * PI * (ci j x * c x i))) by (intros; ring).
  rewrite rsum_mul_l. specialize (H j i Hj Hi). unfold mmul in H. rewrite H, kron_sym. reflexivity.
Qed.

Theorem hkl_duality n c ci m j : n = 2%nat \/ n = 3%nat -> is_inverse n c ci -> (j < n)%nat ->
  rsum n (fun x => hkl_vector n (reciprocal ci) m x * c x j) = 2 * PI * IZR (miller_at m j).
Proof.
  intros Hn Hinv Hj. destruct m as [[h k] l].
  assert (D : forall i, (i < n)%nat -> rsum n (fun x => c x j * reciprocal ci x i) = 2 * PI * kron j i)
    by (intros i Hi; apply duality; assumption).
  destruct Hn as [->| ->]; unfold hkl_vector; cbn [Nat.eqb].
  - rewrite (rsum_ext 2 _ (fun x => IZR h * (c x j * reciprocal ci x 0%nat) + IZR k * (c x j * reciprocal ci x 1%nat))) by (intros; ring).
    rewrite rsum_plus, !rsum_mul_l, !D by lia. destruct j as [|[|j]]; [| |lia]; cbn; ring.
  - rewrite (rsum_ext 3 _ (fun x => IZR h * (c x j * reciprocal ci x 0%nat) + IZR k * (c x j * reciprocal ci x 1%nat)
      + IZR l * (c x j * reciprocal ci x 2%nat))) by (intros; ring).
    rewrite !rsum_plus, !rsum_mul_l, !D by lia. destruct j as [|[|[|j]]]; [| | |lia]; cbn; ring.
Qed.

(** First order coefficient. *)
Lemma change_coefficient n c ci d i j : is_inverse n c ci -> (i < n)%nat -> (j < n)%nat ->
  rsum n (fun x => c x i * cell_change n (reciprocal ci) d x j)
  = - mmul n d (reciprocal ci) i j.
Proof.
  intros Hinv Hi Hj. unfold cell_change.
  rewrite (rsum_ext n _ (fun x => - 1 / (2 * PI) * (mtrans c i x * mmul n (reciprocal ci) (mmul n d (reciprocal ci)) x j))).
  2: { intros x _. rewrite mmul_assoc. unfold mtrans. ring. }
  rewrite rsum_mul_l. change (rsum n (fun x => mtrans c i x * mmul n (reciprocal ci) (mmul n d (reciprocal ci)) x j))
    with (mmul n (mtrans c) (mmul n (reciprocal ci) (mmul n d (reciprocal ci))) i j).
  rewrite <- mmul_assoc. unfold mmul at 1.
  rewrite (rsum_ext n _ (fun k => kron i k * (2 * PI * mmul n d (reciprocal ci) k j))).
  - rewrite (rsum_kron_l' n i (fun k => 2 * PI * mmul n d (reciprocal ci) k j)) by exact Hi. field. apply PI_neq0.
  - intros k Hk. assert (E : mmul n (mtrans c) (reciprocal ci) i k = 2 * PI * kron i k) by (apply duality; assumption).
    rewrite E. ring.
Qed.

Lemma recip_cancel n c ci : is_inverse n c ci -> forall a i k, (i < n)%nat -> (k < n)%nat ->
  rsum n (fun j => mmul n a (reciprocal ci) i j * c k j) = 2 * PI * a i k.
Proof.
  intros [_ H] a i k Hi Hk. unfold mmul, reciprocal.
  rewrite (rsum_ext n _ (fun j => rsum n (fun x => 2 * PI * (a i x * (c k j * ci j x))))).
  2: { intros j _. rewrite <- rsum_mul_r. apply rsum_ext. intros; ring. }
  rewrite rsum_swap. rewrite (rsum_ext n _ (fun x => 2 * PI * (kron k x * a i x))).
  - rewrite rsum_mul_l, (rsum_kron_l' n k (fun x => a i x) Hk). reflexivity.
  - intros x Hx. specialize (H k x Hk Hx). unfold mmul in H. rewrite <- H, <- rsum_mul_r, <- rsum_mul_l.
    apply rsum_ext. intros; ring.
Qed.

Theorem change_first_order n c ci d : is_inverse n c ci ->
  (reciprocal_to_first_order n c (reciprocal ci) d (cell_change n (reciprocal ci) d) <-> symmetric_on n d).
Proof.
  intros Hinv. set (m := reciprocal ci). set (dm := cell_change n m d).
  assert (Expand : forall t i j, (i < n)%nat -> (j < n)%nat ->
    rsum n (fun x => (c x i + t * d x i) * (m x j + t * dm x j))
    = 2 * PI * kron i j + t * (mmul n (mtrans d) m i j - mmul n d m i j) + t * t * rsum n (fun x => d x i * dm x j)).
  { intros t i j Hi Hj.
    rewrite (rsum_ext n _ (fun x => c x i * m x j + t * (c x i * dm x j) + t * (mtrans d i x * m x j) + t * t * (d x i * dm x j)))
      by (intros; unfold mtrans; ring).
    rewrite !rsum_plus, !rsum_mul_l. unfold m at 1, dm at 1. rewrite (duality n c ci i j Hinv Hi Hj).
    unfold m at 1. rewrite (change_coefficient n c ci d i j Hinv Hi Hj). fold m. unfold mmul at 2. ring. }
  split.
  - intros [rest H] i k Hi Hk.
    assert (Z : forall j, (j < n)%nat -> mmul n (mtrans d) m i j = mmul n d m i j).
    { intros j Hj. assert (A := H 1 i j Hi Hj). assert (B := H (-1) i j Hi Hj). rewrite Expand in A, B by assumption. lra. }
    assert (E1 := recip_cancel n c ci Hinv (mtrans d) i k Hi Hk). assert (E2 := recip_cancel n c ci Hinv d i k Hi Hk).
    fold m in E1, E2. rewrite (rsum_ext n _ (fun j => mmul n d m i j * c k j)) in E1 by (intros j Hj; rewrite Z by exact Hj; reflexivity).
    rewrite E1 in E2. unfold mtrans in E2. apply Rmult_eq_reg_l with (2 * PI); [lra|apply two_pi].
  - intros Hs. exists (fun i j => rsum n (fun x => d x i * dm x j)). intros t i j Hi Hj. rewrite Expand by assumption.
    assert (E : mmul n (mtrans d) m i j = mmul n d m i j).
    { unfold mmul. apply rsum_ext. intros x Hx. unfold mtrans. rewrite (Hs x i) by assumption. reflexivity. }
    rewrite E. ring.
Qed.

(** ** Predefined cells *)
Ltac cell_compute := cbn [rsum fcc bcc sc3d sc2d triangular2d mset mzero Nat.eqb andb ent].

Lemma volumes a : det3 (fcc a) = a * a * a / 4 /\ det3 (bcc a) = a * a * a / 2 /\ det3 (sc3d a) = a * a * a /\ det2 (sc2d a) = a * a.
Proof. unfold det3, det2, ent, fcc, bcc, sc3d, sc2d, mset, mzero. cbn [Nat.eqb andb]. repeat split; field. Qed.

Definition p3 (x y z : R) (i : nat) : R := match i with O => x | S O => y | _ => z end.

Lemma lp3 c p : lattice_point 3 c p <-> exists u v w : Z,
  p 0%nat = IZR u * c 0%nat 0%nat + IZR v * c 0%nat 1%nat + IZR w * c 0%nat 2%nat /\
  p 1%nat = IZR u * c 1%nat 0%nat + IZR v * c 1%nat 1%nat + IZR w * c 1%nat 2%nat /\
  p 2%nat = IZR u * c 2%nat 0%nat + IZR v * c 2%nat 1%nat + IZR w * c 2%nat 2%nat.
Proof.
  split.
  - intros [z H]. exists (z 0%nat), (z 1%nat), (z 2%nat).
    assert (A := H 0%nat ltac:(lia)). assert (B := H 1%nat ltac:(lia)). assert (C := H 2%nat ltac:(lia)). cbn [rsum] in *.
    repeat split; lra.
  - intros (u & v & w & A & B & C). exists (fun i => match i with O => u | S O => v | _ => w end).
    intros [|[|[|x]]] Hx; try lia; cbn [rsum]; lra.
Qed.

Theorem sc_lattice a p : lattice_point 3 (sc3d a) p <->
  exists x y z : Z, p 0%nat = a * IZR x /\ p 1%nat = a * IZR y /\ p 2%nat = a * IZR z.
Proof.
  rewrite lp3. unfold sc3d, mset, mzero. cbn [Nat.eqb andb]. split; intros (u & v & w & A & B & C); exists u, v, w; repeat split; lra.
Qed.

Theorem fcc_lattice a p : lattice_point 3 (fcc a) p <->
  exists x y z : Z, Z.Even (x + y + z) /\ p 0%nat = a / 2 * IZR x /\ p 1%nat = a / 2 * IZR y /\ p 2%nat = a / 2 * IZR z.
Proof.
  rewrite lp3. unfold fcc, mset, mzero. cbn [Nat.eqb andb]. split.
  - intros (u & v & w & A & B & C). exists (u + w)%Z, (u + v)%Z, (v + w)%Z. split; [exists (u + v + w)%Z; lia|].
    rewrite !plus_IZR. repeat split; lra.
  - intros (x & y & z & [s Hs] & A & B & C). exists (s - z)%Z, (s - x)%Z, (s - y)%Z.
    assert (Ex : (x = (s - z) + (s - y))%Z) by lia. assert (Ey : (y = (s - z) + (s - x))%Z) by lia. assert (Ez : (z = (s - x) + (s - y))%Z) by lia.
    rewrite A, B, C. split; [|split].
    + rewrite Ex at 1. rewrite plus_IZR. lra.
    + rewrite Ey at 1. rewrite plus_IZR. lra.
    + rewrite Ez at 1. rewrite plus_IZR. lra.
Qed.

Theorem bcc_lattice a p : lattice_point 3 (bcc a) p <->
  exists x y z : Z, (Z.Even (x - y) /\ Z.Even (y - z)) /\ p 0%nat = a / 2 * IZR x /\ p 1%nat = a / 2 * IZR y /\ p 2%nat = a / 2 * IZR z.
Proof.
  rewrite lp3. unfold bcc, mset, mzero. cbn [Nat.eqb andb]. split.
  - intros (u & v & w & A & B & C). exists (u - v + w)%Z, (u + v - w)%Z, (u + v + w)%Z.
    split; [split; [exists (w - v)%Z; lia|exists (- w)%Z; lia]|]. rewrite !plus_IZR, !minus_IZR, !plus_IZR. repeat split; lra.
  - intros (x & y & z & [[s Hs] [t Ht]] & A & B & C). exists (y + s)%Z, (- t - s)%Z, (- t)%Z.
    assert (Ex : (x = (y + s) - (- t - s) + (- t))%Z) by lia. assert (Ey : (y = (y + s) + (- t - s) - (- t))%Z) by lia.
    assert (Ez : (z = (y + s) + (- t - s) + (- t))%Z) by lia.
    rewrite A, B, C. split; [|split].
    + rewrite Ex at 1. rewrite plus_IZR, minus_IZR. lra.
    + rewrite Ey at 1. rewrite minus_IZR, plus_IZR. lra.
    + rewrite Ez at 1. rewrite !plus_IZR. lra.
Qed.

(** ** Density of planes *)
Definition zero_one (x : Z) : Prop := x = 0%Z \/ x = 1%Z.

Theorem density_01 h k l : zero_one h -> zero_one k -> zero_one l -> (h, k, l) <> (0, 0, 0)%Z ->
  plane_density (h, k, l) = Some (1 / sqrt (IZR (h * h + k * k + l * l))).
Proof.
  intros [->| ->] [->| ->] [->| ->] Hne; try congruence; cbn [plane_density sort3 Z.leb Z.compare Pos.compare Pos.compare_cont Z.eqb Pos.eqb andb Z.add Z.mul Pos.add Pos.mul]; f_equal;
  unfold cross_norm, vsub; rewrite ?sqrt_1; try field; do 2 f_equal; try (f_equal; field).
Qed.

Lemma sqrt_scale q x : 0 < q -> 0 <= x -> sqrt (x / (q * q)) = sqrt x / q.
Proof.
  intros Hq Hx. rewrite sqrt_div_alt by nra. rewrite sqrt_square by lra. reflexivity.
Qed.

Theorem density_formula a b c : (0 <= a <= 1)%Z -> (1 <= b <= c)%Z ->
  plane_density (a, b, c) = Some (IZR b * IZR c / sqrt (IZR (a * a + b * b + c * c))).
Proof.
  intros Ha Hb. unfold plane_density, sort3.
  assert (Hab : (a <=? b)%Z = true) by (apply Z.leb_le; lia). assert (Hbc : (b <=? c)%Z = true) by (apply Z.leb_le; lia).
  rewrite Hab, Hbc, Hab. assert (Eb : (b =? 0)%Z = false) by (apply Z.eqb_neq; lia). rewrite Eb, Bool.andb_false_r.
  assert (Pb : 1 <= IZR b) by (apply IZR_le; lia). assert (Pc : 1 <= IZR c) by (apply IZR_le; lia).
  assert (Hq : 0 < IZR b * IZR c) by nra.
  assert (P : forall s, 0 <= s -> 0 < IZR (a * a + b * b + c * c) -> s = sqrt (IZR (a * a + b * b + c * c)) / (IZR b * IZR c) ->
     1 / s = IZR b * IZR c / sqrt (IZR (a * a + b * b + c * c))).
  { intros s Hs Hp ->. assert (0 < sqrt (IZR (a * a + b * b + c * c))) by (apply sqrt_lt_R0; exact Hp). field. split; lra. }
  assert (Pn : 0 < IZR (a * a + b * b + c * c)) by (apply IZR_lt; nia).
  assert (Ca : a = 0%Z \/ a = 1%Z) by lia. destruct Ca as [-> | ->]; cbn [Z.eqb Pos.eqb]; f_equal; apply P; try exact Pn;
    unfold cross_norm, vsub; try apply sqrt_pos; rewrite <- sqrt_scale by lra; f_equal; rewrite !plus_IZR, !mult_IZR; field; lra.
Qed.

Lemma sort3_perm h k l : sort3 (h, k, l) = sort3 (k, h, l) /\ sort3 (h, k, l) = sort3 (h, l, k).
Proof.
  unfold sort3. split;
  repeat match goal with |- context [(?x <=? ?y)%Z] => destruct (Z.leb_spec x y) end; repeat f_equal; lia.
Qed.

Theorem density_perm h k l : plane_density (h, k, l) = plane_density (k, h, l) /\ plane_density (h, k, l) = plane_density (h, l, k).
Proof. unfold plane_density. destruct (sort3_perm h k l) as [A B]. split; [rewrite A|rewrite B]; reflexivity. Qed.

Theorem density_right_iff a b c : (0 <= a <= 1)%Z -> (1 <= b <= c)%Z ->
  (plane_density (a, b, c) = Some (1 / sqrt (IZR (a * a + b * b + c * c))) <-> b = 1%Z /\ c = 1%Z).
Proof.
  intros Ha Hb. rewrite density_formula by assumption.
  assert (Pn : 0 < sqrt (IZR (a * a + b * b + c * c))) by (apply sqrt_lt_R0, IZR_lt; nia). split.
  - intros E. injection E as E. apply (Rmult_eq_compat_r (sqrt (IZR (a * a + b * b + c * c)))) in E.
    replace (IZR b * IZR c / sqrt (IZR (a * a + b * b + c * c)) * sqrt (IZR (a * a + b * b + c * c))) with (IZR (b * c)) in E
      by (rewrite mult_IZR; field; lra).
    replace (1 / sqrt (IZR (a * a + b * b + c * c)) * sqrt (IZR (a * a + b * b + c * c))) with 1 in E by (field; lra).
    apply eq_IZR in E. nia.
  - intros [-> ->]. f_equal. f_equal. ring.
Qed.

Theorem density_panics h k l : (h < 0)%Z -> plane_density (h, k, l) = None.
Proof.
  intros H. unfold plane_density. assert (S : let '(a, _, _) := sort3 (h, k, l) in (a < 0)%Z).
  { unfold sort3. repeat match goal with |- context [(?x <=? ?y)%Z] => destruct (Z.leb_spec x y) end; lia. }
  destruct (sort3 (h, k, l)) as [[a b] c]. destruct (Z.eqb_spec a 0); [lia|]. destruct (Z.eqb_spec a 1); [lia|]. reflexivity.
Qed.
