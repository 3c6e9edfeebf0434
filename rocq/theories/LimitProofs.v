(** Convergence of the semi-implicit scheme for equations whose explicit part
    is Lipschitz on bounded sets (analysis only, no model). *)
From Coq Require Import Reals Lra Lia List.
From Verif Require Import ConvergeSpec.
From Verif Require Import Complex.
Open Scope R_scope.

Definition size (z : C) : R := Rabs (Re z) + Rabs (Im z).
Lemma size_pos z : 0 <= size z.
Proof. unfold size. pose proof (Rabs_pos (Re z)). pose proof (Rabs_pos (Im z)). lra. Qed.
Lemma size_0 : size C0 = 0.
Proof. unfold size. cbn. rewrite Rabs_R0. ring. Qed.
Lemma size_add a b : size (Cadd a b) <= size a + size b.
Proof. unfold size, Cadd. cbn [Re Im fst snd]. pose proof (Rabs_triang (Re a) (Re b)). pose proof (Rabs_triang (Im a) (Im b)). lra. Qed.
Lemma size_opp a : size (Copp a) = size a.
Proof. unfold size, Copp. cbn [Re Im fst snd]. rewrite !Rabs_Ropp. reflexivity. Qed.
Lemma size_sub_sym a b : size (Csub a b) = size (Csub b a).
Proof. rewrite <- size_opp. f_equal. csolve. Qed.
Lemma size_sub a b : size (Csub a b) <= size a + size b.
Proof. replace (Csub a b) with (Cadd a (Copp b)) by csolve. rewrite <- (size_opp b). apply size_add. Qed.
Lemma size_tri a b c : size (Csub a c) <= size (Csub a b) + size (Csub b c).
Proof. replace (Csub a c) with (Cadd (Csub a b) (Csub b c)) by csolve. apply size_add. Qed.
Lemma size_mul a b : size (Cmul a b) <= size a * size b.
Proof.
  unfold size, Cmul. cbn [Re Im fst snd].
  pose proof (Rabs_triang (Re a * Re b) (- (Im a * Im b))) as H1. pose proof (Rabs_triang (Re a * Im b) (Im a * Re b)) as H2.
  rewrite Rabs_Ropp, !Rabs_mult in H1. rewrite !Rabs_mult in H2. unfold Rminus. lra.
Qed.
Lemma size_real x z : size (Cmul (RtoC x) z) = Rabs x * size z.
Proof. unfold size, Cmul, RtoC. cbn [Re Im fst snd]. rewrite !Rmult_0_l, Rminus_0_r, Rplus_0_r, !Rabs_mult. ring. Qed.
Lemma size_zero z : size z <= 0 -> z = C0.
Proof.
  unfold size. intros H. pose proof (Rabs_pos (Re z)). pose proof (Rabs_pos (Im z)).
  apply C_eq; cbn; [destruct (Req_dec (Re z) 0) as [E|E]|destruct (Req_dec (Im z) 0) as [E|E]]; try exact E; apply Rabs_pos_lt in E; lra.
Qed.
Lemma size_of_sub a b : size a <= size b + size (Csub a b).
Proof. replace a with (Cadd b (Csub a b)) at 1 by csolve. apply size_add. Qed.

(** bounds over finitely many entries *)
Lemma bound_over (m : nat) (P : nat -> R -> Prop) : (forall k b b', P k b -> b <= b' -> P k b') -> (forall k, (k < m)%nat -> exists b, P k b) ->
  exists b, 0 <= b /\ forall k, (k < m)%nat -> P k b.
Proof.
  intros HM. induction m as [|m IH]; intros H; [exists 0; split; [lra|intros; lia]|].
  destruct IH as (b & Hb & HB); [intros k Hk; apply H; lia|]. destruct (H m ltac:(lia)) as (b' & Hb').
  exists (b + Rabs b'). pose proof (Rabs_pos b'). pose proof (Rle_abs b'). split; [lra|]. intros k Hk. destruct (Nat.eq_dec k m) as [->|N].
  - apply (HM m b'); [exact Hb'|lra].
  - apply (HM k b); [apply HB; lia|lra].
Qed.
Lemma bound_over2 (m n : nat) (P : nat -> nat -> R -> Prop) : (forall i k b b', P i k b -> b <= b' -> P i k b') ->
  (forall i k, (i < m)%nat -> (k < n)%nat -> exists b, P i k b) -> exists b, 0 <= b /\ forall i k, (i < m)%nat -> (k < n)%nat -> P i k b.
Proof.
  intros HM H. destruct (bound_over m (fun i b => forall k, (k < n)%nat -> P i k b)) as (b & Hb & HB).
  - intros i b b' Hi Hle k Hk. exact (HM i k b b' (Hi k Hk) Hle).
  - intros i Hi. destruct (bound_over n (P i)) as (b & _ & HB); [apply HM|intros k Hk; exact (H i k Hi Hk)|]. exists b. exact HB.
  - exists b. split; [exact Hb|]. intros i k Hi Hk. exact (HB i Hi k Hk).
Qed.

Lemma growth C h m : 0 <= C -> 0 <= h -> (1 + C * h) ^ m <= exp (C * (INR m * h)).
Proof.
  intros HC Hh. replace (C * (INR m * h)) with (INR m * (C * h)) by ring. induction m as [|m IH]; [cbn; rewrite Rmult_0_l, exp_0; lra|].
  rewrite S_INR, Rmult_plus_distr_r, Rmult_1_l, exp_plus. cbn [pow]. rewrite (Rmult_comm (1 + C * h)).
  apply Rmult_le_compat; [apply pow_le; nra|nra|exact IH|]. apply exp_ineq1_le.
Qed.

Section Scheme.
  Variables (nf n : nat).
  Definition grid := nat -> nat -> C.
  Definition near (e : R) (x y : grid) : Prop := forall i k, (i < nf)%nat -> (k < n)%nat -> size (Csub (x i k) (y i k)) <= e.
  Definition within (r : R) (x : grid) : Prop := forall i k, (i < nf)%nat -> (k < n)%nat -> size (x i k) <= r.
  Variable A : nat -> nat -> C.
  Variable F : nat -> nat -> R -> grid -> grid -> C.
  Variable Y : R -> grid.
  Variable T : R.
  Hypothesis HT : 0 <= T.
  Hypothesis HF : forall r, exists K, 0 <= K /\ forall t t' x y s u e, 0 <= t <= T -> 0 <= t' <= T -> within r x -> within r y -> within r s -> within r u ->
    near e x y -> near e s u -> Rabs (t - t') <= e -> forall i k, (i < nf)%nat -> (k < n)%nat -> size (Csub (F i k t x s) (F i k t' y u)) <= K * e.
  Definition G (i k : nat) (t : R) : C := Cadd (F i k t (Y t) (Y t)) (Cmul (A i k) (Y t i k)).
  Hypothesis HY : forall i k t, (i < nf)%nat -> (k < n)%nat -> 0 <= t <= T -> changes (fun s => Y s i k) t (G i k t).

  Lemma solution_bounded : exists B, 0 <= B /\ forall t, 0 <= t <= T -> within B (Y t).
  Proof.
    destruct (bound_over2 nf n (fun i k b => forall t, 0 <= t <= T -> size (Y t i k) <= b)) as (B & HB & H).
    - intros i k b b' Hb Hle t Ht. specialize (Hb t Ht). lra.
    - intros i k Hi Hk.
      assert (Cp : forall f l t, derivable_pt_lim f t l -> continuity_pt (fun s => Rabs (f s)) t).
      { intros f l t D. apply (continuity_pt_comp f Rabs); [apply derivable_continuous_pt; exists l; exact D|apply Rcontinuity_abs]. }
      destruct (continuity_ab_maj (fun s => Rabs (Re (Y s i k)) + Rabs (Im (Y s i k))) 0 T HT) as (M & HM & _).
      + intros c Hc. destruct (HY i k c Hi Hk Hc) as [D1 D2]. apply continuity_pt_plus; [exact (Cp _ _ _ D1)|exact (Cp _ _ _ D2)].
      + exists (size (Y M i k)). exact HM.
    - exists B. split; [exact HB|]. intros t Ht i k Hi Hk. exact (H i k Hi Hk t Ht).
  Qed.

  (** size of the change of a complex function with bounded derivative *)
  Lemma mean_value (z z' : R -> C) s t M (w : C) : s <= t -> (forall c, s <= c <= t -> changes z c (z' c)) -> (forall c, s <= c <= t -> size (Csub (z' c) w) <= M) ->
    size (Csub (Csub (z t) (z s)) (Cmul (RtoC (t - s)) w)) <= 2 * M * (t - s).
  Proof.
    intros Hst HD HM. destruct (Rle_lt_or_eq_dec _ _ Hst) as [Hlt|<-].
    2:{ replace (Csub (Csub (z s) (z s)) (Cmul (RtoC (s - s)) w)) with C0; [rewrite size_0; lra|]. unfold Rminus. rewrite Rplus_opp_r. csolve. }
    destruct (MVT_cor2 (fun c => Re (z c)) (fun c => Re (z' c)) s t Hlt) as (c1 & E1 & B1); [intros c Hc; apply (HD c Hc)|].
    destruct (MVT_cor2 (fun c => Im (z c)) (fun c => Im (z' c)) s t Hlt) as (c2 & E2 & B2); [intros c Hc; apply (HD c Hc)|].
    pose proof (HM c1 ltac:(lra)) as M1. pose proof (HM c2 ltac:(lra)) as M2. unfold size in *.
    replace (Re (Csub (Csub (z t) (z s)) (Cmul (RtoC (t - s)) w))) with ((t - s) * Re (Csub (z' c1) w)) by (cbn in *; lra).
    replace (Im (Csub (Csub (z t) (z s)) (Cmul (RtoC (t - s)) w))) with ((t - s) * Im (Csub (z' c2) w)) by (cbn in *; lra).
    rewrite !Rabs_mult, (Rabs_right (t - s)) by lra.
    pose proof (Rabs_pos (Im (Csub (z' c1) w))). pose proof (Rabs_pos (Re (Csub (z' c2) w))).
    assert ((t - s) * Rabs (Re (Csub (z' c1) w)) <= (t - s) * M) by (apply Rmult_le_compat_l; lra).
    assert ((t - s) * Rabs (Im (Csub (z' c2) w)) <= (t - s) * M) by (apply Rmult_le_compat_l; lra). lra.
  Qed.

  Section Constants.
    Variables B K a M : R.
    Hypothesis HB : 0 <= B.
    Hypothesis HYB : forall t, 0 <= t <= T -> within B (Y t).
    Hypothesis HK : 0 <= K.
    Hypothesis HKF : forall t t' x y s u e, 0 <= t <= T -> 0 <= t' <= T -> within (B + 1) x -> within (B + 1) y -> within (B + 1) s -> within (B + 1) u ->
      near e x y -> near e s u -> Rabs (t - t') <= e -> forall i k, (i < nf)%nat -> (k < n)%nat -> size (Csub (F i k t x s) (F i k t' y u)) <= K * e.
    Hypothesis Ha : 0 <= a.
    Hypothesis HaA : forall i k, (i < nf)%nat -> (k < n)%nat -> size (A i k) <= a.
    Hypothesis HM : 0 <= M.
    Hypothesis HGM : forall i k t, (i < nf)%nat -> (k < n)%nat -> 0 <= t <= T -> size (G i k t) <= M.

    Lemma in_ball t : 0 <= t <= T -> within (B + 1) (Y t).
    Proof. intros Ht i k Hi Hk. pose proof (HYB t Ht i k Hi Hk). lra. Qed.
    Lemma solution_moves s t : 0 <= s -> s <= t -> t <= T -> near (2 * M * (t - s)) (Y t) (Y s).
    Proof.
      intros Hs Hst Ht i k Hi Hk.
      pose proof (mean_value (fun c => Y c i k) (G i k) s t M C0 Hst (fun c Hc => HY i k c Hi Hk ltac:(lra))) as H. cbv beta in H.
      replace (Csub (Csub (Y t i k) (Y s i k)) (Cmul (RtoC (t - s)) C0)) with (Csub (Y t i k) (Y s i k)) in H by csolve. apply H.
      intros c Hc. replace (Csub (G i k c) C0) with (G i k c) by csolve. apply HGM; [exact Hi|exact Hk|lra].
    Qed.
    Let Lam := K * (2 * M + 1) + a * (2 * M).
    Lemma rate_moves s t i k : (i < nf)%nat -> (k < n)%nat -> 0 <= s -> s <= t -> t <= T -> size (Csub (G i k t) (G i k s)) <= Lam * (t - s).
    Proof.
      intros Hi Hk Hs Hst Ht. pose proof (solution_moves s t Hs Hst Ht) as Hm.
      assert (Hm' : near ((2 * M + 1) * (t - s)) (Y t) (Y s)).
      { intros i' k' Hi' Hk'. pose proof (Hm i' k' Hi' Hk'). nra. }
      pose proof (HKF t s (Y t) (Y s) (Y t) (Y s) ((2 * M + 1) * (t - s)) ltac:(lra) ltac:(lra) (in_ball t ltac:(lra)) (in_ball s ltac:(lra)) (in_ball t ltac:(lra)) (in_ball s ltac:(lra))
        Hm' Hm' ltac:(rewrite Rabs_right by lra; nra) i k Hi Hk) as H1.
      unfold G. replace (Csub (Cadd (F i k t (Y t) (Y t)) (Cmul (A i k) (Y t i k))) (Cadd (F i k s (Y s) (Y s)) (Cmul (A i k) (Y s i k))))
        with (Cadd (Csub (F i k t (Y t) (Y t)) (F i k s (Y s) (Y s))) (Cmul (A i k) (Csub (Y t i k) (Y s i k)))) by csolve.
      pose proof (size_add (Csub (F i k t (Y t) (Y t)) (F i k s (Y s) (Y s))) (Cmul (A i k) (Csub (Y t i k) (Y s i k)))) as H2.
      pose proof (size_mul (A i k) (Csub (Y t i k) (Y s i k))) as H3. pose proof (Hm i k Hi Hk) as H4. pose proof (HaA i k Hi Hk) as H5.
      pose proof (size_pos (A i k)). pose proof (size_pos (Csub (Y t i k) (Y s i k))).
      assert (size (A i k) * size (Csub (Y t i k) (Y s i k)) <= a * (2 * M * (t - s))) by (apply Rmult_le_compat; assumption).
      unfold Lam. lra.
    Qed.
    Lemma taylor t h i k : (i < nf)%nat -> (k < n)%nat -> 0 <= t -> 0 <= h -> t + h <= T ->
      size (Csub (Csub (Y (t + h) i k) (Y t i k)) (Cmul (RtoC h) (G i k t))) <= 2 * Lam * h * h.
    Proof.
      intros Hi Hk Ht Hh HTh.
      pose proof (mean_value (fun c => Y c i k) (G i k) t (t + h) (Lam * h) (G i k t) ltac:(lra) (fun c Hc => HY i k c Hi Hk ltac:(lra))) as H.
      cbv beta in H. replace (t + h - t) with h in H by ring. replace (2 * Lam * h * h) with (2 * (Lam * h) * h) by ring. apply H. intros c Hc.
      assert (L0 : 0 <= Lam) by (unfold Lam; nra).
      apply Rle_trans with (Lam * (c - t)); [apply rate_moves; (assumption || lra)|]. apply Rmult_le_compat_l; lra.
    Qed.

    Definition mix (i : nat) (new old : grid) : grid := fun j => if Nat.ltb j i then new j else old j.
    Definition scheme (h t : R) (x x' : grid) : Prop :=
      forall i k, (i < nf)%nat -> (k < n)%nat -> Cmul (x' i k) (Csub C1 (Cmul (RtoC h) (A i k))) = Cadd (x i k) (Cmul (RtoC h) (F i k t x (mix i x' x))).

    Let c := 1 + 2 * M.
    Let Co := 2 * a + 4 * K + 2 * (K * c + a * (2 * M) + 2 * Lam).
    Lemma Lam_nonneg : 0 <= Lam. Proof. unfold Lam. nra. Qed.
    Lemma Co_nonneg : 0 <= Co. Proof. pose proof Lam_nonneg. unfold Co, c. assert (0 <= K * (1 + 2 * M)) by (apply Rmult_le_pos; lra). assert (0 <= a * (2 * M)) by (apply Rmult_le_pos; lra). lra. Qed.

    (** the sizes of steps for which the estimates hold *)
    Definition small (h : R) : Prop := 0 < h /\ h <= / 2 /\ h * a <= / 8 /\ K * h <= / 4 /\ K * c * h <= / 2 /\ c * h <= / 2 /\ Co * h <= 1.

    Lemma divided h i k D : 0 < h -> h * a <= / 2 -> (i < nf)%nat -> (k < n)%nat -> size D <= (1 + 2 * (h * a)) * size (Cmul D (Csub C1 (Cmul (RtoC h) (A i k)))).
    Proof.
      intros Hh Hha Hi Hk. pose proof (HaA i k Hi Hk) as DA.
      assert (V : size D <= size (Cmul D (Csub C1 (Cmul (RtoC h) (A i k)))) + h * a * size D).
      { replace D with (Cadd (Cmul D (Csub C1 (Cmul (RtoC h) (A i k)))) (Cmul (RtoC h) (Cmul (A i k) D))) at 1 by csolve.
        eapply Rle_trans; [apply size_add|]. apply Rplus_le_compat_l. rewrite size_real, Rabs_right by lra. rewrite Rmult_assoc. apply Rmult_le_compat_l; [lra|].
        eapply Rle_trans; [apply size_mul|]. apply Rmult_le_compat_r; [apply size_pos|exact DA]. }
      set (w := size (Cmul D (Csub C1 (Cmul (RtoC h) (A i k))))) in *. pose proof (size_pos D) as PD.
      assert (P : 0 <= h * a) by nra. assert (w >= size D * (1 - h * a)) by lra.
      apply Rle_trans with ((1 + 2 * (h * a)) * (size D * (1 - h * a))); [|apply Rmult_le_compat_l; lra].
      assert (1 <= (1 + 2 * (h * a)) * (1 - h * a)) by nra. nra.
    Qed.

    (** one entry of a step whose rate [Fv] is close to that of the solution *)
    Lemma settle h t E i k xv xv' Fv : small h -> 0 <= t -> t + h <= T -> 0 <= E <= / 4 -> (i < nf)%nat -> (k < n)%nat ->
      Cmul xv' (Csub C1 (Cmul (RtoC h) (A i k))) = Cadd xv (Cmul (RtoC h) Fv) -> size (Csub xv (Y t i k)) <= E ->
      size (Csub Fv (F i k t (Y t) (Y t))) <= K * (2 * E + c * h) -> size (Csub xv' (Y (t + h) i k)) <= (1 + Co * h) * E + Co * h * h.
    Proof.
      intros (Hh & Hh2 & Hha & HKh & HKc & Hch & HCh) Ht HTh HE Hi Hk ES DE DF.
      assert (HC := Co_nonneg). assert (HL := Lam_nonneg).
      pose proof (solution_moves t (t + h) Ht ltac:(lra) HTh) as Hmv. replace (t + h - t) with h in Hmv by ring.
      pose proof (taylor t h i k Hi Hk Ht ltac:(lra) HTh) as Tay. pose proof (Hmv i k Hi Hk) as DM. pose proof (HaA i k Hi Hk) as DA.
      set (y := Y t i k) in *. set (y' := Y (t + h) i k) in *. set (Fy := F i k t (Y t) (Y t)) in *.
      set (D := Csub xv' y').
      assert (ED : Cmul D (Csub C1 (Cmul (RtoC h) (A i k))) =
        Cadd (Cadd (Csub xv y) (Cmul (RtoC h) (Csub Fv Fy))) (Csub (Cmul (RtoC h) (Cmul (A i k) (Csub y' y))) (Csub (Csub y' y) (Cmul (RtoC h) (G i k t))))).
      { unfold D. replace (Cmul (Csub xv' y') (Csub C1 (Cmul (RtoC h) (A i k)))) with (Csub (Cmul xv' (Csub C1 (Cmul (RtoC h) (A i k)))) (Cmul y' (Csub C1 (Cmul (RtoC h) (A i k))))) by csolve.
        rewrite ES. unfold G. fold Fy y. csolve. }
      assert (W : size (Cmul D (Csub C1 (Cmul (RtoC h) (A i k)))) <= E + h * (K * (2 * E + c * h)) + (h * (a * (2 * M * h)) + 2 * Lam * h * h)).
      { rewrite ED. eapply Rle_trans; [apply size_add|]. apply Rplus_le_compat.
        - eapply Rle_trans; [apply size_add|]. apply Rplus_le_compat; [exact DE|]. rewrite size_real, Rabs_right by lra. apply Rmult_le_compat_l; [lra|exact DF].
        - eapply Rle_trans; [apply size_sub|]. apply Rplus_le_compat; [|exact Tay]. rewrite size_real, Rabs_right by lra. apply Rmult_le_compat_l; [lra|].
          eapply Rle_trans; [apply size_mul|]. apply Rmult_le_compat; (exact DA || exact DM || apply size_pos). }
      pose proof (divided h i k D Hh ltac:(lra) Hi Hk) as V2. set (w := size (Cmul D (Csub C1 (Cmul (RtoC h) (A i k))))) in *.
      assert (P : 0 <= h * a) by nra. assert (Pc : 0 < c) by (unfold c; lra).
      apply Rle_trans with (1 := V2).
      set (rest := h * (K * (2 * E + c * h)) + (h * (a * (2 * M * h)) + 2 * Lam * h * h)).
      assert (Rn : 0 <= rest).
      { unfold rest. assert (0 <= 2 * E + c * h) by nra. assert (0 <= K * (2 * E + c * h)) by (apply Rmult_le_pos; lra).
        assert (0 <= a * (2 * M * h)) by (apply Rmult_le_pos; nra). assert (0 <= Lam * h * h) by (apply Rmult_le_pos; nra). nra. }
      assert (W2 : w <= E + rest) by (unfold rest; lra).
      apply Rle_trans with ((1 + 2 * (h * a)) * E + 2 * rest).
      { apply Rle_trans with ((1 + 2 * (h * a)) * (E + rest)); [apply Rmult_le_compat_l; lra|]. nra. }
      unfold rest, Co. assert (0 <= K * c) by (apply Rmult_le_pos; lra). assert (0 <= a * (2 * M)) by (apply Rmult_le_pos; lra).
      assert (0 <= (K * c + a * (2 * M) + 2 * Lam) * h * E).
      { apply Rmult_le_pos; [|lra]. apply Rmult_le_pos; lra. }
      assert (0 <= (2 * a + 4 * K) * h * h) by (apply Rmult_le_pos; [apply Rmult_le_pos|]; lra).
      lra.
    Qed.
    Lemma crude h E : small h -> 0 <= E -> (1 + Co * h) * E + Co * h * h <= 2 * E + h.
    Proof. intros (Hh & _ & _ & _ & _ & _ & HCh) HE. assert (HC := Co_nonneg). assert (Co * h * E <= 1 * E) by (apply Rmult_le_compat_r; lra). assert (Co * h * h <= 1 * h) by (apply Rmult_le_compat_r; lra). lra. Qed.

    (** *** Euler *)
    Lemma euler_one h t x x' E : small h -> 0 <= t -> t + h <= T -> 0 <= E <= / 4 ->
      scheme h t x x' -> near E x (Y t) -> near ((1 + Co * h) * E + Co * h * h) x' (Y (t + h)).
    Proof.
      intros Sm Ht HTh HE HS HN. pose proof (crude h E Sm (proj1 HE)) as Crude. pose proof Sm as (Hh & Hh2 & _ & _ & _ & Hch & _).
      assert (Main : forall i, (i < nf)%nat -> forall k, (k < n)%nat -> size (Csub (x' i k) (Y (t + h) i k)) <= (1 + Co * h) * E + Co * h * h).
      2:{ intros i k Hi Hk. exact (Main i Hi k Hk). }
      intros i. induction i as [i IH] using (well_founded_induction lt_wf). intros Hi k Hk.
      pose proof (solution_moves t (t + h) Ht ltac:(lra) HTh) as Hmv. replace (t + h - t) with h in Hmv by ring.
      assert (Wx : within (B + 1) x).
      { intros j q Hj Hq. pose proof (size_of_sub (x j q) (Y t j q)). pose proof (HN j q Hj Hq). pose proof (HYB t ltac:(lra) j q Hj Hq). lra. }
      assert (Ws : within (B + 1) (mix i x' x)).
      { intros j q Hj Hq. unfold mix. destruct (Nat.ltb_spec j i) as [Hlt|_]; [|exact (Wx j q Hj Hq)].
        pose proof (size_of_sub (x' j q) (Y (t + h) j q)). pose proof (IH j Hlt Hj q Hq). pose proof (HYB (t + h) ltac:(lra) j q Hj Hq). lra. }
      assert (E2 : near (2 * E + c * h) x (Y t)).
      { intros j q Hj Hq. pose proof (HN j q Hj Hq). unfold c. nra. }
      assert (E3 : near (2 * E + c * h) (mix i x' x) (Y t)).
      { intros j q Hj Hq. unfold mix. destruct (Nat.ltb_spec j i) as [Hlt|_]; [|exact (E2 j q Hj Hq)].
        pose proof (size_tri (x' j q) (Y (t + h) j q) (Y t j q)). pose proof (IH j Hlt Hj q Hq). pose proof (Hmv j q Hj Hq). unfold c. lra. }
      pose proof (HKF t t x (Y t) (mix i x' x) (Y t) _ ltac:(lra) ltac:(lra) Wx (in_ball t ltac:(lra)) Ws (in_ball t ltac:(lra)) E2 E3
        ltac:(rewrite Rminus_diag_eq, Rabs_R0 by reflexivity; unfold c; nra) i k Hi Hk) as DF.
      exact (settle h t E i k (x i k) (x' i k) _ Sm Ht HTh HE Hi Hk (HS i k Hi Hk) (HN i k Hi Hk) DF).
    Qed.

    (** *** RK4 *)
    Definition stage (h t : R) (x v s : grid) : Prop :=
      forall i k, (i < nf)%nat -> (k < n)%nat -> Cmul (s i k) (Csub C1 (Cmul (RtoC h) (A i k))) = Cadd (x i k) (Cmul (RtoC h) (F i k t v v)).
    Definition rk_scheme (h t : R) (x x' : grid) : Prop := exists s2 s3 s4,
      stage (h / 2) t x x s2 /\ stage (h / 2) t x s2 s3 /\ stage h t x s3 s4 /\
      forall i k, (i < nf)%nat -> (k < n)%nat -> Cmul (x' i k) (Csub C1 (Cmul (RtoC h) (A i k)))
        = Cadd (x i k) (Cmul (RtoC h) (Cadd (Cadd (Cmul (RtoC (/ 6)) (F i k t x x)) (Cmul (RtoC (/ 3)) (F i k t s2 s2))) (Cadd (Cmul (RtoC (/ 3)) (F i k t s3 s3)) (Cmul (RtoC (/ 6)) (F i k t s4 s4))))).
    Lemma ball_of t E x : 0 <= t <= T -> E <= 1 -> near E x (Y t) -> within (B + 1) x.
    Proof. intros Ht HE HN j q Hj Hq. pose proof (size_of_sub (x j q) (Y t j q)). pose proof (HN j q Hj Hq). pose proof (HYB t Ht j q Hj Hq). lra. Qed.
    Lemma rate_of t E x i k : 0 <= t <= T -> 0 <= E <= 1 -> near E x (Y t) -> (i < nf)%nat -> (k < n)%nat -> size (Csub (F i k t x x) (F i k t (Y t) (Y t))) <= K * E.
    Proof.
      intros Ht HE HN Hi Hk. apply (HKF t t x (Y t) x (Y t) E Ht Ht); try assumption; try (apply in_ball; exact Ht); try (apply (ball_of t E); (assumption || lra)).
      rewrite Rminus_diag_eq, Rabs_R0 by reflexivity. lra.
    Qed.
    Lemma stage_error h th t E x v s : small h -> 0 <= t <= T -> 0 <= E <= / 4 -> 0 < th <= h ->
      near E x (Y t) -> near (2 * E + c * h) v (Y t) -> stage th t x v s -> near (2 * E + c * h) s (Y t).
    Proof.
      intros (Hh & Hh2 & Hha & HKh & HKc & Hch & HCh) Ht HE Hth HN HV HS i k Hi Hk. assert (Pc : 0 < c) by (unfold c; lra).
      assert (Pch : 0 < c * h) by nra.
      pose proof (rate_of t (2 * E + c * h) v i k Ht ltac:(lra) HV Hi Hk) as DF. pose proof (HS i k Hi Hk) as ES. pose proof (HN i k Hi Hk) as DE. pose proof (HGM i k t Hi Hk Ht) as DG.
      assert (Pth : 0 <= th * a) by nra. assert (Hta : th * a <= / 8) by (apply Rle_trans with (h * a); [apply Rmult_le_compat_r; lra|exact Hha]).
      set (D := Csub (s i k) (Y t i k)).
      assert (ED : Cmul D (Csub C1 (Cmul (RtoC th) (A i k))) = Cadd (Csub (x i k) (Y t i k)) (Cmul (RtoC th) (Cadd (Csub (F i k t v v) (F i k t (Y t) (Y t))) (G i k t)))).
      { unfold D. replace (Cmul (Csub (s i k) (Y t i k)) (Csub C1 (Cmul (RtoC th) (A i k)))) with (Csub (Cmul (s i k) (Csub C1 (Cmul (RtoC th) (A i k)))) (Cmul (Y t i k) (Csub C1 (Cmul (RtoC th) (A i k))))) by csolve.
        rewrite ES. unfold G. csolve. }
      assert (W : size (Cmul D (Csub C1 (Cmul (RtoC th) (A i k)))) <= E + h * (K * (2 * E + c * h) + M)).
      { rewrite ED. eapply Rle_trans; [apply size_add|]. apply Rplus_le_compat; [exact DE|]. rewrite size_real, Rabs_right by lra.
        apply Rmult_le_compat; [lra|apply size_pos|lra|]. eapply Rle_trans; [apply size_add|]. apply Rplus_le_compat; assumption. }
      pose proof (divided th i k D ltac:(lra) ltac:(lra) Hi Hk) as V. set (w := size (Cmul D (Csub C1 (Cmul (RtoC th) (A i k))))) in *.
      assert (W2 : w <= E + (/ 2 * E + h / 2 + h * M)).
      { assert (h * (K * (2 * E)) <= / 2 * E). { replace (h * (K * (2 * E))) with (2 * (K * h) * E) by ring. apply Rmult_le_compat_r; lra. }
        assert (h * (K * (c * h)) <= h / 2). { replace (h * (K * (c * h))) with (h * (K * c * h)) by ring. unfold Rdiv. apply Rmult_le_compat_l; lra. } lra. }
      assert (PM : 0 <= h * M) by nra.
      apply Rle_trans with (1 := V). apply Rle_trans with ((1 + 2 * (th * a)) * (E + (/ 2 * E + h / 2 + h * M))); [apply Rmult_le_compat_l; lra|].
      apply Rle_trans with ((1 + / 4) * (E + (/ 2 * E + h / 2 + h * M))); [apply Rmult_le_compat_r; lra|]. unfold c. lra.
    Qed.
    Lemma rk_one h t x x' E : small h -> 0 <= t -> t + h <= T -> 0 <= E <= / 4 ->
      rk_scheme h t x x' -> near E x (Y t) -> near ((1 + Co * h) * E + Co * h * h) x' (Y (t + h)).
    Proof.
      intros Sm Ht HTh HE (s2 & s3 & s4 & H2 & H3 & H4 & HS) HN. pose proof Sm as (Hh & Hh2 & _ & _ & _ & Hch & _).
      assert (Pch : 0 < c * h) by (apply Rmult_lt_0_compat; [unfold c; lra|exact Hh]).
      assert (N1 : near (2 * E + c * h) x (Y t)) by (intros j q Hj Hq; pose proof (HN j q Hj Hq); lra).
      assert (Ht' : 0 <= t <= T) by lra.
      pose proof (stage_error h (h / 2) t E x x s2 Sm Ht' HE ltac:(lra) HN N1 H2) as N2.
      pose proof (stage_error h (h / 2) t E x s2 s3 Sm Ht' HE ltac:(lra) HN N2 H3) as N3.
      pose proof (stage_error h h t E x s3 s4 Sm Ht' HE ltac:(lra) HN N3 H4) as N4.
      intros i k Hi Hk. refine (settle h t E i k (x i k) (x' i k) _ Sm Ht HTh HE Hi Hk (HS i k Hi Hk) (HN i k Hi Hk) _).
      pose proof (rate_of t (2 * E + c * h) x i k Ht' ltac:(lra) N1 Hi Hk) as R1. pose proof (rate_of t (2 * E + c * h) s2 i k Ht' ltac:(lra) N2 Hi Hk) as R2.
      pose proof (rate_of t (2 * E + c * h) s3 i k Ht' ltac:(lra) N3 Hi Hk) as R3. pose proof (rate_of t (2 * E + c * h) s4 i k Ht' ltac:(lra) N4 Hi Hk) as R4.
      set (f := F i k t (Y t) (Y t)) in *. set (e := K * (2 * E + c * h)) in *.
      set (f1 := F i k t x x) in *. set (f2 := F i k t s2 s2) in *. set (f3 := F i k t s3 s3) in *. set (f4 := F i k t s4 s4) in *.
      replace (Csub (Cadd (Cadd (Cmul (RtoC (/ 6)) f1) (Cmul (RtoC (/ 3)) f2)) (Cadd (Cmul (RtoC (/ 3)) f3) (Cmul (RtoC (/ 6)) f4))) f)
        with (Cadd (Cadd (Cmul (RtoC (/ 6)) (Csub f1 f)) (Cmul (RtoC (/ 3)) (Csub f2 f))) (Cadd (Cmul (RtoC (/ 3)) (Csub f3 f)) (Cmul (RtoC (/ 6)) (Csub f4 f)))) by (csolve; field).
      eapply Rle_trans; [apply size_add|]. eapply Rle_trans; [apply Rplus_le_compat; apply size_add|]. rewrite !size_real.
      rewrite (Rabs_right (/ 6)), (Rabs_right (/ 3)) by lra. lra.
    Qed.

    Lemma many_steps (step : R -> R -> grid -> grid -> Prop) :
      (forall h t x x' E, small h -> 0 <= t -> t + h <= T -> 0 <= E <= / 4 -> step h t x x' -> near E x (Y t) -> near ((1 + Co * h) * E + Co * h * h) x' (Y (t + h))) ->
      forall h N (x : nat -> grid), small h -> exp (Co * T) * h <= / 4 -> INR N * h <= T ->
      near 0 (x 0%nat) (Y 0) -> (forall m, (m < N)%nat -> step h (INR m * h) (x m) (x (S m))) ->
      forall m, (m <= N)%nat -> near (exp (Co * T) * h) (x m) (Y (INR m * h)).
    Proof.
      intros One h N x Sm HD HN H0 HS. assert (HCn := Co_nonneg). pose proof Sm as (Hh & _).
      assert (P : forall m, (m <= N)%nat -> 0 <= h * ((1 + Co * h) ^ m - 1) <= exp (Co * T) * h).
      { intros m Hm. assert (HmN : INR m * h <= T). { apply Rle_trans with (2 := HN). apply Rmult_le_compat_r; [lra|]. apply le_INR. exact Hm. }
        assert (G1 : 1 <= (1 + Co * h) ^ m) by (apply pow_R1_Rle; nra).
        assert (G2 := growth Co h m HCn ltac:(lra)). assert (G3 : exp (Co * (INR m * h)) <= exp (Co * T)).
        { destruct (Rle_lt_or_eq_dec _ _ (Rmult_le_compat_l Co _ _ HCn HmN)) as [Q| ->]; [left; apply exp_increasing, Q|lra]. }
        split; [nra|]. nra. }
      assert (Q : forall m, (m <= N)%nat -> near (h * ((1 + Co * h) ^ m - 1)) (x m) (Y (INR m * h))).
      { induction m as [|m IH]; intros Hm.
        - cbn [INR pow]. replace (0 * h) with 0 by ring. replace (h * (1 - 1)) with 0 by ring. exact H0.
        - assert (Hm' : (m <= N)%nat) by lia. rewrite S_INR. replace ((INR m + 1) * h) with (INR m * h + h) by ring.
          replace (h * ((1 + Co * h) ^ S m - 1)) with ((1 + Co * h) * (h * ((1 + Co * h) ^ m - 1)) + Co * h * h) by (cbn [pow]; ring).
          assert (Pm := P m Hm'). apply (One h (INR m * h) (x m) (x (S m))); try assumption.
          + apply Rmult_le_pos; [apply pos_INR|lra].
          + apply Rle_trans with (2 := HN). replace (INR m * h + h) with (INR (S m) * h) by (rewrite S_INR; ring). apply Rmult_le_compat_r; [lra|]. apply le_INR. exact Hm.
          + lra.
          + apply HS. lia.
          + exact (IH Hm'). }
      intros m Hm i k Hi Hk. apply Rle_trans with (1 := Q m Hm i k Hi Hk). apply P, Hm.
    Qed.
  End Constants.

  Theorem scheme_converges : exists D h0, 0 <= D /\ 0 < h0 /\ (forall h i k, 0 < h <= h0 -> (i < nf)%nat -> (k < n)%nat -> Csub C1 (Cmul (RtoC h) (A i k)) <> C0) /\
    forall step, step = scheme \/ step = rk_scheme ->
    forall h N x, 0 < h <= h0 -> INR N * h <= T -> near 0 (x 0%nat) (Y 0) -> (forall m, (m < N)%nat -> step h (INR m * h) (x m) (x (S m))) ->
    forall m, (m <= N)%nat -> near (D * h) (x m) (Y (INR m * h)).
  Proof.
    destruct solution_bounded as (B & HB & HYB). destruct (HF (B + 1)) as (K & HK & HKF).
    destruct (bound_over2 nf n (fun i k b => size (A i k) <= b)) as (a & Ha & HaA); [intros; lra|intros i k _ _; exists (size (A i k)); lra|].
    destruct (bound_over2 nf n (fun i k b => size (F i k 0 (Y 0) (Y 0)) <= b)) as (f & Hf & HfF); [intros; lra|intros i k _ _; exists (size (F i k 0 (Y 0) (Y 0))); lra|].
    set (M := f + K * (2 * B + T) + a * B).
    assert (HM : 0 <= M). { assert (0 <= K * (2 * B + T)) by (apply Rmult_le_pos; lra). assert (0 <= a * B) by (apply Rmult_le_pos; lra). unfold M. lra. }
    assert (HGM : forall i k t, (i < nf)%nat -> (k < n)%nat -> 0 <= t <= T -> size (G i k t) <= M).
    { intros i k t Hi Hk Ht. unfold G. eapply Rle_trans; [apply size_add|]. unfold M. apply Rplus_le_compat.
      - eapply Rle_trans; [apply (size_of_sub _ (F i k 0 (Y 0) (Y 0)))|]. apply Rplus_le_compat; [exact (HfF i k Hi Hk)|].
        assert (Nr : near (2 * B + T) (Y t) (Y 0)).
        { intros j q Hj Hq. eapply Rle_trans; [apply size_sub|]. pose proof (HYB t Ht j q Hj Hq). pose proof (HYB 0 ltac:(lra) j q Hj Hq). lra. }
        assert (Wt : forall s, 0 <= s <= T -> within (B + 1) (Y s)) by (intros s Hs j q Hj Hq; pose proof (HYB s Hs j q Hj Hq); lra).
        apply (HKF t 0 (Y t) (Y 0) (Y t) (Y 0)); try assumption; try lra; try (apply Wt; lra). rewrite Rminus_0_r, Rabs_right by lra. lra.
      - eapply Rle_trans; [apply size_mul|]. apply Rmult_le_compat; [apply size_pos|apply size_pos|exact (HaA i k Hi Hk)|exact (HYB t Ht i k Hi Hk)]. }
    set (c := 1 + 2 * M). set (Co := 2 * a + 4 * K + 2 * (K * c + a * (2 * M) + 2 * (K * (2 * M + 1) + a * (2 * M)))).
    assert (HC : 0 <= Co) by (exact (Co_nonneg K a M HK Ha HM)).
    set (D := exp (Co * T)). assert (HD : 0 < D) by apply exp_pos.
    assert (Hc : 0 < c) by (unfold c; lra). assert (HKc : 0 <= K * c) by (apply Rmult_le_pos; lra).
    set (S := 2 + 8 * a + 4 * K + 2 * (K * c) + 2 * c + Co + 4 * D). assert (HS : 0 < S) by (unfold S; lra).
    assert (Small : forall h, 0 < h <= / S -> small K a M h /\ D * h <= / 4).
    { intros h Hh. assert (Q : S * h <= 1). { apply Rle_trans with (S * / S); [apply Rmult_le_compat_l; lra|right; field; lra]. } unfold S in Q.
      assert (0 <= a * h) by nra. assert (0 <= Co * h) by nra. assert (0 <= D * h) by nra. assert (0 <= K * h) by nra. assert (0 <= K * c * h) by nra. assert (0 <= c * h) by nra.
      split; [|lra]. unfold small. fold c. fold Co. repeat split; lra. }
    exists D, (/ S). split; [lra|]. split; [apply Rinv_0_lt_compat, HS|]. split.
    - intros h i k Hh Hi Hk E. destruct (Small h Hh) as ((_ & _ & Q & _) & _). pose proof (HaA i k Hi Hk).
      assert (E1 : C1 = Cmul (RtoC h) (A i k)). { transitivity (Cadd (Csub C1 (Cmul (RtoC h) (A i k))) (Cmul (RtoC h) (A i k))); [csolve|rewrite E; csolve]. }
      assert (Z : size C1 = 1) by (unfold size; cbn; rewrite Rabs_R1, Rabs_R0; ring). rewrite E1, size_real, Rabs_right in Z by lra.
      assert (h * size (A i k) <= h * a) by (apply Rmult_le_compat_l; lra). lra.
    - intros step Hst h N x Hh HN H0 Hs. destruct (Small h Hh) as (S1 & S2).
      refine (many_steps K a M HK Ha HM step _ h N x S1 S2 HN H0 Hs).
      destruct Hst as [-> | ->]; [exact (euler_one B K a M HYB HK HKF Ha HaA HM HGM)|exact (rk_one B K a M HYB HK HKF Ha HaA HM HGM)].
  Qed.
End Scheme.
