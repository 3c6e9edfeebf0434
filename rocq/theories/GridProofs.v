(** Proofs about the grid tools: Voronoi and Blur. *)
From Verif Require Import GridModel GridSpec IndexProofs ProductProofs.
From Coq Require Import Psatz Permutation.
Open Scope Z_scope.

Lemma all_some_nth {A} (l : list (option A)) : forall out, all_some l = Some out -> length out = length l /\ forall i, nth_error out i = match nth_error l i with Some x => x | None => None end.
Proof.
  induction l as [|x l IH]; intros out H; cbn [all_some] in H.
  - injection H as <-. split; [reflexivity|]. intros [|i]; reflexivity.
  - destruct x as [y|]; [|discriminate]. destruct (all_some l) as [ys|]; [|discriminate]. injection H as <-.
    destruct (IH ys eq_refl) as [L N]. split; [cbn; lia|]. intros [|i]; [reflexivity|]. cbn [nth_error]. apply N.
Qed.
Lemma all_some_total {A} (l : list (option A)) : (forall x, In x l -> x <> None) -> exists out, all_some l = Some out.
Proof.
  induction l as [|x l IH]; intros H; [exists []; reflexivity|]. cbn [all_some].
  destruct x as [y|]; [|exfalso; apply (H None); [left; reflexivity|reflexivity]].
  destruct IH as [ys ->]; [intros x Hx; apply H; right; exact Hx|]. eexists. reflexivity.
Qed.
Lemma node_range_nth n i : (i < n)%nat -> nth_error (node_range n) i = Some (Z.of_nat i).
Proof.
  intros H. unfold node_range. rewrite nth_error_map. rewrite (nth_error_nth' _ 0%nat) by (rewrite seq_length; exact H).
  rewrite seq_nth by exact H. reflexivity.
Qed.
Lemma node_range_length n : length (node_range n) = n. Proof. unfold node_range. rewrite map_length, seq_length. reflexivity. Qed.
Lemma node_range_In n z : In z (node_range n) <-> 0 <= z < Z.of_nat n.
Proof.
  unfold node_range. rewrite in_map_iff. split.
  - intros (x & <- & H). apply in_seq in H. lia.
  - intros H. exists (Z.to_nat z). split; [lia|]. apply in_seq. lia.
Qed.
Lemma num_nodes_prod dom : num_nodes dom = fold_right Z.mul 1 dom. Proof. reflexivity. Qed.

(** ** Voronoi *)
Lemma abs_int_abs x : abs_int x = Z.abs x.
Proof. unfold abs_int. destruct (Z.ltb_spec x 0); lia. Qed.
Lemma sq_le_abs a b : Z.abs a <= Z.abs b -> a * a <= b * b. Proof. intros H. apply Z.square_le_mono_nonneg in H; [|lia]. rewrite !Z.abs_square in H. lia. Qed.
Lemma smallest_diff_spec a b d : 0 < d -> - d < a - b < d ->
  (exists k, smallest_diff a b d = a - b + k * d) /\ (forall k, smallest_diff a b d * smallest_diff a b d <= (a - b + k * d) * (a - b + k * d)) /\
  2 * Z.abs (smallest_diff a b d) <= d.
Proof.
  intros Hd Hr. unfold smallest_diff. rewrite !abs_int_abs. set (x := a - b) in *.
  replace (x + -1 * d) with (x - d) by ring. replace (x + 1 * d) with (x + d) by ring.
  set (m := if Z.abs (x - d) <? Z.abs x then x - d else x).
  assert (Hm : (m = x - d \/ m = x) /\ Z.abs m <= Z.abs x /\ Z.abs m <= Z.abs (x - d)).
  { unfold m. destruct (Z.ltb_spec (Z.abs (x - d)) (Z.abs x)); lia. }
  set (s := if Z.abs (x + d) <? Z.abs m then x + d else m).
  assert (Hs : (s = x - d \/ s = x \/ s = x + d) /\ Z.abs s <= Z.abs x /\ Z.abs s <= Z.abs (x - d) /\ Z.abs s <= Z.abs (x + d)).
  { unfold s. destruct (Z.ltb_spec (Z.abs (x + d)) (Z.abs m)); lia. }
  clearbody s. clear Hm m. destruct Hs as (Hs & A & B & D). split; [|split].
  - destruct Hs as [->|[->| ->]]; [exists (-1)|exists 0|exists 1]; ring.
  - intros k. apply sq_le_abs.
    assert (K : k = 0 \/ k = 1 \/ k = -1 \/ 2 <= k \/ k <= -2) by lia.
    destruct K as [->|[->|[->|[K|K]]]].
    + replace (x + 0 * d) with x by ring. exact A.
    + replace (x + 1 * d) with (x + d) by ring. exact D.
    + replace (x + -1 * d) with (x - d) by ring. exact B.
    + assert (2 * d <= k * d) by nia. lia.
    + assert (k * d <= -2 * d) by nia. lia.
  - lia.
Qed.

Lemma sum_sq_spec dom : forall p q, Forall (fun d => 0 < d) dom -> in_box dom p -> in_box dom q ->
  exists m, sum_sq_diff p q dom = Some m /\ (exists ks, length ks = length dom /\ image_sq_dist dom p q ks = m) /\
  (forall ks, length ks = length dom -> m <= image_sq_dist dom p q ks) /\ 0 <= m <= half_diagonal_sq dom.
Proof.
  induction dom as [|d dom IH]; intros p q Hd Hp Hq; inversion Hp as [|? a ? p' Ha Hp']; inversion Hq as [|? b ? q' Hb Hq']; clear Hp Hq; subst.
  - exists 0. split; [reflexivity|]. split; [exists []; split; reflexivity|]. split; [|cbn; lia]. intros [|]; cbn; intros; [lia|discriminate].
  - inversion Hd as [|? ? Pd Hd']; subst. destruct (IH p' q' Hd' Hp' Hq') as (m & Em & (ks & Lk & Ek) & Hmin & Hh).
    destruct (smallest_diff_spec a b d Pd ltac:(lia)) as ((k & Hk) & Hs & Hb2).
    cbn [sum_sq_diff]. rewrite Em. eexists. split; [reflexivity|]. split; [|split].
    + exists (k :: ks). split; [cbn; lia|]. cbn [image_sq_dist]. rewrite Ek, <- Hk. reflexivity.
    + intros [|k' ks'] Lk'; [discriminate|]. cbn [image_sq_dist length] in *. specialize (Hs k'). specialize (Hmin ks' ltac:(lia)). lia.
    + cbn [half_diagonal_sq]. set (s := smallest_diff a b d) in *.
      assert (Hd2 : Z.abs s <= Z.abs (d / 2)) by (assert (0 <= d / 2) by (apply Z.div_pos; lia); rewrite (Z.abs_eq (d / 2)) by lia; apply Z.div_le_lower_bound; lia).
      pose proof (sq_le_abs _ _ Hd2). pose proof (Z.square_nonneg s). unfold Z.square in *. nia.
Qed.

Lemma dist_defined dom i j : valid_domain dom -> 0 <= i < num_nodes dom -> 0 <= j < num_nodes dom ->
  exists m, point_dist_sq i j dom = Some m /\ periodic_sq_dist dom i j m /\ 0 <= m <= half_diagonal_sq dom.
Proof.
  intros V Hi Hj. destruct (node_idx_pos dom i V Hi) as (p & Ep & Bp & _). destruct (node_idx_pos dom j V Hj) as (q & Eq & Bq & _).
  destruct (sum_sq_spec dom p q (proj2 V) Bp Bq) as (m & Em & Hex & Hmin & Hh).
  exists m. split; [|split; [|exact Hh]].
  - unfold point_dist_sq. rewrite Ep, Eq. exact Em.
  - exists p, q. auto.
Qed.
Lemma periodic_unique dom i j m m' : periodic_sq_dist dom i j m -> periodic_sq_dist dom i j m' -> m = m'.
Proof.
  intros (p & q & E1 & E2 & (ks & L & K) & M) (p' & q' & E1' & E2' & (ks' & L' & K') & M').
  rewrite E1 in E1'. rewrite E2 in E2'. injection E1' as <-. injection E2' as <-.
  specialize (M ks' L'). specialize (M' ks L). lia.
Qed.

(** The loop with the points seen so far. *)
Lemma closest_from_spec dom j : valid_domain dom -> 0 <= j < num_nodes dom -> forall pts seen best mind,
  Forall (fun p => 0 <= p < num_nodes dom) (seen ++ pts) ->
  ((mind = max_int32 /\ best = 0%nat /\ forall s q m', nth_error seen s = Some q -> periodic_sq_dist dom q j m' -> max_int32 <= m') \/
   (mind < max_int32 /\ exists p, nth_error seen best = Some p /\ periodic_sq_dist dom p j mind /\
      forall s q m', nth_error seen s = Some q -> periodic_sq_dist dom q j m' -> mind <= m' /\ ((s < best)%nat -> mind < m'))) ->
  exists l, closest_from pts j dom (length seen) best mind = Some l /\
  ((l = 0%nat /\ forall s q m', nth_error (seen ++ pts) s = Some q -> periodic_sq_dist dom q j m' -> max_int32 <= m') \/
   (first_nearest dom (seen ++ pts) j l /\ exists p m, nth_error (seen ++ pts) l = Some p /\ periodic_sq_dist dom p j m /\ m < max_int32)).
Proof.
  intros V Hj. induction pts as [|p pts IH]; intros seen best mind HF Inv; cbn [closest_from].
  - exists best. split; [reflexivity|]. rewrite app_nil_r in *. destruct Inv as [(-> & -> & H)|(H1 & p & H2 & H3 & H4)].
    + left. split; [reflexivity|exact H].
    + right. split; [exists p, mind; auto|]. exists p, mind. auto.
  - assert (Hp : 0 <= p < num_nodes dom) by (apply Forall_app in HF; destruct HF as [_ HF]; inversion HF; assumption).
    destruct (dist_defined dom p j V Hp Hj) as (d & Ed & Pd & Hd0). rewrite Ed.
    assert (HF' : Forall (fun p => 0 <= p < num_nodes dom) ((seen ++ [p]) ++ pts)) by (rewrite <- app_assoc; exact HF).
    assert (Len : length (seen ++ [p]) = S (length seen)) by (rewrite app_length; cbn; lia).
    assert (Nlast : forall s q, nth_error (seen ++ [p]) s = Some q -> (nth_error seen s = Some q /\ (s < length seen)%nat) \/ (s = length seen /\ q = p)).
    { intros s q Hs. destruct (lt_dec s (length seen)) as [Hlt|Hge].
      - rewrite nth_error_app1 in Hs by exact Hlt. left. auto.
      - rewrite nth_error_app2 in Hs by lia. destruct (s - length seen)%nat as [|[|]] eqn:E; cbn in Hs; try discriminate. injection Hs as <-. right. split; [lia|reflexivity]. }
    replace (seen ++ p :: pts) with ((seen ++ [p]) ++ pts) by (rewrite <- app_assoc; reflexivity).
    destruct (Z.ltb_spec d mind) as [Hlt|Hge].
    + specialize (IH (seen ++ [p]) (length seen) d HF'). rewrite Len in IH. apply IH. clear IH.
      right. split.
      { destruct Inv as [(-> & _)|(H1 & _)]; lia. }
      exists p. split; [rewrite nth_error_app2, Nat.sub_diag by lia; reflexivity|]. split; [exact Pd|].
      intros s q m' Hs Pm. destruct (Nlast s q Hs) as [[Hs' Hl]|[-> ->]].
      * destruct Inv as [(-> & _ & H)|(H1 & p0 & H2 & H3 & H4)].
        -- specialize (H s q m' Hs' Pm). lia.
        -- destruct (H4 s q m' Hs' Pm). lia.
      * rewrite (periodic_unique _ _ _ _ _ Pm Pd). lia.
    + specialize (IH (seen ++ [p]) best mind HF'). rewrite Len in IH. apply IH. clear IH.
      destruct Inv as [(-> & -> & H)|(H1 & p0 & H2 & H3 & H4)].
      * left. split; [reflexivity|]. split; [reflexivity|]. intros s q m' Hs Pm. destruct (Nlast s q Hs) as [[Hs' Hl]|[-> ->]]; [apply (H s q m' Hs' Pm)|].
        rewrite (periodic_unique _ _ _ _ _ Pm Pd). exact Hge.
      * right. split; [exact H1|]. exists p0.
        assert (Hbl : (best < length seen)%nat) by (apply nth_error_Some; rewrite H2; discriminate).
        split; [rewrite nth_error_app1 by exact Hbl; exact H2|]. split; [exact H3|].
        intros s q m' Hs Pm. destruct (Nlast s q Hs) as [[Hs' Hl]|[-> ->]]; [apply (H4 s q m' Hs' Pm)|].
        rewrite (periodic_unique _ _ _ _ _ Pm Pd). lia.
Qed.

Theorem closest_spec dom pts j : valid_domain dom -> 0 <= j < num_nodes dom -> Forall (fun p => 0 <= p < num_nodes dom) pts ->
  exists l, closest_point pts j dom = Some l /\
  ((exists p m, In p pts /\ periodic_sq_dist dom p j m /\ m < max_int32) -> first_nearest dom pts j l) /\
  ((forall p m, In p pts -> periodic_sq_dist dom p j m -> max_int32 <= m) -> l = 0%nat).
Proof.
  intros V Hj HF. destruct (closest_from_spec dom j V Hj pts [] 0%nat max_int32 HF) as (l & El & Hl).
  { left. split; [reflexivity|]. split; [reflexivity|]. intros [|s]; discriminate. }
  exists l. split; [exact El|]. cbn [app] in Hl. destruct Hl as [[-> H]|[H1 (p & m & Hp & Pm & Hm)]].
  - split; [|reflexivity]. intros (p & m & Hp & Pm & Hm). apply In_nth_error in Hp. destruct Hp as [s Hs]. specialize (H s p m Hs Pm). lia.
  - split; [intros _; exact H1|]. intros H. apply nth_error_In in Hp. specialize (H p m Hp Pm). lia.
Qed.

Theorem voronoi_spec dom pts n : valid_domain dom -> Z.of_nat n <= num_nodes dom -> Forall (fun p => 0 <= p < num_nodes dom) pts ->
  exists labels, voronoi pts n dom = Some labels /\ length labels = n /\
  forall j, (j < n)%nat -> exists l, nth_error labels j = Some l /\
  ((exists p m, In p pts /\ periodic_sq_dist dom p (Z.of_nat j) m /\ m < max_int32) -> first_nearest dom pts (Z.of_nat j) l) /\
  ((forall p m, In p pts -> periodic_sq_dist dom p (Z.of_nat j) m -> max_int32 <= m) -> l = 0%nat).
Proof.
  intros V Hn HF. unfold voronoi.
  destruct (all_some_total (map (fun i => closest_point pts i dom) (node_range n))) as [labels E].
  { intros x Hx. apply in_map_iff in Hx. destruct Hx as (i & <- & Hi). apply node_range_In in Hi.
    destruct (closest_spec dom pts i V ltac:(lia) HF) as (l & -> & _). discriminate. }
  exists labels. split; [exact E|]. destruct (all_some_nth _ _ E) as [L N]. rewrite map_length, node_range_length in L. split; [exact L|].
  intros j Hj. destruct (closest_spec dom pts (Z.of_nat j) V ltac:(lia) HF) as (l & El & H). exists l. split; [|exact H].
  rewrite N, nth_error_map, node_range_nth by exact Hj. cbn [option_map]. exact El.
Qed.

Theorem voronoi_small dom pts n : valid_domain dom -> half_diagonal_sq dom < max_int32 -> Z.of_nat n <= num_nodes dom ->
  pts <> [] -> Forall (fun p => 0 <= p < num_nodes dom) pts ->
  exists labels, voronoi pts n dom = Some labels /\ length labels = n /\
  forall j, (j < n)%nat -> exists l, nth_error labels j = Some l /\ first_nearest dom pts (Z.of_nat j) l.
Proof.
  intros V Hh Hn Hne HF. destruct (voronoi_spec dom pts n V Hn HF) as (labels & E & L & H). exists labels. split; [exact E|]. split; [exact L|].
  intros j Hj. destruct (H j Hj) as (l & El & H1 & _). exists l. split; [exact El|]. apply H1.
  destruct pts as [|p pts]; [congruence|]. inversion HF as [|? ? Hp _]; subst.
  destruct (dist_defined dom p (Z.of_nat j) V Hp ltac:(lia)) as (m & _ & Pm & Hm). exists p, m. split; [left; reflexivity|]. split; [exact Pm|lia].
Qed.

(** A domain of 100000 x 1 nodes with the seeds 50000 and 46341. *)
Theorem voronoi_far_refuted : exists dom pts n labels j l,
  valid_domain dom /\ Z.of_nat n <= num_nodes dom /\ pts <> [] /\ Forall (fun p => 0 <= p < num_nodes dom) pts /\
  voronoi pts n dom = Some labels /\ nth_error labels j = Some l /\ ~ first_nearest dom pts (Z.of_nat j) l.
Proof.
  set (dom := [100000; 1]). set (pts := [50000; 46341]).
  assert (V : valid_domain dom) by (split; [left; reflexivity|repeat constructor; lia]).
  assert (HF : Forall (fun p => 0 <= p < num_nodes dom) pts) by (repeat constructor; cbn; lia).
  destruct (voronoi_spec dom pts 1 V ltac:(cbn; lia) HF) as (labels & E & L & H). destruct (H 0%nat ltac:(lia)) as (l & El & _ & H2).
  assert (D0 : periodic_sq_dist dom 50000 0 2500000000).
  { destruct (dist_defined dom 50000 0 V ltac:(cbn; lia) ltac:(cbn; lia)) as (m & Em & Pm & _). vm_compute in Em. injection Em as <-. exact Pm. }
  assert (D1 : periodic_sq_dist dom 46341 0 2147488281).
  { destruct (dist_defined dom 46341 0 V ltac:(cbn; lia) ltac:(cbn; lia)) as (m & Em & Pm & _). vm_compute in Em. injection Em as <-. exact Pm. }
  assert (l = 0%nat).
  { apply H2. intros p m [<-|[<-|[]]] Pm; [rewrite (periodic_unique _ _ _ _ _ Pm D0)|rewrite (periodic_unique _ _ _ _ _ Pm D1)]; unfold max_int32; lia. }
  subst l. exists dom, pts, 1%nat, labels, 0%nat, 0%nat. split; [exact V|]. split; [cbn; lia|]. split; [discriminate|]. split; [exact HF|]. split; [exact E|]. split; [exact El|].
  intros (p & m & Hp & Pm & Hall). cbn in Hp. injection Hp as <-. rewrite (periodic_unique _ _ _ _ _ Pm D0) in Hall.
  destruct (Hall 1%nat 46341 2147488281 eq_refl D1). lia.
Qed.
