(** Proofs about the crystal initialisation: the visited cells. *)
From Coq Require Import Lra.
From Verif Require Import CrystalSpec IndexProofs ProductProofs GridProofs GridProofs2 GridProofs3 GridProofs4.
From Verif Require Import CrystalModel.
Open Scope R_scope.

(** ** Iterators *)
Lemma indices_spec e : e <> [] -> Forall (fun d => (0 < d)%Z) e ->
  exists L, indices e = Some L /\ lex_sorted L /\ (forall x, In x L <-> in_box e x).
Proof.
  intros He Hp. destruct (product_enumerates e He Hp) as (L & Hc & Hs & Hin & Hl). exists L. split; [|split; assumption].
  unfold indices. pose proof (drain_calls L _ Hc) as D. unfold num_nodes in Hl. rewrite <- Hl, Nat2Z.id. exact D.
Qed.
Lemma in_box_repeat b n s : in_box (repeat b n) s <-> length s = n /\ Forall (fun x => (0 <= x < b)%Z) s.
Proof.
  revert s. induction n as [|n IH]; intros s; cbn [repeat].
  - split; [intros H; inversion H; split; [reflexivity|constructor]|intros [H _]; destruct s; [constructor|discriminate]].
  - split.
    + intros H. inversion H as [|? x ? s' Hx Hs]; subst. apply IH in Hs. destruct Hs as [L F]. split; [cbn [length]; lia|constructor; assumption].
    + intros [L F]. destruct s as [|x s]; [discriminate|]. constructor; [exact (Forall_inv F)|]. apply IH. split; [cbn [length] in L; lia|exact (Forall_inv_tail F)].
Qed.
Lemma indices_repeat b n : (n <> 0)%nat -> (0 < b)%Z ->
  exists L, indices (repeat b n) = Some L /\ lex_sorted L /\ (forall x, In x L <-> (length x = n /\ Forall (fun y => (0 <= y < b)%Z) x)).
Proof.
  intros Hn Hb. destruct (indices_spec (repeat b n)) as (L & E & S & I).
  - destruct n; [contradiction|discriminate].
  - apply Forall_forall. intros x Hx. apply repeat_spec in Hx. lia.
  - exists L. split; [exact E|split; [exact S|]]. intros x. rewrite I. apply in_box_repeat.
Qed.

(** ** Matrices *)
Lemma solve_left n cell inv p : is_inverse n cell inv -> forall i, (i < n)%nat -> mvec n cell (mvec n inv p) i = p i.
Proof.
  intros [_ H] i Hi. unfold mvec. transitivity (rsum n (fun j => rsum n (fun k => cell i j * inv j k * p k))).
  { apply rsum_ext. intros j _. rewrite <- rsum_mul_l. apply rsum_ext. intros k _. ring. }
  rewrite rsum_swap. transitivity (rsum n (fun k => kron i k * p k)).
  - apply rsum_ext. intros k Hk. rewrite rsum_mul_r. f_equal. exact (H i k Hi Hk).
  - apply rsum_kron_l'. exact Hi.
Qed.
Lemma inverse_sym n cell inv : is_inverse n cell inv -> is_inverse n inv cell.
Proof. intros [A B]. split; assumption. Qed.
Lemma mvec_ext n m u v i : (forall j, (j < n)%nat -> u j = v j) -> mvec n m u i = mvec n m v i.
Proof. intros H. unfold mvec. apply rsum_ext. intros j Hj. rewrite (H j Hj). reflexivity. Qed.
Lemma scaled_mvec n cell c p : scaled_coordinates n cell c p <-> forall i, (i < n)%nat -> mvec n cell c i = p i.
Proof.
  unfold scaled_coordinates, mvec. split; intros H i Hi; rewrite <- (H i Hi); apply rsum_ext; intros; ring.
Qed.
Lemma scaled_unique n cell inv c p : is_inverse n cell inv -> scaled_coordinates n cell c p -> forall i, (i < n)%nat -> c i = mvec n inv p i.
Proof.
  intros HI Hs i Hi. rewrite scaled_mvec in Hs. rewrite <- (solve_left n inv cell c (inverse_sym _ _ _ HI) i Hi).
  apply mvec_ext. exact Hs.
Qed.
Lemma corner_box dom s i : corner dom s i = box_corner dom s i.
Proof. unfold corner, box_corner. rewrite mult_IZR. ring. Qed.

(** ** Corners *)
Lemma corners_scaled_spec dim cell inv dom : (dim <> 0)%nat -> is_inverse dim cell inv ->
  exists L cs, corners_scaled dim inv dom = Some cs /\ cs = map (fun s => mvec dim inv (corner dom s)) L /\ lex_sorted L /\
  (forall s, In s L <-> corner_choice dim s) /\ Forall2 (fun s c => scaled_coordinates dim cell c (box_corner dom s)) L cs.
Proof.
  intros Hd HI. destruct (indices_repeat 2 dim Hd ltac:(lia)) as (L & E & S & I). unfold corners_scaled. rewrite E.
  eexists L, _. split; [reflexivity|]. split; [reflexivity|]. split; [exact S|]. split.
  - intros s. rewrite I. unfold corner_choice. split; intros [H1 H2]; (split; [exact H1|]); revert H2; apply Forall_impl; intros; lia.
  - clear - HI. induction L as [|s L IH]; constructor; [|exact IH]. apply scaled_mvec. intros i Hi.
    rewrite (solve_left dim cell inv) by assumption. apply corner_box.
Qed.

(** ** Range *)
Lemma range_loop_spec data : forall mn mx a b, range_loop data mn mx = (a, b) ->
  (a = mn \/ In a data) /\ (b = mx \/ In b data) /\ a <= mn /\ mx <= b /\ Forall (fun x => a <= x <= b) data.
Proof.
  induction data as [|x data IH]; intros mn mx a b E; cbn [range_loop] in E.
  - injection E as <- <-. repeat split; try (left; reflexivity); try lra; constructor.
  - unfold Rltb, Rgtb in E. destruct (IH _ _ _ _ E) as (A & B & A1 & B1 & F). clear E.
    destruct (Rlt_dec x mn) as [L|L]; destruct (Rlt_dec mx x) as [M|M]; cbn [In];
      repeat split; try lra; try (destruct A as [->|A]; auto; fail); try (destruct B as [->|B]; auto; fail); constructor; try assumption; lra.
Qed.
Lemma raw_data_In dim cs x : In x (raw_data dim cs) <-> exists i c, (i < dim)%nat /\ In c cs /\ x = c i.
Proof.
  unfold raw_data. rewrite in_flat_map. split.
  - intros (i & Hi & H). apply in_seq in Hi. apply in_map_iff in H. destruct H as (c & <- & Hc). exists i, c. split; [lia|auto].
  - intros (i & c & Hi & Hc & ->). exists i. split; [apply in_seq; lia|]. apply in_map_iff. exists c. auto.
Qed.
Lemma corner_range_spec dim cs mn mx : (dim <> 0)%nat -> cs <> [] -> corner_range dim cs = (mn, mx) ->
  (exists i c, (i < dim)%nat /\ In c cs /\ mn = c i) /\ (forall i c, (i < dim)%nat -> In c cs -> mn <= c i <= mx).
Proof.
  intros Hd Hc E. unfold corner_range in E. assert (N : In (nth 0 (raw_data dim cs) 0) (raw_data dim cs)).
  { apply nth_In. destruct dim as [|d]; [contradiction|]. destruct cs as [|c cs]; [contradiction|]. unfold raw_data. cbn [seq flat_map map app length]. lia. }
  destruct (range_loop_spec _ _ _ _ _ E) as (A & _ & _ & _ & F). rewrite Forall_forall in F. split.
  - apply raw_data_In. destruct A as [->|A]; assumption.
  - intros i c Hi Hin. apply F. apply raw_data_In. exists i, c. auto.
Qed.

(** ** Points of the box lie between the corners *)
Definition pick (dim : nat) (f : nat -> R) : list Z := map (fun j => if Rle_dec 0 (f j) then 1%Z else 0%Z) (seq 0 dim).
Lemma pick_choice dim f : corner_choice dim (pick dim f).
Proof.
  split; [unfold pick; rewrite map_length, seq_length; reflexivity|]. apply Forall_forall. intros x Hx. unfold pick in Hx.
  apply in_map_iff in Hx. destruct Hx as (j & <- & _). destruct (Rle_dec 0 (f j)); auto.
Qed.
Lemma pick_nth dim f j : (j < dim)%nat -> nth j (pick dim f) 0%Z = if Rle_dec 0 (f j) then 1%Z else 0%Z.
Proof.
  intros H. unfold pick. rewrite (nth_indep _ 0%Z (if Rle_dec 0 (f 0%nat) then 1%Z else 0%Z)) by (rewrite map_length, seq_length; exact H).
  rewrite (map_nth (fun j => if Rle_dec 0 (f j) then 1%Z else 0%Z)). rewrite seq_nth by exact H. reflexivity.
Qed.
Lemma box_point_below dim inv dom q i : (forall j, (j < dim)%nat -> 0 <= q j <= IZR (nth j dom 0%Z)) ->
  mvec dim inv q i <= mvec dim inv (corner dom (pick dim (inv i))) i.
Proof.
  intros H. unfold mvec. apply rsum_le. intros j Hj. specialize (H j Hj). unfold corner. rewrite pick_nth by exact Hj.
  destruct (Rle_dec 0 (inv i j)) as [P|P].
  - rewrite Z.mul_1_r. apply Rmult_le_compat_l; lra.
  - rewrite Z.mul_0_r. nra.
Qed.
Lemma box_point_above dim inv dom q i : (forall j, (j < dim)%nat -> 0 <= q j <= IZR (nth j dom 0%Z)) ->
  mvec dim inv (corner dom (pick dim (fun j => - inv i j))) i <= mvec dim inv q i.
Proof.
  intros H. unfold mvec. apply rsum_le. intros j Hj. specialize (H j Hj). unfold corner. rewrite (pick_nth dim (fun j => - inv i j)) by exact Hj.
  destruct (Rle_dec 0 (- inv i j)) as [P|P].
  - rewrite Z.mul_1_r. nra.
  - rewrite Z.mul_0_r. nra.
Qed.

(** ** Visited cells *)
Lemma site_origin dim cell mn z k : cell_origin dim cell mn z k = site dim cell mn z k.
Proof. unfold cell_origin, site, mvec. apply rsum_ext. intros. ring. Qed.
Lemma trunc_below x n : 0 <= x -> (n <= trunc x)%Z <-> IZR n <= x.
Proof.
  intros Hx. destruct (trunc_spec x Hx) as [_ [A B]]. split; intros H.
  - apply IZR_le in H. lra.
  - assert (IZR n < IZR (trunc x + 1)) by (rewrite plus_IZR; lra). apply lt_IZR in H0. lia.
Qed.
Lemma visited_spec dim cell inv dom : (dim <> 0)%nat -> is_inverse dim cell inv ->
  exists mn L, visited_cells dim inv dom = Some (mn, L) /\ lex_sorted L /\ smallest_corner_coordinate dim cell dom mn /\
  (forall z, In z L -> length z = dim) /\
  (forall z, length z = dim -> (forall k, (k < dim)%nat -> 0 <= site dim cell mn z k <= IZR (nth k dom 0%Z)) -> In z L).
Proof.
  intros Hd HI. destruct (corners_scaled_spec dim cell inv dom Hd HI) as (S & cs & E & Ecs & _ & IS & F2). unfold visited_cells. rewrite E.
  destruct (corner_range dim cs) as [mn mx] eqn:R.
  assert (Hc : cs <> []).
  { rewrite Ecs. pose proof (proj2 (IS _) (pick_choice dim (fun _ => 0))) as X. destruct S; [contradiction|discriminate]. }
  destruct (corner_range_spec dim cs mn mx Hd Hc R) as [(i0 & c0 & Hi0 & Hc0 & Em) B].
  assert (Bc : forall s i, corner_choice dim s -> (i < dim)%nat -> mn <= mvec dim inv (corner dom s) i <= mx).
  { intros s i Hs Hi. apply (B i (mvec dim inv (corner dom s)) Hi). rewrite Ecs. apply in_map_iff. exists s. split; [reflexivity|apply IS; exact Hs]. }
  assert (Rg : 0 <= mx - mn) by (pose proof (Bc _ i0 (pick_choice dim (fun _ => 0)) Hi0); lra).
  assert (Tr : (0 <= trunc (mx - mn))%Z) by (apply trunc_below; [exact Rg|exact Rg]).
  destruct (indices_repeat (trunc (mx - mn) + 1) dim Hd ltac:(lia)) as (L & EL & SL & IL). rewrite EL.
  exists mn, L. split; [reflexivity|]. split; [exact SL|]. split; [|split].
  - split.
    + assert (Hx := Hc0). rewrite Ecs in Hx. apply in_map_iff in Hx. destruct Hx as (s & Es & Hs). exists s, c0, i0. split; [apply IS; exact Hs|]. split; [|split; [exact Hi0|exact Em]].
      subst c0. apply scaled_mvec. intros i Hi. rewrite (solve_left dim cell inv) by assumption. apply corner_box.
    + intros s c i Hs Hsc Hi. rewrite (scaled_unique dim cell inv c _ HI Hsc i Hi). rewrite (mvec_ext dim inv _ (corner dom s)) by (intros; rewrite corner_box; reflexivity). apply Bc; assumption.
  - intros z Hz. apply IL in Hz. tauto.
  - intros z Hz Hp. apply IL. split; [exact Hz|]. apply Forall_forall. intros y Hy. destruct (In_nth _ _ 0%Z Hy) as (i & Hi & <-). rewrite Hz in Hi.
    assert (Ez : mvec dim inv (site dim cell mn z) i = IZR (nth i z 0%Z) + mn).
    { rewrite <- (scaled_unique dim cell inv (fun j => IZR (nth j z 0%Z) + mn) (site dim cell mn z) HI ltac:(intros x Hx; reflexivity) i Hi). reflexivity. }
    pose proof (box_point_below dim inv dom (site dim cell mn z) i Hp) as U. pose proof (box_point_above dim inv dom (site dim cell mn z) i Hp) as D.
    pose proof (Bc _ i (pick_choice dim (inv i)) Hi). pose proof (Bc _ i (pick_choice dim (fun j => - inv i j)) Hi). rewrite Ez in U, D.
    split.
    + apply le_IZR. lra.
    + assert (nth i z 0 <= trunc (mx - mn))%Z by (apply trunc_below; lra). lia.
Qed.

(** ** Placed cells *)
Lemma inside_box_iff dom p t : is_inside_box dom p t = true <-> forall i, (i < length dom)%nat -> 0 <= p i /\ p i + t <= IZR (nth i dom 0%Z).
Proof.
  unfold is_inside_box. rewrite forallb_forall. split.
  - intros H i Hi. specialize (H i ltac:(apply in_seq; lia)). apply negb_true_iff, orb_false_iff in H. unfold Rltb, Rgtb in H.
    destruct (Rlt_dec (p i) 0); [destruct H; discriminate|]. destruct (Rlt_dec (IZR (nth i dom 0%Z)) (p i + t)); [destruct H; discriminate|]. lra.
  - intros H i Hi. apply in_seq in Hi. specialize (H i ltac:(lia)). apply negb_true_iff, orb_false_iff. unfold Rltb, Rgtb.
    destruct (Rlt_dec (p i) 0); [lra|]. destruct (Rlt_dec (IZR (nth i dom 0%Z)) (p i + t)); [lra|]. auto.
Qed.
Lemma lex_sorted_filter f L : lex_sorted L -> lex_sorted (filter f L).
Proof.
  induction L as [|x L IH]; cbn [filter lex_sorted]; [auto|]. intros [H1 H2]. destruct (f x); [|apply IH, H2]. cbn [lex_sorted]. split; [|apply IH, H2].
  rewrite Forall_forall in *. intros y Hy. apply filter_In in Hy. apply H1. tauto.
Qed.
Lemma half_length_pos v : 0 < half_length v.
Proof. unfold half_length. assert (0 < Rpower v (1 / 3)) by apply exp_pos. lra. Qed.
Lemma placed_spec dim cell inv vol dom : (dim <> 0)%nat -> length dom = dim -> is_inverse dim cell inv ->
  exists mn L, placed_cells dim cell inv vol dom = Some (mn, L) /\ lex_sorted L /\ smallest_corner_coordinate dim cell dom mn /\
  (forall z, In z L <-> (length z = dim /\ forall k, (k < dim)%nat -> 0 <= site dim cell mn z k /\ site dim cell mn z k + half_length vol <= IZR (nth k dom 0%Z))).
Proof.
  intros Hd Hl HI. destruct (visited_spec dim cell inv dom Hd HI) as (mn & L & E & S & M & Ln & C). unfold placed_cells. rewrite E.
  eexists mn, _. split; [reflexivity|]. split; [apply lex_sorted_filter, S|]. split; [exact M|]. intros z. rewrite filter_In, inside_box_iff. split.
  - intros [Hz H]. split; [apply Ln, Hz|]. intros k Hk. rewrite <- !site_origin. apply H. lia.
  - intros [Hz H]. pose proof (half_length_pos vol). split.
    + apply C; [exact Hz|]. intros k Hk. specialize (H k Hk). lra.
    + intros k Hk. rewrite site_origin. apply H. lia.
Qed.

(** ** Periodic crystals *)
Fixpoint zsum (n : nat) (f : nat -> Z) : Z := match n with O => 0%Z | S n' => (zsum n' f + f n')%Z end.
Lemma zsum_IZR n f : IZR (zsum n f) = rsum n (fun i => IZR (f i)).
Proof. induction n as [|n IH]; cbn [zsum rsum]; [reflexivity|]. rewrite plus_IZR, IH. reflexivity. Qed.
Lemma corner_integer dim cell inv dom s i : is_inverse dim cell inv -> edges_are_lattice_vectors dim cell dom -> (i < dim)%nat ->
  exists n, mvec dim inv (corner dom s) i = IZR n.
Proof.
  intros HI [e He] Hi. exists (zsum dim (fun k => nth k s 0 * e k i)%Z). symmetry. rewrite zsum_IZR.
  refine (scaled_unique dim cell inv (fun i => rsum dim (fun k => IZR (nth k s 0 * e k i)%Z)) (corner dom s) HI _ i Hi). intros x Hx.
  transitivity (rsum dim (fun j => rsum dim (fun k => IZR (nth k s 0%Z) * (IZR (e k j) * cell x j)))).
  { apply rsum_ext. intros j _. rewrite <- rsum_mul_r. apply rsum_ext. intros k _. rewrite mult_IZR. ring. }
  rewrite rsum_swap. transitivity (rsum dim (fun k => kron x k * box_corner dom s k)).
  - apply rsum_ext. intros k Hk. rewrite rsum_mul_l, (He k x Hk Hx). unfold kron, box_corner. destruct (Nat.eqb_spec x k) as [->|]; ring.
  - rewrite rsum_kron_l' by exact Hx. symmetry. apply corner_box.
Qed.
Lemma smallest_integer dim cell inv dom mn : is_inverse dim cell inv -> edges_are_lattice_vectors dim cell dom ->
  smallest_corner_coordinate dim cell dom mn -> exists n, mn = IZR n.
Proof.
  intros HI He [(s & c & i & Hs & Hc & Hi & ->) _]. rewrite (scaled_unique dim cell inv c _ HI Hc i Hi).
  rewrite (mvec_ext dim inv _ (corner dom s)) by (intros; rewrite corner_box; reflexivity). apply (corner_integer dim cell inv dom s i HI He Hi).
Qed.
Lemma multiple_sum dim h cell (z : nat -> Z) x : multiples_of dim h cell -> (x < dim)%nat ->
  exists n : Z, rsum dim (fun i => IZR (z i) * cell x i) = IZR n * h.
Proof.
  intros Hm Hx. assert (forall m, (m <= dim)%nat -> exists n : Z, rsum m (fun i => IZR (z i) * cell x i) = IZR n * h) as G.
  { induction m as [|m IH]; intros Hle; [exists 0%Z; cbn [rsum]; ring|]. destruct (IH ltac:(lia)) as [n En]. destruct (Hm x m Hx ltac:(lia)) as [c Ec].
    exists (n + z m * c)%Z. cbn [rsum]. rewrite En, Ec, plus_IZR, mult_IZR. ring. }
  apply G. lia.
Qed.
Lemma nth_map_seq (f : nat -> Z) n i : (i < n)%nat -> nth i (map f (seq 0 n)) 0%Z = f i.
Proof.
  intros H. rewrite (nth_indep _ 0%Z (f 0%nat)) by (rewrite map_length, seq_length; exact H). rewrite map_nth, seq_nth by exact H. reflexivity.
Qed.
Lemma site_inj dim cell inv mn z z' : is_inverse dim cell inv -> length z = dim -> length z' = dim ->
  (forall k, (k < dim)%nat -> site dim cell mn z k = site dim cell mn z' k) -> z = z'.
Proof.
  intros HI Lz Lz' H. apply (nth_ext _ _ 0%Z 0%Z); [congruence|]. intros i Hi. rewrite Lz in Hi. apply eq_IZR.
  pose proof (scaled_unique dim cell inv (fun j => IZR (nth j z 0%Z) + mn) (site dim cell mn z) HI ltac:(intros x Hx; reflexivity) i Hi) as A.
  pose proof (scaled_unique dim cell inv (fun j => IZR (nth j z' 0%Z) + mn) (site dim cell mn z') HI ltac:(intros x Hx; reflexivity) i Hi) as B.
  cbv beta in A, B. rewrite (mvec_ext dim inv _ _ i H) in A. lra.
Qed.
Lemma placed_periodic dim cell inv vol dom h : (dim <> 0)%nat -> length dom = dim -> is_inverse dim cell inv ->
  edges_are_lattice_vectors dim cell dom -> 0 < h -> multiples_of dim h cell -> half_length vol <= h ->
  exists mn L, placed_cells dim cell inv vol dom = Some (mn, L) /\ one_cell_per_lattice_point dim cell dom mn L.
Proof.
  intros Hd Hl HI He Hh Hm HL. destruct (placed_spec dim cell inv vol dom Hd Hl HI) as (mn & L & E & S & M & I). exists mn, L. split; [exact E|].
  destruct (smallest_integer dim cell inv dom mn HI He M) as [n Hn]. subst mn.
  split; [apply lex_sorted_NoDup, S|]. split; [intros z Hz; apply I in Hz; tauto|]. split.
  { intros z z' Hz Hz'. apply I in Hz, Hz'. apply (site_inj dim cell inv); tauto. }
  assert (Hlat : forall z k, site dim cell (IZR n) z k = rsum dim (fun i => IZR (nth i z 0%Z + n) * cell k i)).
  { intros z k. unfold site. apply rsum_ext. intros. rewrite plus_IZR. ring. }
  intros p. split.
  - intros (z & Hz & Hp). apply I in Hz. destruct Hz as [_ Hz]. split.
    + exists (fun i => (nth i z 0 + n)%Z). intros x Hx. rewrite (Hp x Hx). apply Hlat.
    + intros k Hk. rewrite (Hp k Hk). specialize (Hz k Hk). pose proof (half_length_pos vol). lra.
  - intros [[z Hz] Hb]. set (z0 := map (fun i => (z i - n)%Z) (seq 0 dim)).
    assert (Hs : forall k, (k < dim)%nat -> p k = site dim cell (IZR n) z0 k).
    { intros k Hk. rewrite (Hz k Hk), Hlat. apply rsum_ext. intros i Hi. unfold z0. rewrite (nth_map_seq (fun i => (z i - n)%Z)) by exact Hi. replace (z i - n + n)%Z with (z i) by ring. reflexivity. }
    exists z0. split; [|exact Hs]. apply I. split; [unfold z0; rewrite map_length, seq_length; reflexivity|].
    intros k Hk. rewrite <- (Hs k Hk). split; [apply Hb, Hk|]. specialize (Hb k Hk).
    destruct (multiple_sum dim h cell z k Hm Hk) as [a Ha]. rewrite <- (Hz k Hk) in Ha.
    destruct He as [e He]. pose proof (He k k Hk Hk) as X. rewrite Nat.eqb_refl in X. destruct (multiple_sum dim h cell (e k) k Hm Hk) as [b Hb']. rewrite X in Hb'.
    rewrite Ha, Hb' in *. assert (IZR a < IZR b) by nra. apply lt_IZR in H. assert (IZR a + 1 <= IZR b) by (rewrite <- (plus_IZR a 1); apply IZR_le; lia). nra.
Qed.
