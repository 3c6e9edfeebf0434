(** Proofs about the crystal initialisation: the cells of the package, kernels. *)
From Coq Require Import Lra.
From Verif Require Import CrystalSpec IndexProofs ProductProofs GridProofs GridProofs2 GridProofs3 GridProofs4 LatticeProofs CrystalProofs CrystalProofs2.
From Verif Require Import CrystalModel.
Open Scope R_scope.

Lemma half_length_le v h : 0 < v -> 0 < h -> v <= (2 * h) ^ 3 -> half_length v <= h.
Proof.
  intros Hv Hh H. unfold half_length. enough (Rpower v (1 / 3) <= 2 * h) by lra.
  replace (2 * h) with (Rpower ((2 * h) ^ 3) (1 / 3)).
  - apply Rle_Rpower_l; [lra|]. split; assumption.
  - rewrite <- (Rpower_pow 3) by lra. rewrite Rpower_mult. replace (INR 3 * (1 / 3)) with 1 by (cbn [INR]; lra). apply Rpower_1. lra.
Qed.
Lemma half_length_gt v h : 0 < h -> (2 * h) ^ 3 < v -> h < half_length v.
Proof.
  intros Hh H. unfold half_length. enough (2 * h < Rpower v (1 / 3)) by lra.
  replace (2 * h) with (Rpower ((2 * h) ^ 3) (1 / 3)).
  - apply Rlt_Rpower_l; [lra|]. split; [|exact H]. apply pow_lt. lra.
  - rewrite <- (Rpower_pow 3) by lra. rewrite Rpower_mult. replace (INR 3 * (1 / 3)) with 1 by (cbn [INR]; lra). apply Rpower_1. lra.
Qed.
Lemma lt3 i : (i < 3)%nat -> i = 0%nat \/ i = 1%nat \/ i = 2%nat. Proof. lia. Qed.
Lemma lt2 i : (i < 2)%nat -> i = 0%nat \/ i = 1%nat. Proof. lia. Qed.
Ltac mat := unfold det2, det3, ent, fcc, bcc, sc3d, sc2d, triangular2d, mset, mzero; cbn [Nat.eqb andb rsum nth].
(** the columns e k of integer coefficients, times the multiple n k *)
Definition tab (l : list (list Z)) (k i : nat) : Z := nth i (nth k l []) 0%Z.
Lemma edges_from dim cell a dom l : (0 < dim)%nat -> length dom = dim -> whole_cells a dom ->
  (forall k x, (k < dim)%nat -> (x < dim)%nat -> rsum dim (fun i => IZR (tab l k i) * cell x i) = if Nat.eqb x k then a else 0) ->
  edges_are_lattice_vectors dim cell dom.
Proof.
  intros D0 Hd W H. assert (exists n : nat -> Z, forall k, (k < dim)%nat -> IZR (nth k dom 0%Z) = IZR (n k) * a) as [n Hn].
  { clear H. subst dim. clear D0. induction W as [|d dom [m Hm] W IHW]; [exists (fun _ => 0%Z); cbn [length]; lia|].
    destruct IHW as [n Hn]. exists (fun k => match k with O => m | S k' => n k' end). intros [|k] Hk; cbn [nth length] in *; [exact Hm|apply Hn; lia]. }
  exists (fun k i => (n k * tab l k i)%Z). intros k x Hk Hx.
  transitivity (IZR (n k) * rsum dim (fun i => IZR (tab l k i) * cell x i)).
  { rewrite <- rsum_mul_l. apply rsum_ext. intros. rewrite mult_IZR. ring. }
  rewrite (H k x Hk Hx). destruct (Nat.eqb_spec x k) as [->|]; [rewrite (Hn k Hk)|]; ring.
Qed.
Ltac entries2 := intros k x Hk Hx; apply lt2 in Hk, Hx; destruct Hk as [->| ->], Hx as [->| ->]; mat; unfold tab; cbn [nth]; try lra.
Ltac entries3 := intros k x Hk Hx; apply lt3 in Hk, Hx; destruct Hk as [->|[->| ->]], Hx as [->|[->| ->]]; mat; unfold tab; cbn [nth]; try lra.
Ltac mult_entry := first [exists 0%Z; lra | exists 1%Z; lra | exists (-1)%Z; lra | exists 2%Z; lra].
Lemma package_cells_periodic a dim cell vol inv dom : 1 / 2 <= a -> package_cell a dim cell vol -> length dom = dim -> whole_cells a dom ->
  is_inverse dim cell inv -> exists mn cells, placed_cells dim cell inv vol dom = Some (mn, cells) /\ one_cell_per_lattice_point dim cell dom mn cells.
Proof.
  intros Ha P Hl W HI. destruct P.
  - apply (placed_periodic 3 (fcc a) inv _ dom (a / 2)); try assumption; try lia; try lra.
    + apply (edges_from 3 (fcc a) a dom [[1; -1; 1]; [1; 1; -1]; [-1; 1; 1]]%Z); try assumption; try lia. entries3.
    + intros k x Hk Hx; apply lt3 in Hk, Hx; destruct Hk as [->|[->| ->]], Hx as [->|[->| ->]]; mat; mult_entry.
    + assert (E : det3 (fcc a) = a * a * a / 4) by (pose proof (volumes a); tauto). rewrite E. assert (0 < a * a * a) by (repeat apply Rmult_lt_0_compat; lra). apply half_length_le; [lra|lra|].
      replace ((2 * (a / 2)) ^ 3) with (a * a * a) by field. lra.
  - apply (placed_periodic 3 (bcc a) inv _ dom (a / 2)); try assumption; try lia; try lra.
    + apply (edges_from 3 (bcc a) a dom [[1; -1; 0]; [1; 0; -1]; [0; 1; 1]]%Z); try assumption; try lia. entries3.
    + intros k x Hk Hx; apply lt3 in Hk, Hx; destruct Hk as [->|[->| ->]], Hx as [->|[->| ->]]; mat; mult_entry.
    + assert (E : det3 (bcc a) = a * a * a / 2) by (pose proof (volumes a); tauto). rewrite E. assert (0 < a * a * a) by (repeat apply Rmult_lt_0_compat; lra). apply half_length_le; [lra|lra|].
      replace ((2 * (a / 2)) ^ 3) with (a * a * a) by field. lra.
  - apply (placed_periodic 3 (sc3d a) inv _ dom a); try assumption; try lia; try lra.
    + apply (edges_from 3 (sc3d a) a dom [[1; 0; 0]; [0; 1; 0]; [0; 0; 1]]%Z); try assumption; try lia. entries3.
    + intros k x Hk Hx; apply lt3 in Hk, Hx; destruct Hk as [->|[->| ->]], Hx as [->|[->| ->]]; mat; mult_entry.
    + assert (E : det3 (sc3d a) = a * a * a) by (pose proof (volumes a); tauto). rewrite E. assert (0 < a * a * a) by (repeat apply Rmult_lt_0_compat; lra). apply half_length_le; [lra|lra|].
      replace ((2 * a) ^ 3) with (8 * (a * a * a)) by ring. lra.
  - apply (placed_periodic 2 (sc2d a) inv _ dom a); try assumption; try lia; try lra.
    + apply (edges_from 2 (sc2d a) a dom [[1; 0]; [0; 1]]%Z); try assumption; try lia. entries2.
    + intros k x Hk Hx; apply lt2 in Hk, Hx; destruct Hk as [->| ->], Hx as [->| ->]; mat; mult_entry.
    + assert (E : det2 (sc2d a) = a * a) by (pose proof (volumes a); tauto). rewrite E. assert (0 < a * a) by (apply Rmult_lt_0_compat; lra). apply half_length_le; [lra|lra|].
      replace ((2 * a) ^ 3) with (8 * a * (a * a)) by ring. nra.
  - apply (placed_periodic 2 (triangular2d a) inv _ dom (a / 2)); try assumption; try lia; try lra.
    + apply (edges_from 2 (triangular2d a) a dom [[1; 0]; [-1; 2]]%Z); try assumption; try lia. entries2.
    + intros k x Hk Hx; apply lt2 in Hk, Hx; destruct Hk as [->| ->], Hx as [->| ->]; mat; mult_entry.
    + assert (E : det2 (triangular2d a) = a * a / 2) by (mat; field). rewrite E. assert (0 < a * a) by (apply Rmult_lt_0_compat; lra). apply half_length_le; [lra|lra|].
      replace ((2 * (a / 2)) ^ 3) with (a * (a * a)) by field. nra.
Qed.

(** ** A box whose edges are lattice vectors with a missing atom *)
Definition oblique : matrix := mset (mset (mset mzero 0 0 10) 0 1 1) 1 1 10.
Definition oblique_inv : matrix := mset (mset (mset mzero 0 0 (1 / 10)) 0 1 (- (1 / 100))) 1 1 (1 / 10).
Lemma oblique_inverse : is_inverse 2 oblique oblique_inv.
Proof.
  split; intros i j Hi Hj; apply lt2 in Hi, Hj; destruct Hi as [->| ->], Hj as [->| ->]; unfold mmul, oblique, oblique_inv, kron; mat; lra.
Qed.
Lemma oblique_refuted : edges_are_lattice_vectors 2 oblique [10; 100]%Z /\
  (exists p, lattice_point 2 oblique p /\ (forall k, (k < 2)%nat -> 0 <= p k < IZR (nth k [10; 100]%Z 0%Z)) /\
  exists mn cells, placed_cells 2 oblique oblique_inv (det2 oblique) [10; 100]%Z = Some (mn, cells) /\
  forall z, In z cells -> exists k, (k < 2)%nat /\ p k <> site 2 oblique mn z k).
Proof.
  split.
  - exists (tab [[1; 0]; [-1; 10]]%Z). intros k x Hk Hx. apply lt2 in Hk, Hx. unfold oblique. destruct Hk as [->| ->], Hx as [->| ->]; mat; unfold tab; cbn [nth]; lra.
  - exists (fun k => match k with O => 8 | _ => 80 end). split; [|split].
    + exists (fun i => match i with O => 0%Z | _ => 8%Z end). intros x Hx. apply lt2 in Hx. unfold oblique. destruct Hx as [->| ->]; mat; lra.
    + intros k Hk. apply lt2 in Hk. destruct Hk as [->| ->]; cbn [nth]; lra.
    + destruct (placed_spec 2 oblique oblique_inv (det2 oblique) [10; 100]%Z ltac:(lia) eq_refl oblique_inverse) as (mn & cells & E & _ & _ & I).
      exists mn, cells. split; [exact E|]. intros z Hz. apply I in Hz. destruct Hz as [_ Hz]. exists 0%nat. split; [lia|]. specialize (Hz 0%nat ltac:(lia)). cbn [nth] in Hz.
      assert (2 < half_length (det2 oblique)). { apply half_length_gt; [lra|]. unfold oblique. mat. lra. } lra.
Qed.

(** ** Kernels *)
Lemma gaussian_range w x : 0 < ak_eval (gaussian_kernel w) x <= 1.
Proof.
  cbn [gaussian_kernel ak_eval]. cbv zeta. split; [apply exp_pos|]. rewrite <- exp_0 at 1. assert (0 <= (x / w) ^ 2) by (rewrite <- Rsqr_pow2; apply Rle_0_sqr).
  destruct (Rle_lt_or_eq_dec _ _ H) as [L|L]; [left; apply exp_increasing; lra|right; rewrite <- L; f_equal; lra].
Qed.
Lemma gaussian_centre w : ak_eval (gaussian_kernel w) 0 = 1.
Proof. cbn [gaussian_kernel ak_eval]. cbv zeta. replace (- (0 / w) ^ 2 / 2) with 0 by (unfold Rdiv; ring). apply exp_0. Qed.
Lemma gaussian_decreasing w x y : 0 < w -> 0 <= x < y -> ak_eval (gaussian_kernel w) y < ak_eval (gaussian_kernel w) x.
Proof.
  intros Hw H. cbn [gaussian_kernel ak_eval]. cbv zeta. apply exp_increasing. assert (0 < / w) by (apply Rinv_0_lt_compat; exact Hw).
  assert (x / w < y / w) by (apply Rmult_lt_compat_r; lra). assert (0 <= x / w) by (apply Rmult_le_pos; lra). nra.
Qed.
Lemma gaussian_cutoff w x : 0 < w -> ak_cutoff (gaussian_kernel w) <= x -> ak_eval (gaussian_kernel w) x <= exp (- (9 / 2)).
Proof.
  intros Hw H. cbn [gaussian_kernel ak_cutoff] in H. assert (ak_eval (gaussian_kernel w) (3 * w) = exp (- (9 / 2))) as <-.
  { cbn [gaussian_kernel ak_eval]. cbv zeta. f_equal. field. lra. }
  destruct (Rle_lt_or_eq_dec _ _ H) as [L|<-]; [left; apply gaussian_decreasing; lra|lra].
Qed.
Lemma circle_values r x : 0 <= r -> ak_eval (circle_kernel r) x = 1 /\ 0 <= x < r + 1 \/ ak_eval (circle_kernel r) x = 0 /\ ~ (0 <= x < r + 1).
Proof.
  intros _. cbn [circle_kernel ak_eval]. unfold Rltb. destruct (Rlt_dec x 0), (Rlt_dec x (r + 1)); cbn [negb andb]; [right|right|left|right]; (split; [reflexivity|lra]).
Qed.
Lemma painted_range dim cell basis nb m kern dom cells q old v lo hi : (forall x, lo <= ak_eval kern x <= hi) -> lo <= old <= hi ->
  painted dim cell basis nb m kern dom cells q old v -> lo <= v <= hi.
Proof. intros H Ho [[_ ->]|(z & j & o & _ & -> & _)]; auto. Qed.

(** ** A cutoff below one half *)
Lemma zero_end_next dim k : (dim = 2 \/ dim = 3)%nat -> (0 <= k)%Z ->
  next {| p_end := repeat 0%Z dim; p_cur := repeat 0%Z (pred dim) ++ [k]; p_first := false |} =
  Some (Some (repeat 0%Z (pred dim) ++ [k + 1]%Z), {| p_end := repeat 0%Z dim; p_cur := repeat 0%Z (pred dim) ++ [k + 1]%Z; p_first := false |}).
Proof.
  intros [->| ->] H; unfold next; cbn [repeat pred app p_first p_cur p_end rev]; (destruct (Z.eqb_spec (k + 1) 0); [lia|]); cbn [rev app any_nonzero existsb Z.eqb negb orb];
    (destruct (Z.eqb_spec (k + 1) 0); [lia|]); reflexivity.
Qed.
Lemma zero_end_calls dim : (dim = 2 \/ dim = 3)%nat -> forall n, exists os, calls n (new_product (repeat 0%Z dim)) = Some os /\ ~ In None os.
Proof.
  intros Hd. assert (G : forall n k, (0 <= k)%Z -> exists os, calls n {| p_end := repeat 0%Z dim; p_cur := repeat 0%Z (pred dim) ++ [k]; p_first := false |} = Some os /\ ~ In None os).
  { induction n as [|n IH]; intros k Hk; cbn [calls]; [exists []; split; [reflexivity|intros []]|]. rewrite (zero_end_next dim k Hd Hk).
    destruct (IH (k + 1)%Z ltac:(lia)) as (os & E & N). rewrite E. eexists. split; [reflexivity|]. intros [X|X]; [discriminate|exact (N X)]. }
  intros [|n]; cbn [calls]; [exists []; split; [reflexivity|intros []]|].
  assert (X : next (new_product (repeat 0%Z dim)) = Some (Some (repeat 0%Z dim), {| p_end := repeat 0%Z dim; p_cur := repeat 0%Z (pred dim) ++ [0%Z]; p_first := false |})) by (destruct Hd as [->| ->]; reflexivity).
  rewrite X. destruct (G n 0%Z ltac:(lia)) as (os & E & N). rewrite E. eexists. split; [reflexivity|]. intros [Y|Y]; [discriminate|exact (N Y)].
Qed.
Lemma small_cutoff dim c : (dim = 2 \/ dim = 3)%nat -> 0 <= c < 1 / 2 -> forall n, exists os, calls n (new_product (repeat (trunc (2 * c)) dim)) = Some os /\ ~ In None os.
Proof.
  intros Hd Hc. destruct (trunc_spec (2 * c) ltac:(lra)) as [A [B _]]. assert (trunc (2 * c) < 1)%Z by (apply lt_IZR; lra). replace (trunc (2 * c)) with 0%Z by lia. apply zero_end_calls, Hd.
Qed.
