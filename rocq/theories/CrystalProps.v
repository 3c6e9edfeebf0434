(** C68 - C71: corners of the box, placed atoms, the painted field, grain
    boundaries. *)
From Coq Require Import Lra.
From Verif Require Import CrystalSpec IndexProofs ProductProofs GridProofs4 LatticeProofs CrystalProofs CrystalProofs2 CrystalProofs3.
From Verif Require Import CrystalModel.
Open Scope R_scope.

(** C68: CornersScaledCrd returns the scaled coordinates of every corner of the
    box once; the first axis varies slowest. *)
Theorem C68_corners : forall dim cell inv dom, (dim <> 0)%nat -> is_inverse dim cell inv ->
  exists choices cs, corners_scaled dim inv dom = Some cs /\ lex_sorted choices /\
  (forall s, In s choices <-> corner_choice dim s) /\
  Forall2 (fun s c => scaled_coordinates dim cell c (box_corner dom s)) choices cs.
Proof.
  intros dim cell inv dom Hd HI. destruct (corners_scaled_spec dim cell inv dom Hd HI) as (L & cs & E & _ & S & I & F). exists L, cs. auto.
Qed.
Print Assumptions C68_corners.
(** No cell that lies in the box is missed: the range found from the corners
    covers every point of the box. *)
Theorem C68_cells_of_the_box_are_visited : forall dim cell inv dom, (dim <> 0)%nat -> is_inverse dim cell inv ->
  exists mn cells, visited_cells dim inv dom = Some (mn, cells) /\ lex_sorted cells /\ smallest_corner_coordinate dim cell dom mn /\
  (forall z, In z cells -> length z = dim) /\
  (forall z, length z = dim -> (forall k, (k < dim)%nat -> 0 <= site dim cell mn z k <= IZR (nth k dom 0%Z)) -> In z cells).
Proof. exact visited_spec. Qed.
Print Assumptions C68_cells_of_the_box_are_visited.

(** C69: the cells that get atoms are exactly the ones of the shifted lattice
    in the box, half of the third root of the volume away from its upper
    sides. *)
Theorem C69_placed_cells : forall dim cell inv vol dom, (dim <> 0)%nat -> length dom = dim -> is_inverse dim cell inv ->
  exists mn cells, placed_cells dim cell inv vol dom = Some (mn, cells) /\ lex_sorted cells /\ smallest_corner_coordinate dim cell dom mn /\
  (forall z, In z cells <-> (length z = dim /\ forall k, (k < dim)%nat -> 0 <= site dim cell mn z k /\ site dim cell mn z k + Rpower vol (1 / 3) / 2 <= IZR (nth k dom 0%Z))).
Proof. exact placed_spec. Qed.
Print Assumptions C69_placed_cells.
(** For a box whose edges are lattice vectors every lattice point gets its cell,
    once, provided that the coordinates of the cell vectors are multiples of a
    length not below that threshold. *)
Theorem C69_periodic_crystal_partial : forall dim cell inv vol dom h, (dim <> 0)%nat -> length dom = dim -> is_inverse dim cell inv ->
  edges_are_lattice_vectors dim cell dom -> 0 < h -> multiples_of dim h cell -> Rpower vol (1 / 3) / 2 <= h ->
  exists mn cells, placed_cells dim cell inv vol dom = Some (mn, cells) /\ one_cell_per_lattice_point dim cell dom mn cells.
Proof. exact placed_periodic. Qed.
Print Assumptions C69_periodic_crystal_partial.
(** So for all cells of the package in boxes of whole cells. *)
Theorem C69_package_cells : forall a dim cell vol inv dom, 1 / 2 <= a -> package_cell a dim cell vol -> length dom = dim -> whole_cells a dom ->
  is_inverse dim cell inv -> exists mn cells, placed_cells dim cell inv vol dom = Some (mn, cells) /\ one_cell_per_lattice_point dim cell dom mn cells.
Proof. exact package_cells_periodic. Qed.
Print Assumptions C69_package_cells.
(** The threshold drops atoms in other boxes, although the crystal is periodic:
    cell vectors (10, 0) and (1, 10) in a box of 10 x 100 nodes. *)
Theorem C69_periodic_crystal_refuted : exists cell inv dom,
  is_inverse 2 cell inv /\ length dom = 2%nat /\ edges_are_lattice_vectors 2 cell dom /\
  exists p, lattice_point 2 cell p /\ (forall k, (k < 2)%nat -> 0 <= p k < IZR (nth k dom 0%Z)) /\
  exists mn cells, placed_cells 2 cell inv (det2 cell) dom = Some (mn, cells) /\
  forall z, In z cells -> exists k, (k < 2)%nat /\ p k <> site 2 cell mn z k.
Proof. exists oblique, oblique_inv, [10; 100]%Z. split; [exact oblique_inverse|]. split; [reflexivity|exact oblique_refuted]. Qed.
Print Assumptions C69_periodic_crystal_refuted.

(** C70: afterwards every node holds the kernel at the last offset, within the
    cutoff of an atom, that falls on it, or its old value if there is none. *)
Theorem C70_field : forall dim cell inv vol basis nb kern dom data mn cells,
  valid_domain dom -> length dom = dim -> is_inverse dim cell inv -> Z.of_nat (length data) = num_nodes dom -> 1 / 2 <= ak_cutoff kern ->
  placed_cells dim cell inv vol dom = Some (mn, cells) ->
  exists out, build_crystal dim cell inv vol basis nb kern dom data = Some out /\ length out = length data /\
  forall q n, in_box dom q -> node_idx dom q = Some n ->
    painted dim cell basis nb mn kern dom cells q (nth (Z.to_nat n) data 0) (nth (Z.to_nat n) out 0).
Proof. exact build_spec. Qed.
Print Assumptions C70_field.
(** A Gaussian is 1 in the centre, decreases, and is below exp(-9/2) from the
    cutoff on; the circle is 1 up to one node beyond its radius. *)
Theorem C70_gaussian : forall w, 0 < w ->
  ak_eval (gaussian_kernel w) 0 = 1 /\ (forall x, 0 < ak_eval (gaussian_kernel w) x <= 1) /\
  (forall x y, 0 <= x < y -> ak_eval (gaussian_kernel w) y < ak_eval (gaussian_kernel w) x) /\
  (forall x, ak_cutoff (gaussian_kernel w) <= x -> ak_eval (gaussian_kernel w) x <= exp (- (9 / 2))) /\
  (forall x, ak_eval (gaussian_kernel w) x = exp (- (x * x) / (2 * (w * w)))).
Proof.
  intros w Hw. split; [apply gaussian_centre|]. split; [apply gaussian_range|]. split; [intros; apply gaussian_decreasing; assumption|].
  split; [intros; apply gaussian_cutoff; assumption|]. intros x. cbn [gaussian_kernel ak_eval]. cbv zeta. f_equal. field. lra.
Qed.
Print Assumptions C70_gaussian.
Theorem C70_circle : forall r x, 0 <= r -> (ak_eval (circle_kernel r) x = 1 <-> 0 <= x < r + 1) /\ (ak_eval (circle_kernel r) x = 0 <-> ~ (0 <= x < r + 1)) /\
  circle_area r = PI * r ^ 2.
Proof.
  intros r x H. split; [|split].
  - destruct (circle_values r x H) as [[-> K]|[-> K]]; split; intros; try assumption; try reflexivity; try lra; contradiction.
  - destruct (circle_values r x H) as [[-> K]|[-> K]]; split; intros; try assumption; try reflexivity; try lra; contradiction.
  - unfold circle_area. ring.
Qed.
Print Assumptions C70_circle.
(** All values stay in the range of the kernel and the old field. *)
Theorem C70_bounds : forall dim cell inv vol basis nb kern dom data out lo hi, valid_domain dom -> length dom = dim -> is_inverse dim cell inv ->
  Z.of_nat (length data) = num_nodes dom -> 1 / 2 <= ak_cutoff kern ->
  (forall x, lo <= ak_eval kern x <= hi) -> (forall n, (n < length data)%nat -> lo <= nth n data 0 <= hi) ->
  build_crystal dim cell inv vol basis nb kern dom data = Some out -> forall n, (n < length out)%nat -> lo <= nth n out 0 <= hi.
Proof.
  intros dim cell inv vol basis nb kern dom data out lo hi V Hd HI Hl Hc Hk Ho E n Hn.
  destruct (placed_spec dim cell inv vol dom ltac:(destruct V; lia) Hd HI) as (mn & cells & Ep & _).
  destruct (build_spec dim cell inv vol basis nb kern dom data mn cells V Hd HI Hl Hc Ep) as (out' & E' & L & N). rewrite E in E'. injection E' as <-.
  destruct (node_idx_pos dom (Z.of_nat n) V ltac:(lia)) as (q & _ & B & En). specialize (N q _ B En). rewrite Nat2Z.id in N.
  exact (painted_range _ _ _ _ _ _ _ _ _ _ _ lo hi Hk (Ho n ltac:(lia)) N).
Qed.
Print Assumptions C70_bounds.
(** With a cutoff below one half the loop over the offsets never ends. *)
Theorem C70_small_cutoff_refuted : forall dim c, (dim = 2 \/ dim = 3)%nat -> 0 <= c < 1 / 2 ->
  forall n, exists os, calls n (new_product (repeat (trunc (2 * c)) dim)) = Some os /\ ~ In None os.
Proof. exact small_cutoff. Qed.
Print Assumptions C70_small_cutoff_refuted.

(** C71: TiltGB turns the lower half of the rows by angle/2 and the others by
    -angle/2; values are only moved.  Other dimensions panic. *)
Theorem C71_tilt : forall d0 d1 data angle, (0 < d0)%Z -> (0 < d1)%Z -> Z.of_nat (length data) = num_nodes [d0; d1] ->
  exists out, tilt_gb [d0; d1] data angle = Some out /\ length out = length data /\
  forall ix iy n, in_box [d0; d1] [ix; iy] -> node_idx [d0; d1] [ix; iy] = Some n ->
    turned_value d0 d1 data (if (ix <? d0 / 2)%Z then angle / 2 else - (angle / 2)) ix iy (nth (Z.to_nat n) out 0).
Proof. exact tilt_gb_spec. Qed.
Print Assumptions C71_tilt.
Theorem C71_no_tilt : forall d0 d1 data, (0 < d0)%Z -> (0 < d1)%Z -> Z.of_nat (length data) = num_nodes [d0; d1] -> tilt_gb [d0; d1] data 0 = Some data.
Proof.
  intros d0 d1 data P0 P1 Hl. destruct (tilt_gb_rotations d0 d1 data 0 P0 P1 Hl) as (a & b & out & Ea & Eb & Eo & L & N).
  assert (A : a = data). { pose proof (rotate2d_full_turn d0 d1 data (0 / 2) P0 P1 Hl) as X. rewrite Ea in X. replace (0 / 2) with 0 in X by lra. specialize (X cos_0). congruence. }
  assert (B : b = data). { pose proof (rotate2d_full_turn d0 d1 data (- 0 / 2) P0 P1 Hl) as X. rewrite Eb in X. replace (- 0 / 2) with 0 in X by lra. specialize (X cos_0). congruence. }
  subst a b. rewrite Eo. f_equal. apply (list_nodes_ext d0 d1); try assumption; try lia. intros ix iy n Bx En. rewrite (N ix iy n Bx En). destruct (ix <? d0 / 2)%Z; reflexivity.
Qed.
Print Assumptions C71_no_tilt.
Theorem C71_values : forall d0 d1 data angle out, (0 < d0)%Z -> (0 < d1)%Z -> Z.of_nat (length data) = num_nodes [d0; d1] ->
  tilt_gb [d0; d1] data angle = Some out -> Forall (fun v => In v data) out.
Proof.
  intros d0 d1 data angle out P0 P1 Hl E. destruct (tilt_gb_rotations d0 d1 data angle P0 P1 Hl) as (a & b & out' & Ea & Eb & Eo & L & N).
  rewrite E in Eo. injection Eo as <-. assert (V : valid_domain [d0; d1]) by (split; [left; reflexivity|repeat constructor; lia]).
  pose proof (rotate2d_values d0 d1 data _ a P0 P1 Hl Ea) as Fa. pose proof (rotate2d_values d0 d1 data _ b P0 P1 Hl Eb) as Fb.
  destruct (rotate2d_spec d0 d1 data (angle / 2) P0 P1 Hl) as (a' & Ea' & La & _). rewrite Ea in Ea'. injection Ea' as <-.
  destruct (rotate2d_spec d0 d1 data (- angle / 2) P0 P1 Hl) as (b' & Eb' & Lb & _). rewrite Eb in Eb'. injection Eb' as <-.
  apply Forall_forall. intros v Hv. destruct (In_nth _ _ 0 Hv) as (i & Hi & <-). destruct (node_idx_pos [d0; d1] (Z.of_nat i) V ltac:(lia)) as (p & _ & Bp & En).
  assert (Ep : exists x y, p = [x; y]). { inversion Bp as [|? x ? p' _ B1]; subst. inversion B1 as [|? y ? p'' _ B2]; subst. inversion B2; subst. eauto. }
  destruct Ep as (x & y & ->). specialize (N x y _ Bp En). rewrite Nat2Z.id in N. rewrite N.
  destruct (x <? d0 / 2)%Z; [rewrite Forall_forall in Fa; apply Fa|rewrite Forall_forall in Fb; apply Fb]; apply nth_In; lia.
Qed.
Print Assumptions C71_values.
Theorem C71_other_dimensions_panic : forall dom data angle, length dom <> 2%nat -> tilt_gb dom data angle = None.
Proof. intros [|d0 [|d1 [|d2 dom]]] data angle H; try reflexivity. contradiction H. reflexivity. Qed.
Print Assumptions C71_other_dimensions_panic.

(** Cells of 64 nodes in a box of 128 x 128 nodes. *)
Lemma sc2d_inverse a : a <> 0 -> is_inverse 2 (sc2d a) (sc2d (1 / a)).
Proof.
  intros H. split; intros i j Hi Hj; apply lt2 in Hi, Hj; destruct Hi as [->| ->], Hj as [->| ->]; unfold mmul, kron; mat; try field; try assumption; lra.
Qed.
Example C68_nonvacuous : is_inverse 2 (sc2d 64) (sc2d (1 / 64)) /\ corner_choice 2 [0; 1]%Z.
Proof. split; [apply sc2d_inverse; lra|]. split; [reflexivity|]. repeat constructor; lia. Qed.
Example C69_nonvacuous : package_cell 64 2 (sc2d 64) (det2 (sc2d 64)) /\ whole_cells 64 [128; 128]%Z /\
  exists p, lattice_point 2 (sc2d 64) p /\ forall k, (k < 2)%nat -> 0 <= p k < IZR (nth k [128; 128]%Z 0%Z) /\ p k = 64.
Proof.
  split; [constructor|]. split; [repeat constructor; exists 2%Z; lra|]. exists (fun _ => 64). split.
  - exists (fun _ => 1%Z). intros x Hx. apply lt2 in Hx. destruct Hx as [->| ->]; mat; lra.
  - intros k Hk. apply lt2 in Hk. destruct Hk as [->| ->]; cbn [nth]; lra.
Qed.
Example C70_nonvacuous : valid_domain [128; 128]%Z /\ 1 / 2 <= ak_cutoff (circle_kernel 8) /\ valid_offset 2 (ak_cutoff (circle_kernel 8)) [3; 15]%Z /\
  (forall x, 0 <= ak_eval (circle_kernel 8) x <= 1).
Proof.
  split; [split; [left; reflexivity|repeat constructor; lia]|]. cbn [circle_kernel ak_cutoff]. split; [lra|]. split.
  - split; [reflexivity|]. constructor; [split; [lia|lra]|]. constructor; [split; [lia|lra]|]. constructor.
  - intros x. change (0 <= ak_eval (circle_kernel 8) x <= 1). destruct (circle_values 8 x ltac:(lra)) as [[-> _]|[-> _]]; lra.
Qed.
Example C71_nonvacuous : exists out, tilt_gb [4; 2]%Z [1; 2; 3; 4; 5; 6; 7; 8] PI = Some out /\ length out = 8%nat.
Proof. destruct (tilt_gb_spec 4 2 [1; 2; 3; 4; 5; 6; 7; 8] PI ltac:(lia) ltac:(lia) eq_refl) as (out & E & L & _). exists out. auto. Qed.
