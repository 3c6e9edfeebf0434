(** Properties C09-C13, C57 and C58: Voronoi, Blur, shapes, affine
    transformations, grids, Rotate2D and slice operations. *)
From Verif Require Import GridModel GridSpec GridProofs GridProofs2 GridProofs3 GridProofs4.
From Coq Require Import Psatz.
From Verif Require Import Complex.
Open Scope R_scope.

(** C09. Every node is labelled with the first of the seeds that are nearest
    in periodic distance, provided half the diagonal of the domain is shorter
    than sqrt(2^31-1). *)
Theorem C09_nearest_seed_partial : forall dom pts n,
  valid_domain dom -> (half_diagonal_sq dom < max_int32)%Z -> (Z.of_nat n <= num_nodes dom)%Z ->
  pts <> [] -> Forall (fun p => 0 <= p < num_nodes dom)%Z pts ->
  exists labels, voronoi pts n dom = Some labels /\ length labels = n /\
  forall j, (j < n)%nat -> exists l, nth_error labels j = Some l /\ first_nearest dom pts (Z.of_nat j) l.
Proof. exact voronoi_small. Qed.
Print Assumptions C09_nearest_seed_partial.

(** The result for every domain: right where some seed is nearer than
    sqrt(2^31-1), label 0 where none is. *)
Theorem C09_all_domains : forall dom pts n,
  valid_domain dom -> (Z.of_nat n <= num_nodes dom)%Z -> Forall (fun p => 0 <= p < num_nodes dom)%Z pts ->
  exists labels, voronoi pts n dom = Some labels /\ length labels = n /\
  forall j, (j < n)%nat -> exists l, nth_error labels j = Some l /\
  ((exists p m, In p pts /\ periodic_sq_dist dom p (Z.of_nat j) m /\ (m < max_int32)%Z) -> first_nearest dom pts (Z.of_nat j) l) /\
  ((forall p m, In p pts -> periodic_sq_dist dom p (Z.of_nat j) m -> (max_int32 <= m)%Z) -> l = 0%nat).
Proof. exact voronoi_spec. Qed.
Print Assumptions C09_all_domains.

(** A 100000 x 1 domain gets a wrong label. *)
Theorem C09_large_domain_refuted : exists dom pts n labels j l,
  valid_domain dom /\ (Z.of_nat n <= num_nodes dom)%Z /\ pts <> [] /\ Forall (fun p => 0 <= p < num_nodes dom)%Z pts /\
  voronoi pts n dom = Some labels /\ nth_error labels j = Some l /\ ~ first_nearest dom pts (Z.of_nat j) l.
Proof. exact voronoi_far_refuted. Qed.
Print Assumptions C09_large_domain_refuted.

Example C09_nonvacuous : valid_domain [5; 4]%Z /\ (half_diagonal_sq [5; 4]%Z < max_int32)%Z /\
  voronoi [0; 10]%Z 20 [5; 4]%Z = Some [0; 0; 0; 0; 0; 0; 1; 0; 0; 1; 1; 1; 0; 1; 1; 1; 0; 0; 1; 0]%nat.
Proof. split; [split; [left; reflexivity|repeat constructor]|]. split; vm_compute; reflexivity. Qed.

(** C10. One list of offsets, all vectors within the cutoff, describes what
    Blur does to every array: a weighted mean of the periodically repeated
    data. *)
Theorem C10_blur_is_weighted_mean : forall k dom,
  valid_domain dom -> (0 <= k_cutoff k)%Z ->
  exists L, all_offsets (k_cutoff k) (length dom) L /\
  forall data, Z.of_nat (length data) = num_nodes dom ->
  exists out, blur k data dom = Some out /\ length out = length data /\
  forall i p, (i < length data)%nat -> IndexModel.pos dom (Z.of_nat i) = Some p ->
  nth i out 0 = lsum (fun s => k_value k s * periodic_value dom data (zadd p s)) L / lsum (k_value k) L.
Proof. exact blur_formula. Qed.
Print Assumptions C10_blur_is_weighted_mean.

Theorem C10_constants_unchanged : forall k data dom c,
  valid_domain dom -> averaging k (length dom) -> Z.of_nat (length data) = num_nodes dom ->
  Forall (fun x => x = c) data -> blur k data dom = Some data.
Proof. exact blur_constant. Qed.
Print Assumptions C10_constants_unchanged.

Theorem C10_sum_conserved : forall k data dom,
  valid_domain dom -> averaging k (length dom) -> Z.of_nat (length data) = num_nodes dom ->
  exists out, blur k data dom = Some out /\ lsum (fun x => x) out = lsum (fun x => x) data.
Proof. exact blur_sum_conserved. Qed.
Print Assumptions C10_sum_conserved.

Theorem C10_range_kept : forall k data dom lo hi,
  valid_domain dom -> averaging k (length dom) -> Z.of_nat (length data) = num_nodes dom ->
  Forall (fun x => lo <= x <= hi) data ->
  exists out, blur k data dom = Some out /\ length out = length data /\ Forall (fun x => lo <= x <= hi) out.
Proof. exact blur_bounds. Qed.
Print Assumptions C10_range_kept.

Theorem C10_linear : forall k dom a b x y,
  valid_domain dom -> (0 <= k_cutoff k)%Z -> Z.of_nat (length x) = num_nodes dom -> length y = length x ->
  exists ox oy, blur k x dom = Some ox /\ blur k y dom = Some oy /\
  blur k (map (fun t => a * fst t + b * snd t) (combine x y)) dom = Some (map (fun t => a * fst t + b * snd t) (combine ox oy)).
Proof. exact blur_linear. Qed.
Print Assumptions C10_linear.

(** The box kernel of every width is such a kernel; for width w >= 1 it is the
    plain mean over 2(w/2+1)+1 nodes along every axis. *)
Theorem C10_box_kernel_averages : forall w dim, (0 <= w)%Z -> averaging (box_kernel w) dim.
Proof. exact box_kernel_averaging. Qed.
Print Assumptions C10_box_kernel_averages.
Theorem C10_box_window : forall w dom, valid_domain dom -> (1 <= w)%Z ->
  exists L, all_offsets (Z.quot w 2 + 1) (length dom) L /\
  forall data, Z.of_nat (length data) = num_nodes dom ->
  exists out, blur (box_kernel w) data dom = Some out /\
  forall i p, (i < length data)%nat -> IndexModel.pos dom (Z.of_nat i) = Some p ->
  nth i out 0 = lsum (fun s => periodic_value dom data (zadd p s)) L / INR (length L).
Proof. exact box_blur_mean. Qed.
Print Assumptions C10_box_window.

(** A window wider than the grid. *)
Example C10_nonvacuous : valid_domain [3; 2]%Z /\ averaging (box_kernel 8) (length [3; 2]%Z) /\ Z.of_nat (length [1; 0; 0; 2; 0; 5]) = num_nodes [3; 2]%Z /\
  exists out, blur (box_kernel 8) [1; 0; 0; 2; 0; 5] [3; 2]%Z = Some out /\ lsum (fun x => x) out = 8.
Proof.
  assert (V : valid_domain [3; 2]%Z) by (split; [left; reflexivity|repeat constructor]). assert (A := box_kernel_averaging 8 2 ltac:(lia)).
  split; [exact V|]. split; [exact A|]. split; [reflexivity|].
  destruct (blur_sum_conserved (box_kernel 8) [1; 0; 0; 2; 0; 5] [3; 2]%Z V A eq_refl) as (out & E & S). exists out. split; [exact E|]. rewrite S. cbn [lsum]. lra.
Qed.

(** C11. On a 3D grid with any transformation, and on a 2D grid with a
    transformation whose first two rows do not read the third coordinate, a
    node gets the value exactly if its image is inside the shape. *)
Theorem C11_draw_partial : forall sh dom data a value b,
  valid_domain dom -> Z.of_nat (length data) = num_nodes dom -> (length dom = 3%nat \/ planar a) ->
  sh_bbox sh = Some b -> bbox_ok b = true -> (forall q, length q = length dom -> exists c, sh_inside sh q = Some c) ->
  exists out, draw sh dom data (Some a) value = Some out /\ length out = length data /\
  forall i p, (i < length data)%nat -> IndexModel.pos dom (Z.of_nat i) = Some p ->
  exists c, sh_inside sh (pixel_image a (length dom) p) = Some c /\ nth i out 0 = if c then value else nth i data 0.
Proof. exact draw_spec. Qed.
Print Assumptions C11_draw_partial.

(** Without a transformation the image of a node is the node. *)
Theorem C11_no_transformation : forall sh dom data value,
  draw sh dom data None value = draw sh dom data (Some identity) value.
Proof. exact draw_without_transformation. Qed.
Print Assumptions C11_no_transformation.
Theorem C11_identity_image : forall dim p, (dim <= 3)%nat -> length p = dim -> pixel_image identity dim p = map IZR p.
Proof. exact pixel_image_identity. Qed.
Print Assumptions C11_identity_image.

(** On a 2D grid with other transformations it is false: the third coordinate
    of the previous node leaks into the next one. *)
Theorem C11_draw_leaks_refuted : exists dom data a r out i p,
  valid_domain dom /\ Z.of_nat (length data) = num_nodes dom /\ affine_row a /\ 0 < r /\
  draw (ball r) dom data (Some a) 1 = Some out /\ IndexModel.pos dom (Z.of_nat i) = Some p /\
  sh_inside (ball r) (pixel_image a (length dom) p) = Some true /\ nth i out 0 = 0.
Proof. exact draw_refuted. Qed.
Print Assumptions C11_draw_leaks_refuted.

(** Inside a Box: every coordinate within half the diagonal; inside a Ball:
    nearer to the origin than the radius. *)
Theorem C11_inside_box : forall diag p, (length p <= length diag)%nat ->
  exists c, sh_inside (box diag) p = Some c /\ (c = true <-> forall i, (i < length p)%nat -> Rabs (nth i p 0) <= nth i diag 0 / 2).
Proof. exact box_inside_iff. Qed.
Print Assumptions C11_inside_box.
Theorem C11_inside_ball : forall r p,
  exists c, sh_inside (ball r) p = Some c /\ (c = true <-> sq_dist p (map (fun _ => 0) p) < r ^ 2).
Proof. exact ball_inside_iff. Qed.
Print Assumptions C11_inside_ball.

(** The bounding boxes pass Draw's check and contain the shapes. *)
Theorem C11_box_bounds : forall diag, (length diag <= 3)%nat -> Forall (fun d => 0 <= d) diag ->
  exists b, sh_bbox (box diag) = Some b /\ bbox_ok b = true /\
  forall p, (length p <= length diag)%nat -> sh_inside (box diag) p = Some true ->
  forall i, (i < length p)%nat -> IZR (nth i (bb_min b) 0%Z) <= nth i p 0 <= IZR (nth i (bb_max b) 0%Z).
Proof.
  intros diag L F. destruct (box_bbox_ok diag L F) as (b & E & O). exists b. split; [exact E|]. split; [exact O|].
  intros p Lp Ip. exact (box_bbox_contains diag p b Lp E Ip).
Qed.
Print Assumptions C11_box_bounds.
Theorem C11_ball_bounds : forall r, 0 <= r ->
  exists b, sh_bbox (ball r) = Some b /\ bbox_ok b = true /\
  forall p, (length p <= 3)%nat -> sh_inside (ball r) p = Some true ->
  forall i, (i < length p)%nat -> IZR (nth i (bb_min b) 0%Z) <= nth i p 0 <= IZR (nth i (bb_max b) 0%Z).
Proof.
  intros r H. destruct (ball_bbox_ok r H) as (b & E & O). exists b. split; [exact E|]. split; [exact O|].
  intros p Lp Ip. exact (ball_bbox_contains r p b H Lp E Ip).
Qed.
Print Assumptions C11_ball_bounds.

(** A shifted, turned box on a 2D grid and a ball on a 3D grid meet the
    hypotheses. *)
Example C11_nonvacuous : exists t b b',
  translation [-2; -1] = Some t /\ valid_domain [4; 3]%Z /\ planar (append_affine t (rot_z 1)) /\
  sh_bbox (box [2; 3]) = Some b /\ bbox_ok b = true /\ (forall q, length q = 2%nat -> exists c, sh_inside (box [2; 3]) q = Some c) /\
  valid_domain [4; 3; 2]%Z /\ sh_bbox (ball 2) = Some b' /\ bbox_ok b' = true.
Proof.
  destruct (box_bbox_ok [2; 3] ltac:(cbn; lia) ltac:(repeat constructor; lra)) as (b & E & O). destruct (ball_bbox_ok 2 ltac:(lra)) as (b' & E' & O').
  eexists. exists b, b'. split; [reflexivity|]. split; [split; [left; reflexivity|repeat constructor]|].
  split; [apply append_planar; [row4|split; reflexivity|apply rot_z_planar]|]. split; [exact E|]. split; [exact O|].
  split; [intros q Lq; destruct (box_inside_iff [2; 3] q) as (c & Ec & _); [cbn [length]; lia|exists c; exact Ec]|].
  split; [split; [right; reflexivity|repeat constructor]|]. split; [exact E'|exact O'].
Qed.

(** C12. Append applies the receiver first: points with three coordinates. *)
Theorem C12_append_order_partial : forall a b p, affine_row a -> length p = 3%nat ->
  apply (append_affine a b) p = and_then (apply a p) (apply b).
Proof. exact append_order. Qed.
Print Assumptions C12_append_order_partial.
(** Points with two coordinates when the second transformation does not read
    the third coordinate. *)
Theorem C12_append_order_2d_partial : forall a b p, affine_row a -> planar b -> length p = 2%nat ->
  apply (append_affine a b) p = and_then (apply a p) (apply b).
Proof. exact append_order_planar. Qed.
Print Assumptions C12_append_order_2d_partial.
Theorem C12_append_2d_refuted : exists a b p, affine_row a /\ affine_row b /\ length p = 2%nat /\
  apply (append_affine a b) p <> and_then (apply a p) (apply b).
Proof. exact append_2d_refuted. Qed.
Print Assumptions C12_append_2d_refuted.
(** Everything the constructors and Append build has the last row 0 0 0 1. *)
Theorem C12_constructors : affine_row identity /\ (forall t, affine_row (rot_z t) /\ affine_row (rot_y t) /\ affine_row (rot_x t)) /\
  (forall v, (length v <= 3)%nat -> (exists a, translation v = Some a /\ affine_row a) /\ (exists a, scaling v = Some a /\ affine_row a)) /\
  (forall a b, affine_row a -> affine_row b -> affine_row (append_affine a b)).
Proof.
  split; [exact identity_row|]. split; [intros t; split; [apply rot_z_row|split; [apply rot_y_row|apply rot_x_row]]|].
  split; [intros v H; split; [exact (translation_row v H)|exact (scaling_row v H)]|exact append_affine_row].
Qed.
Print Assumptions C12_constructors.
Theorem C12_identity_neutral : forall a p, (length p <= 3)%nat -> apply identity p = Some p /\
  (length p = 3%nat -> affine_row a -> apply (append_affine a identity) p = apply a p /\ apply (append_affine identity a) p = apply a p).
Proof. intros a p H. split; [exact (identity_neutral p H)|]. intros L Ra. exact (append_identity a p L Ra). Qed.
Print Assumptions C12_identity_neutral.
Theorem C12_translation : forall v p, length v = length p -> (length p <= 3)%nat ->
  and_then (translation v) (fun a => apply a p) = Some (vmap2 Rplus p v).
Proof. exact translation_moves. Qed.
Print Assumptions C12_translation.
Theorem C12_scaling : forall v p, length v = length p -> (length p <= 3)%nat ->
  and_then (scaling v) (fun a => apply a p) = Some (vmap2 Rmult p v).
Proof. exact scaling_scales. Qed.
Print Assumptions C12_scaling.
Theorem C12_rotations_keep_distances : forall (rot : R -> affine) t p q,
  In rot [rot_z; rot_y; rot_x] -> length p = 3%nat -> length q = 3%nat ->
  exists p' q', apply (rot t) p = Some p' /\ apply (rot t) q = Some q' /\ sq_dist p' q' = sq_dist p q.
Proof. exact rotations_keep_distances. Qed.
Print Assumptions C12_rotations_keep_distances.
Theorem C12_angles_add : forall (rot : R -> affine) s t p, In rot [rot_z; rot_y; rot_x] -> length p = 3%nat ->
  and_then (apply (rot s) p) (apply (rot t)) = apply (rot (s + t)) p.
Proof. exact angles_add. Qed.
Print Assumptions C12_angles_add.
(** In two dimensions RotZ is the rotation. *)
Theorem C12_rot_z_2d : forall s t p q, length p = 2%nat -> length q = 2%nat ->
  (exists p' q', apply (rot_z t) p = Some p' /\ apply (rot_z t) q = Some q' /\ sq_dist p' q' = sq_dist p q) /\
  and_then (apply (rot_z s) p) (apply (rot_z t)) = apply (rot_z (s + t)) p.
Proof. intros s t p q Lp Lq. split; [exact (rot_z_keeps_distances_2d t p q Lp Lq)|exact (angles_add_2d s t p Lp)]. Qed.
Print Assumptions C12_rot_z_2d.
(** The sense of the rotations: x towards y, y towards z, z towards x. *)
Theorem C12_rotations_turn : forall t r a w,
  apply (rot_z t) [r * cos a; r * sin a; w] = Some [r * cos (a + t); r * sin (a + t); w] /\
  apply (rot_y t) [r * sin a; w; r * cos a] = Some [r * sin (a + t); w; r * cos (a + t)] /\
  apply (rot_x t) [w; r * cos a; r * sin a] = Some [w; r * cos (a + t); r * sin (a + t)].
Proof. exact rotations_turn. Qed.
Print Assumptions C12_rotations_turn.
(** Shift by (1,0,0), then a quarter turn about z. *)
Example C12_nonvacuous : exists t, translation [1; 0; 0] = Some t /\ affine_row t /\
  apply (append_affine t (rot_z (PI / 2))) [0; 0; 0] = Some [0; 1; 0].
Proof.
  destruct (translation_row [1; 0; 0] ltac:(cbn; lia)) as (t & E & Rt). exists t. split; [exact E|]. split; [exact Rt|].
  rewrite (append_order t _ [0; 0; 0] Rt eq_refl). pose proof (translation_moves [1; 0; 0] [0; 0; 0] eq_refl ltac:(cbn; lia)) as M. rewrite E in M. cbn [and_then] in M. rewrite M. cbn [and_then vmap2].
  rewrite rot_z3, cos_PI2, sin_PI2. apply (f_equal Some). list_eq.
Qed.

(** C13. After any sequence of NewGrid, Copy, assignment, Set and FromComplex
    every grid reads as the map of positions to values it stands for. *)
Theorem C13_every_history : forall os, ops_inside no_grids os ->
  exists gs h, grid_run ([], []) os = Some (gs, h) /\ length gs = length (mn_grids (meaning_run no_grids os)) /\
  forall k g, nth_error gs k = Some g -> exists j, nth_error (mn_grids (meaning_run no_grids os)) k = Some (g_dims g, j) /\
  forall p, in_box (g_dims g) p -> get_grid g p h = Some (mn_value (meaning_run no_grids os) j p).
Proof. exact grid_history. Qed.
Print Assumptions C13_every_history.
Theorem C13_get_after_set : forall g h p q v h',
  valid_domain (g_dims g) -> (g_addr g < length h)%nat -> in_box (g_dims g) p -> in_box (g_dims g) q ->
  set_grid g p v h = Some h' -> get_grid g q h' = if position_eq_dec q p then Some v else get_grid g q h.
Proof. exact get_after_set. Qed.
Print Assumptions C13_get_after_set.
Theorem C13_copy_independent : forall g h g' h' p v h'',
  (g_addr g < length h)%nat -> copy_grid g h = (g', h') ->
  grid_data g' h' = grid_data g h /\ g_dims g' = g_dims g /\
  (set_grid g p v h' = Some h'' -> grid_data g' h'' = grid_data g h) /\
  (set_grid g' p v h' = Some h'' -> grid_data g h'' = grid_data g h).
Proof. exact copy_independent. Qed.
Print Assumptions C13_copy_independent.
Theorem C13_complex_round_trip : forall g h, (g_addr g < length h)%nat ->
  Forall (fun z => Im z = 0) (to_complex g h) /\ length (to_complex g h) = length (grid_data g h) /\ from_complex g (to_complex g h) h = Some h.
Proof. exact complex_round_trip. Qed.
Print Assumptions C13_complex_round_trip.
Theorem C13_complex_real_part : forall g h a, (g_addr g < length h)%nat -> length a = length (grid_data g h) ->
  exists h', from_complex g a h = Some h' /\ to_complex g h' = map (fun z => RtoC (Re z)) a.
Proof. exact complex_round_trip_back. Qed.
Print Assumptions C13_complex_real_part.
Example C13_nonvacuous :
  let os := [GNew [3; 2]%Z; GSet 0 [1; 1]%Z 5; GCopy 0; GShare 0; GSet 1 [1; 1]%Z 7; GSet 2 [0; 1]%Z 2; GFrom 1 [C1; C1]] in
  ops_inside no_grids os /\
  mn_value (meaning_run no_grids os) 0 [1; 1]%Z = 5 /\ mn_value (meaning_run no_grids os) 0 [0; 1]%Z = 2 /\
  mn_value (meaning_run no_grids os) 1 [1; 1]%Z = 7 /\ mn_value (meaning_run no_grids os) 1 [0; 1]%Z = 1.
Proof.
  cbv zeta. split.
  - cbn [ops_inside]. split; [split; [left; reflexivity|repeat constructor]|].
    split; [exists [3; 2]%Z, 0%nat; split; [reflexivity|repeat constructor; lia]|]. split; [cbn; lia|]. split; [cbn; lia|].
    split; [exists [3; 2]%Z, 1%nat; split; [reflexivity|repeat constructor; lia]|]. split; [exists [3; 2]%Z, 0%nat; split; [reflexivity|repeat constructor; lia]|].
    split; [exists [3; 2]%Z, 1%nat; split; [reflexivity|cbn; lia]|exact I].
  - cbn. repeat split; reflexivity.
Qed.

(** C57. A node takes the old value at the position turned by the angle about
    the centre, truncated to the grid and wrapped. *)
Theorem C57_rotate_source : forall d0 d1 data angle,
  (0 < d0)%Z -> (0 < d1)%Z -> Z.of_nat (length data) = num_nodes [d0; d1] ->
  exists out, rotate2d [d0; d1] data angle = Some out /\ length out = length data /\
  forall i p, (i < length data)%nat -> IndexModel.pos [d0; d1] (Z.of_nat i) = Some p ->
  exists s0 s1 : Z, nth i out 0 = periodic_value [d0; d1] data [(d0 / 2 + s0)%Z; (d1 / 2 + s1)%Z] /\
    Rabs (IZR s0 - (cos angle * IZR (nth 0 p 0%Z - d0 / 2) - sin angle * IZR (nth 1 p 0%Z - d1 / 2))) < 1 /\
    Rabs (IZR s1 - (sin angle * IZR (nth 0 p 0%Z - d0 / 2) + cos angle * IZR (nth 1 p 0%Z - d1 / 2))) < 1.
Proof. exact rotate2d_spec. Qed.
Print Assumptions C57_rotate_source.
Theorem C57_no_new_values : forall d0 d1 data angle out,
  (0 < d0)%Z -> (0 < d1)%Z -> Z.of_nat (length data) = num_nodes [d0; d1] ->
  rotate2d [d0; d1] data angle = Some out -> Forall (fun v => In v data) out.
Proof. exact rotate2d_values. Qed.
Print Assumptions C57_no_new_values.
Theorem C57_full_turn : forall d0 d1 data angle,
  (0 < d0)%Z -> (0 < d1)%Z -> Z.of_nat (length data) = num_nodes [d0; d1] -> cos angle = 1 ->
  rotate2d [d0; d1] data angle = Some data.
Proof. exact rotate2d_full_turn. Qed.
Print Assumptions C57_full_turn.
Example C57_nonvacuous : Z.of_nat (length [1; 2; 3; 4; 5; 6]) = num_nodes [3; 2]%Z /\ cos (2 * PI) = 1 /\ rotate2d [3; 2]%Z [1; 2; 3; 4; 5; 6] (2 * PI) = Some [1; 2; 3; 4; 5; 6].
Proof. split; [reflexivity|]. split; [exact cos_2PI|]. apply rotate2d_full_turn; [lia|lia|reflexivity|exact cos_2PI]. Qed.

(** C58. The slice operations. *)
Theorem C58_elementwise : forall f dst data, (length dst <= length data)%nat ->
  exists out, elemwise f dst data = Some out /\ length out = length dst /\
  forall i, (i < length dst)%nat -> nth i out C0 = f (nth i dst C0) (nth i data C0).
Proof. exact elemwise_spec. Qed.
Print Assumptions C58_elementwise.
Theorem C58_divide : forall data x, x <> 0 -> Forall2 (fun z w => Cmul w (RtoC x) = z) data (div_real_scalar data x).
Proof. exact div_scalar_spec. Qed.
Print Assumptions C58_divide.
Theorem C58_extremes : forall l, l <> [] -> exists lo hi, min_real l = Some lo /\ max_real l = Some hi /\
  (forall z, In z l -> lo <= Re z <= hi) /\ (exists z, In z l /\ Re z = lo) /\ (exists z, In z l /\ Re z = hi).
Proof. exact extremes. Qed.
Print Assumptions C58_extremes.
Theorem C58_approximate_equality : forall a b tol,
  (equal_approx a b tol = true <-> Forall2 (fun x y => Rabs (Re x - Re y) <= tol /\ Rabs (Im x - Im y) <= tol) a b) /\
  equal_approx a b tol = equal_approx b a tol.
Proof. intros a b tol. split; [exact (equal_approx_iff a b tol)|exact (equal_approx_sym a b tol)]. Qed.
Print Assumptions C58_approximate_equality.
Example C58_nonvacuous : exists lo hi, min_real [RtoC 3; RtoC (-1); RtoC 2] = Some lo /\ max_real [RtoC 3; RtoC (-1); RtoC 2] = Some hi /\ lo <= -1 /\ 3 <= hi.
Proof.
  destruct (extremes [RtoC 3; RtoC (-1); RtoC 2] ltac:(discriminate)) as (lo & hi & A & B & H & _). exists lo, hi. split; [exact A|]. split; [exact B|].
  pose proof (H (RtoC 3) ltac:(left; reflexivity)) as H3. pose proof (H (RtoC (-1)) ltac:(right; left; reflexivity)) as H1. cbn in H3, H1. lra.
Qed.
