(** Proofs about affine transformations, shapes and Draw. *)
From Verif Require Import GridModel GridSpec IndexProofs GridProofs.
From Coq Require Import Psatz.
Open Scope R_scope.

Ltac list_eq := repeat (apply (f_equal2 (@cons R)); [try ring|]); try reflexivity.

(** ** Apply *)
Lemma apply3 (a : affine) x y z : apply a [x; y; z] =
  Some [a 0%nat 0%nat * x + a 0%nat 1%nat * y + a 0%nat 2%nat * z + a 0%nat 3%nat; a 1%nat 0%nat * x + a 1%nat 1%nat * y + a 1%nat 2%nat * z + a 1%nat 3%nat; a 2%nat 0%nat * x + a 2%nat 1%nat * y + a 2%nat 2%nat * z + a 2%nat 3%nat].
Proof. unfold apply. cbn [length Nat.leb seq map rsum padded Nat.eqb nth]. apply (f_equal Some). list_eq. Qed.
Lemma apply2 (a : affine) x y : apply a [x; y] =
  Some [a 0%nat 0%nat * x + a 0%nat 1%nat * y + a 0%nat 3%nat; a 1%nat 0%nat * x + a 1%nat 1%nat * y + a 1%nat 3%nat].
Proof. unfold apply. cbn [length Nat.leb seq map rsum padded Nat.eqb nth]. apply (f_equal Some). list_eq. Qed.
Lemma three (p : list R) : length p = 3%nat -> exists x y z, p = [x; y; z].
Proof. destruct p as [|x [|y [|z [|]]]]; try discriminate. intros _. exists x, y, z. reflexivity. Qed.
Lemma two (p : list R) : length p = 2%nat -> exists x y, p = [x; y].
Proof. destruct p as [|x [|y [|]]]; try discriminate. intros _. exists x, y. reflexivity. Qed.

Theorem append_order a b p : affine_row a -> length p = 3%nat -> apply (append_affine a b) p = and_then (apply a p) (apply b).
Proof.
  intros (R0 & R1 & R2 & R3) L. destruct (three p L) as (x & y & z & ->). rewrite (apply3 a). cbn [and_then]. rewrite !apply3. apply (f_equal Some).
  unfold append_affine. cbn [rsum]. rewrite R0, R1, R2, R3. list_eq.
Qed.
Theorem append_order_planar a b p : affine_row a -> planar b -> length p = 2%nat -> apply (append_affine a b) p = and_then (apply a p) (apply b).
Proof.
  intros (R0 & R1 & R2 & R3) [P0 P1] L. destruct (two p L) as (x & y & ->). rewrite (apply2 a). cbn [and_then]. rewrite !apply2. apply (f_equal Some).
  unfold append_affine. cbn [rsum]. rewrite R0, R1, R3, P0, P1. list_eq.
Qed.
Lemma append_affine_row a b : affine_row a -> affine_row b -> affine_row (append_affine a b).
Proof.
  intros (A0 & A1 & A2 & A3) (B0 & B1 & B2 & B3). unfold affine_row, append_affine. cbn [rsum]. rewrite A0, A1, A2, A3, B0, B1, B2, B3.
  split; [ring|]. split; [ring|]. split; ring.
Qed.
Lemma append_planar a b : affine_row a -> planar a -> planar b -> planar (append_affine a b).
Proof.
  intros (A0 & A1 & A2 & A3) [P0 P1] [Q0 Q1]. unfold planar, append_affine. cbn [rsum]. rewrite A2, P0, P1, Q0, Q1. split; ring.
Qed.
Ltac row4 := unfold affine_row; cbn; split; [|split; [|split]]; reflexivity.
Lemma identity_row : affine_row identity. Proof. row4. Qed.
Lemma rot_z_row t : affine_row (rot_z t). Proof. row4. Qed.
Lemma rot_y_row t : affine_row (rot_y t). Proof. row4. Qed.
Lemma rot_x_row t : affine_row (rot_x t). Proof. row4. Qed.
Lemma short3 (v : list R) : (length v <= 3)%nat -> v = [] \/ (exists a, v = [a]) \/ (exists a b, v = [a; b]) \/ (exists a b c, v = [a; b; c]).
Proof. destruct v as [|a [|b [|c [|]]]]; cbn [length]; intros H; [left|right; left|right; right; left|right; right; right|lia]; eauto. Qed.
Lemma translation_row v : (length v <= 3)%nat -> exists a, translation v = Some a /\ affine_row a.
Proof.
  intros H. destruct (short3 v H) as [->|[(x & ->)|[(x & y & ->)|(x & y & z & ->)]]];
  (eexists; split; [unfold translation; cbn [length Nat.leb]; reflexivity|row4]).
Qed.
Lemma scaling_row v : (length v <= 3)%nat -> exists a, scaling v = Some a /\ affine_row a.
Proof.
  intros H. destruct (short3 v H) as [->|[(x & ->)|[(x & y & ->)|(x & y & z & ->)]]];
  (eexists; split; [unfold scaling; cbn [length Nat.leb]; reflexivity|row4]).
Qed.
Lemma identity_planar : planar identity. Proof. split; reflexivity. Qed.
Lemma rot_z_planar t : planar (rot_z t). Proof. split; reflexivity. Qed.
Lemma translation_planar v : (length v <= 3)%nat -> exists a, translation v = Some a /\ planar a.
Proof.
  intros H. destruct (short3 v H) as [->|[(x & ->)|[(x & y & ->)|(x & y & z & ->)]]];
  (eexists; split; [unfold translation; cbn [length Nat.leb]; reflexivity|split; reflexivity]).
Qed.
Lemma scaling_planar v : (length v <= 3)%nat -> exists a, scaling v = Some a /\ planar a.
Proof.
  intros H. destruct (short3 v H) as [->|[(x & ->)|[(x & y & ->)|(x & y & z & ->)]]];
  (eexists; split; [unfold scaling; cbn [length Nat.leb]; reflexivity|split; reflexivity]).
Qed.

Ltac eval_affine := cbn [set_entry new_affine identity rot_z rot_y rot_x Nat.eqb andb]; unfold identity, rot_z, rot_y, rot_x, set_entry, new_affine; cbn [Nat.eqb andb].
Theorem identity_neutral p : (length p <= 3)%nat -> apply identity p = Some p.
Proof.
  intros H. destruct (short3 p H) as [->|[(x & ->)|[(x & y & ->)|(x & y & z & ->)]]];
  unfold apply; cbn [length Nat.leb seq map rsum padded Nat.eqb nth]; eval_affine; apply (f_equal Some); list_eq.
Qed.
Theorem append_identity a p : length p = 3%nat -> affine_row a ->
  apply (append_affine a identity) p = apply a p /\ apply (append_affine identity a) p = apply a p.
Proof.
  intros L Ra. rewrite (append_order a identity p Ra L), (append_order identity a p identity_row L), (identity_neutral p) by lia. split; [|reflexivity].
  destruct (three p L) as (x & y & z & ->). rewrite apply3. cbn [and_then]. apply identity_neutral. cbn [length]. lia.
Qed.
Fixpoint vmap2 (f : R -> R -> R) (a b : list R) : list R := match a, b with x :: a', y :: b' => f x y :: vmap2 f a' b' | _, _ => [] end.
Theorem translation_moves v p : length v = length p -> (length p <= 3)%nat -> and_then (translation v) (fun a => apply a p) = Some (vmap2 Rplus p v).
Proof.
  intros L H. destruct (short3 p H) as [->|[(x & ->)|[(x & y & ->)|(x & y & z & ->)]]]; destruct v as [|v0 [|v1 [|v2 [|]]]]; try discriminate L;
  unfold translation; cbn [length Nat.leb and_then]; unfold apply; cbn [length Nat.leb seq map rsum padded Nat.eqb nth set_column3 vmap2]; eval_affine; apply (f_equal Some); list_eq.
Qed.
Theorem scaling_scales v p : length v = length p -> (length p <= 3)%nat -> and_then (scaling v) (fun a => apply a p) = Some (vmap2 Rmult p v).
Proof.
  intros L H. destruct (short3 p H) as [->|[(x & ->)|[(x & y & ->)|(x & y & z & ->)]]]; destruct v as [|v0 [|v1 [|v2 [|]]]]; try discriminate L;
  unfold scaling; cbn [length Nat.leb and_then]; unfold apply; cbn [length Nat.leb seq map rsum padded Nat.eqb nth set_diagonal vmap2]; eval_affine; apply (f_equal Some); list_eq.
Qed.

(** ** Rotations *)
Lemma rot_z3 t x y z : apply (rot_z t) [x; y; z] = Some [cos t * x - sin t * y; sin t * x + cos t * y; z].
Proof. rewrite apply3. eval_affine. apply (f_equal Some). list_eq. Qed.
Lemma rot_y3 t x y z : apply (rot_y t) [x; y; z] = Some [cos t * x + sin t * z; y; - sin t * x + cos t * z].
Proof. rewrite apply3. eval_affine. apply (f_equal Some). list_eq. Qed.
Lemma rot_x3 t x y z : apply (rot_x t) [x; y; z] = Some [x; cos t * y - sin t * z; sin t * y + cos t * z].
Proof. rewrite apply3. eval_affine. apply (f_equal Some). list_eq. Qed.
Lemma rot_z2 t x y : apply (rot_z t) [x; y] = Some [cos t * x - sin t * y; sin t * x + cos t * y].
Proof. rewrite apply2. eval_affine. apply (f_equal Some). list_eq. Qed.

Lemma sc t : cos t * cos t = 1 - sin t * sin t.
Proof. pose proof (sin2_cos2 t) as H. unfold Rsqr in H. lra. Qed.
Ltac iso t := cbn [sq_dist]; ring_simplify; replace (cos t ^ 2) with (1 - sin t * sin t) by (rewrite <- sc; ring); ring.
Theorem rotations_keep_distances (rot : R -> affine) t p q : In rot [rot_z; rot_y; rot_x] -> length p = 3%nat -> length q = 3%nat ->
  exists p' q', apply (rot t) p = Some p' /\ apply (rot t) q = Some q' /\ sq_dist p' q' = sq_dist p q.
Proof.
  intros Hr Lp Lq. destruct (three p Lp) as (x & y & z & ->). destruct (three q Lq) as (u & v & w & ->).
  destruct Hr as [<-|[<-|[<-|[]]]]; rewrite ?rot_z3, ?rot_y3, ?rot_x3; (do 2 eexists; split; [reflexivity|]; split; [reflexivity|]); iso t.
Qed.
Theorem rot_z_keeps_distances_2d t p q : length p = 2%nat -> length q = 2%nat ->
  exists p' q', apply (rot_z t) p = Some p' /\ apply (rot_z t) q = Some q' /\ sq_dist p' q' = sq_dist p q.
Proof.
  intros Lp Lq. destruct (two p Lp) as (x & y & ->). destruct (two q Lq) as (u & v & ->).
  rewrite !rot_z2. do 2 eexists; split; [reflexivity|]; split; [reflexivity|]. iso t.
Qed.
Theorem angles_add (rot : R -> affine) s t p : In rot [rot_z; rot_y; rot_x] -> length p = 3%nat ->
  and_then (apply (rot s) p) (apply (rot t)) = apply (rot (s + t)) p.
Proof.
  intros Hr Lp. destruct (three p Lp) as (x & y & z & ->).
  destruct Hr as [<-|[<-|[<-|[]]]]; rewrite ?rot_z3, ?rot_y3, ?rot_x3; cbn [and_then]; rewrite ?rot_z3, ?rot_y3, ?rot_x3; apply (f_equal Some); rewrite cos_plus, sin_plus; list_eq.
Qed.
Theorem angles_add_2d s t p : length p = 2%nat -> and_then (apply (rot_z s) p) (apply (rot_z t)) = apply (rot_z (s + t)) p.
Proof.
  intros Lp. destruct (two p Lp) as (x & y & ->). rewrite ?rot_z2; cbn [and_then]; rewrite ?rot_z2; apply (f_equal Some); rewrite cos_plus, sin_plus; list_eq.
Qed.
(** A point at the angle a in the plane of rotation ends at the angle a + t;
    z turns towards x about the y axis. *)
Theorem rotations_turn t r a w :
  apply (rot_z t) [r * cos a; r * sin a; w] = Some [r * cos (a + t); r * sin (a + t); w] /\
  apply (rot_y t) [r * sin a; w; r * cos a] = Some [r * sin (a + t); w; r * cos (a + t)] /\
  apply (rot_x t) [w; r * cos a; r * sin a] = Some [w; r * cos (a + t); r * sin (a + t)].
Proof.
  rewrite rot_z3, rot_y3, rot_x3, cos_plus, sin_plus. split; [|split]; apply (f_equal Some); list_eq.
Qed.
(** Twice a quarter turn about x of the 2D point (0,1): Apply forgets the third
    coordinate, the appended transformation does not. *)
Theorem append_2d_refuted : exists a b p, affine_row a /\ affine_row b /\ length p = 2%nat /\
  apply (append_affine a b) p <> and_then (apply a p) (apply b).
Proof.
  exists (rot_x (PI / 2)), (rot_x (PI / 2)), [0; 1]. split; [apply rot_x_row|]. split; [apply rot_x_row|]. split; [reflexivity|].
  rewrite apply2. unfold append_affine. cbn [rsum]. eval_affine. rewrite (apply2 (rot_x (PI / 2))). cbn [and_then]. rewrite apply2. eval_affine.
  rewrite cos_PI2, sin_PI2. intros H. injection H. lra.
Qed.

(** ** Draw *)
Lemma overwrite3 (p fp : list R) : length p = 3%nat -> length fp = 3%nat -> overwrite p fp = p.
Proof. intros L M. destruct (three p L) as (x & y & z & ->). destruct (three fp M) as (u & v & w & ->). reflexivity. Qed.
Lemma overwrite2 (p fp : list R) : length p = 2%nat -> length fp = 3%nat -> exists w, overwrite p fp = p ++ [w].
Proof. intros L M. destruct (two p L) as (x & y & ->). destruct (three fp M) as (u & v & w & ->). exists w. reflexivity. Qed.

Lemma one_pixel a dom p fp : valid_domain dom -> (length dom = 3%nat \/ planar a) -> in_box dom p -> length fp = 3%nat ->
  exists fp', apply a (overwrite (map IZR p) fp) = Some fp' /\ length fp' = 3%nat /\ firstn (length dom) fp' = pixel_image a (length dom) p.
Proof.
  intros V D B L. assert (Lp : length p = length dom) by (symmetry; exact (ListAux.Forall2_length _ _ _ B)).
  destruct (proj1 V) as [E2|E3].
  - destruct D as [D|[P0 P1]]; [lia|]. destruct (overwrite2 (map IZR p) fp ltac:(rewrite map_length; lia) L) as [w ->].
    destruct p as [|x [|y [|]]]; cbn [length] in Lp; try lia. cbn [map app]. rewrite apply3. eexists. split; [reflexivity|]. split; [reflexivity|].
    rewrite E2. unfold pixel_image. cbn [firstn seq map rsum nth]. rewrite P0, P1. list_eq.
  - rewrite (overwrite3 (map IZR p) fp ltac:(rewrite map_length; lia) L).
    destruct p as [|x [|y [|z [|]]]]; cbn [length] in Lp; try lia. cbn [map]. rewrite apply3. eexists. split; [reflexivity|]. split; [reflexivity|].
    rewrite E3. unfold pixel_image. cbn [firstn seq map rsum nth]. list_eq.
Qed.
Lemma draw_loop_spec sh dom a value : valid_domain dom -> (length dom = 3%nat \/ planar a) ->
  (forall q, length q = length dom -> exists c, sh_inside sh q = Some c) ->
  forall data i fp, length fp = 3%nat -> (0 <= i)%Z -> (i + Z.of_nat (length data) <= num_nodes dom)%Z ->
  exists out, draw_loop sh dom a value i data fp = Some out /\ length out = length data /\
  forall j p, (j < length data)%nat -> IndexModel.pos dom (i + Z.of_nat j) = Some p ->
  exists c, sh_inside sh (pixel_image a (length dom) p) = Some c /\ nth j out 0 = if c then value else nth j data 0.
Proof.
  intros V D S. induction data as [|v data IH]; intros i fp Lf Hi Hn.
  - exists []. split; [reflexivity|]. split; [reflexivity|]. intros j p Hj. cbn in Hj. lia.
  - cbn [draw_loop]. cbn [length] in Hn. destruct (node_idx_pos dom i V ltac:(lia)) as (p & Ep & Bp & _). rewrite Ep.
    destruct (one_pixel a dom p fp V D Bp Lf) as (fp' & Ea & Lf' & Ef). rewrite Ea, Ef.
    destruct (S (pixel_image a (length dom) p)) as [c Ec]; [unfold pixel_image; rewrite map_length, seq_length; reflexivity|]. rewrite Ec.
    destruct (IH (i + 1)%Z fp' Lf' ltac:(lia) ltac:(lia)) as (out & Eo & Lo & No). rewrite Eo. eexists. split; [reflexivity|]. split; [cbn [length]; lia|].
    intros [|j] q Hj Hq.
    + replace (i + Z.of_nat 0)%Z with i in Hq by lia. rewrite Ep in Hq. injection Hq as <-. exists c. split; [exact Ec|reflexivity].
    + cbn [length] in Hj. cbn [nth]. apply No; [lia|]. replace (i + 1 + Z.of_nat j)%Z with (i + Z.of_nat (Datatypes.S j))%Z by lia. exact Hq.
Qed.
Theorem draw_spec sh dom data a value b : valid_domain dom -> Z.of_nat (length data) = num_nodes dom -> (length dom = 3%nat \/ planar a) ->
  sh_bbox sh = Some b -> bbox_ok b = true -> (forall q, length q = length dom -> exists c, sh_inside sh q = Some c) ->
  exists out, draw sh dom data (Some a) value = Some out /\ length out = length data /\
  forall i p, (i < length data)%nat -> IndexModel.pos dom (Z.of_nat i) = Some p ->
  exists c, sh_inside sh (pixel_image a (length dom) p) = Some c /\ nth i out 0 = if c then value else nth i data 0.
Proof.
  intros V Hl D Eb Ob S. unfold draw. rewrite Eb, Ob.
  destruct (draw_loop_spec sh dom a value V D S data 0%Z [0; 0; 0] eq_refl ltac:(lia) ltac:(lia)) as (out & E & L & N).
  exists out. split; [exact E|]. split; [exact L|]. intros i p Hi Hp. apply (N i p Hi). exact Hp.
Qed.
Theorem draw_without_transformation sh dom data value : draw sh dom data None value = draw sh dom data (Some identity) value.
Proof. reflexivity. Qed.
Lemma pixel_image_identity dim p : (dim <= 3)%nat -> length p = dim -> pixel_image identity dim p = map IZR p.
Proof.
  intros H L. destruct p as [|x [|y [|z [|]]]]; cbn [length] in L; subst dim; try lia;
  unfold pixel_image; cbn [length seq map rsum nth]; eval_affine; list_eq.
Qed.

(** ** Box and Ball *)
Lemma Rgtb_true a b : Rgtb a b = true <-> b < a.
Proof. unfold Rgtb. destruct (Rlt_dec b a); split; intros; try lra; try discriminate; reflexivity. Qed.
Lemma Rltb_true a b : Rltb a b = true <-> a < b.
Proof. unfold Rltb. destruct (Rlt_dec a b); split; intros; try lra; try discriminate; reflexivity. Qed.
Lemma Rgtb_false a b : Rgtb a b = false <-> a <= b.
Proof. unfold Rgtb. destruct (Rlt_dec b a); split; intros; try lra; try discriminate; reflexivity. Qed.
Lemma Rltb_false a b : Rltb a b = false <-> b <= a.
Proof. unfold Rltb. destruct (Rlt_dec a b); split; intros; try lra; try discriminate; reflexivity. Qed.

Lemma Rabs_def2_le x a : Rabs x <= a -> - a <= x <= a.
Proof. intros H. pose proof (Rle_abs x). pose proof (Rle_abs (- x)) as N. rewrite Rabs_Ropp in N. lra. Qed.
Lemma box_loop_iff p : forall diag, (length p <= length diag)%nat -> (box_inside_loop diag p = true <-> forall i, (i < length p)%nat -> Rabs (nth i p 0) <= nth i diag 0 / 2).
Proof.
  induction p as [|x p IH]; intros [|d diag] L; cbn [length] in L; try lia; cbn [box_inside_loop].
  - split; [intros _ i Hi; cbn in Hi; lia|reflexivity].
  - split; [intros _ i Hi; cbn in Hi; lia|reflexivity].
  - assert (X : (Rgtb x (d / 2) || Rltb x (- d / 2)) = false <-> Rabs x <= d / 2).
    { rewrite Bool.orb_false_iff, Rgtb_false, Rltb_false. split.
      - intros [A B]. apply Rabs_le. lra.
      - intros A. apply Rabs_def2_le in A. lra. }
    destruct (Rgtb x (d / 2) || Rltb x (- d / 2)) eqn:E.
    + split; [discriminate|]. intros H. specialize (H 0%nat ltac:(cbn; lia)). cbn [nth] in H. apply X in H. discriminate.
    + rewrite IH by lia. split.
      * intros H [|i] Hi; cbn [nth]; [apply X; reflexivity|]. apply H. cbn [length] in Hi. lia.
      * intros H i Hi. apply (H (S i)). cbn [length]. lia.
Qed.
Theorem box_inside_iff diag p : (length p <= length diag)%nat ->
  exists c, sh_inside (box diag) p = Some c /\ (c = true <-> forall i, (i < length p)%nat -> Rabs (nth i p 0) <= nth i diag 0 / 2).
Proof.
  intros L. cbn [box sh_inside]. unfold box_inside. destruct (Nat.ltb_spec (length diag) (length p)); [lia|]. eexists. split; [reflexivity|]. apply box_loop_iff, L.
Qed.
Lemma dot_sq p : dot p p = sq_dist p (map (fun _ => 0) p).
Proof. induction p as [|x p IH]; cbn [dot sq_dist map]; [reflexivity|]. rewrite IH. ring. Qed.
Theorem ball_inside_iff r p : exists c, sh_inside (ball r) p = Some c /\ (c = true <-> sq_dist p (map (fun _ => 0) p) < r ^ 2).
Proof. eexists. split; [reflexivity|]. rewrite Rltb_true, <- dot_sq. replace (r ^ 2) with (r * r) by ring. reflexivity. Qed.

Lemma trunc_spec x : 0 <= x -> (0 <= trunc x)%Z /\ IZR (trunc x) <= x < IZR (trunc x) + 1.
Proof.
  intros H. unfold trunc. destruct (Rle_dec 0 x); [|lra]. destruct (base_Int_part x) as [A B]. split; [|lra].
  assert (-1 < IZR (Int_part x)) by lra. apply lt_IZR in H0. lia.
Qed.
Lemma ordered_app lo hi lo' hi' : length lo = length hi -> ordered_bounds (lo ++ lo') (hi ++ hi') = ordered_bounds lo hi && ordered_bounds lo' hi'.
Proof. revert hi. induction lo as [|a lo IH]; intros [|b hi] L; try discriminate; [reflexivity|]. cbn [app ordered_bounds]. rewrite IH by (cbn in L; lia). apply Bool.andb_assoc. Qed.
Theorem box_bbox_ok diag : (length diag <= 3)%nat -> Forall (fun d => 0 <= d) diag -> exists b, sh_bbox (box diag) = Some b /\ bbox_ok b = true.
Proof.
  intros L F. cbn [box sh_bbox]. unfold box_bbox. destruct (Nat.leb_spec (length diag) 3); [|lia]. eexists. split; [reflexivity|].
  unfold bbox_ok, pad3. cbn [bb_min bb_max]. rewrite !app_length, !repeat_length, !map_length. replace (length diag + (3 - length diag))%nat with 3%nat by lia. cbn [Nat.eqb andb].
  rewrite ordered_app by (rewrite !map_length; reflexivity). rewrite Bool.andb_true_iff. split.
  - clear L H. induction diag as [|d diag IH]; [reflexivity|]. cbn [map ordered_bounds]. rewrite IH by (exact (Forall_inv_tail F)).
    destruct (trunc_spec (d / 2)) as [T _]; [pose proof (Forall_inv F); cbv beta in *; lra|]. destruct (Z.ltb_spec (trunc (d / 2) + 1) (- trunc (d / 2) - 1)); [lia|reflexivity].
  - generalize (3 - length diag)%nat. intros n. induction n as [|n IH]; [reflexivity|]. cbn [repeat ordered_bounds]. rewrite IH. reflexivity.
Qed.
Theorem ball_bbox_ok r : 0 <= r -> exists b, sh_bbox (ball r) = Some b /\ bbox_ok b = true.
Proof.
  intros H. eexists. split; [reflexivity|]. destruct (trunc_spec r H) as [T _]. unfold bbox_ok. cbn [bb_min bb_max repeat length Nat.eqb ordered_bounds andb].
  destruct (Z.ltb_spec (trunc r + 1) (- trunc r - 1)); [lia|reflexivity].
Qed.
(** The bounding box contains the shape. *)
Theorem box_bbox_contains diag p b : (length p <= length diag)%nat -> sh_bbox (box diag) = Some b -> sh_inside (box diag) p = Some true ->
  forall i, (i < length p)%nat -> IZR (nth i (bb_min b) 0%Z) <= nth i p 0 <= IZR (nth i (bb_max b) 0%Z).
Proof.
  intros L Eb Ei i Hi. destruct (box_inside_iff diag p L) as (c & Ec & Hc). rewrite Ei in Ec. injection Ec as <-. destruct Hc as [Hc _]. specialize (Hc eq_refl i Hi).
  apply Rabs_def2_le in Hc. cbn [box sh_bbox] in Eb. unfold box_bbox in Eb. destruct (Nat.leb (length diag) 3); [|discriminate]. injection Eb as <-. cbn [bb_min bb_max].
  unfold pad3. rewrite !app_nth1 by (rewrite map_length; lia).
  rewrite (nth_indep _ 0%Z ((fun d => (- trunc (d / 2) - 1)%Z) 0)) by (rewrite map_length; lia). rewrite (nth_indep (map (fun d => (trunc (d / 2) + 1)%Z) diag) 0%Z ((fun d => (trunc (d / 2) + 1)%Z) 0)) by (rewrite map_length; lia).
  rewrite (map_nth (fun d => (- trunc (d / 2) - 1)%Z)), (map_nth (fun d => (trunc (d / 2) + 1)%Z)).
  destruct (trunc_spec (nth i diag 0 / 2)) as [_ T]; [lra|]. rewrite minus_IZR, opp_IZR, plus_IZR. lra.
Qed.
Lemma sq_entry p : forall i, (i < length p)%nat -> nth i p 0 * nth i p 0 <= dot p p.
Proof.
  induction p as [|x p IH]; intros i Hi; cbn [length] in Hi; [lia|]. cbn [dot]. assert (N : 0 <= dot p p) by (clear; induction p as [|y p IH]; cbn [dot]; [lra|]; nra).
  destruct i as [|i]; cbn [nth]; [nra|]. specialize (IH i ltac:(lia)). nra.
Qed.
Theorem ball_bbox_contains r p b : 0 <= r -> (length p <= 3)%nat -> sh_bbox (ball r) = Some b -> sh_inside (ball r) p = Some true ->
  forall i, (i < length p)%nat -> IZR (nth i (bb_min b) 0%Z) <= nth i p 0 <= IZR (nth i (bb_max b) 0%Z).
Proof.
  intros Hr L Eb Ei i Hi. cbn [ball sh_inside] in Ei. injection Ei as Ei. rewrite Rltb_true in Ei. pose proof (sq_entry p i Hi) as S.
  cbn [ball sh_bbox] in Eb. injection Eb as <-. cbn [bb_min bb_max].
  assert (E : nth i [- trunc r - 1; - trunc r - 1; - trunc r - 1]%Z 0%Z = (- trunc r - 1)%Z /\ nth i [trunc r + 1; trunc r + 1; trunc r + 1]%Z 0%Z = (trunc r + 1)%Z).
  { destruct i as [|[|[|i]]]; [split; reflexivity|split; reflexivity|split; reflexivity|lia]. }
  destruct E as [-> ->]. destruct (trunc_spec r Hr) as [_ T]. rewrite minus_IZR, opp_IZR, plus_IZR. split; nra.
Qed.

Theorem draw_refuted : exists dom data a r out i p,
  valid_domain dom /\ Z.of_nat (length data) = num_nodes dom /\ affine_row a /\ 0 < r /\
  draw (ball r) dom data (Some a) 1 = Some out /\ IndexModel.pos dom (Z.of_nat i) = Some p /\
  sh_inside (ball r) (pixel_image a (length dom) p) = Some true /\ nth i out 0 = 0.
Proof.
  assert (A : apply (rot_y (PI / 2)) = fun p => apply (rot_y (PI / 2)) p) by reflexivity.
  assert (E : forall x y z, apply (rot_y (PI / 2)) [x; y; z] = Some [z; y; - x]).
  { intros. rewrite rot_y3, cos_PI2, sin_PI2. apply (f_equal Some). list_eq. }
  exists [3; 1]%Z, [0; 0; 0], (rot_y (PI / 2)), (/ 2). eexists. exists 2%nat, [2; 0]%Z.
  split; [split; [left; reflexivity|repeat constructor]|]. split; [reflexivity|]. split; [apply rot_y_row|]. split; [lra|].
  split.
  { unfold draw. destruct (ball_bbox_ok (/ 2) ltac:(lra)) as (b & Eb & Ob). rewrite Eb, Ob. cbn [draw_loop].
    replace (IndexModel.pos [3; 1]%Z 0) with (Some [0; 0]%Z) by reflexivity. replace (IndexModel.pos [3; 1]%Z (0 + 1)) with (Some [1; 0]%Z) by reflexivity.
    replace (IndexModel.pos [3; 1]%Z (0 + 1 + 1)) with (Some [2; 0]%Z) by reflexivity. cbn [map overwrite]. rewrite E. cbn [length firstn overwrite]. rewrite E. cbn [overwrite]. rewrite E. cbn [ball sh_inside dot]. reflexivity. }
  split; [reflexivity|]. split.
  - cbn [ball sh_inside]. apply (f_equal Some). rewrite Rltb_true. unfold pixel_image. cbn [length seq map rsum nth]. eval_affine. rewrite cos_PI2. cbn [dot]. lra.
  - cbn [nth]. replace (Rltb _ _) with false; [reflexivity|]. symmetry. rewrite Rltb_false. lra.
Qed.
