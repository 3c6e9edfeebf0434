(** Model of the grid tools of pfutil: Voronoi, Blur, affine transformations,
    shapes and Draw, Grid and Rotate2D.  Pixel values and coordinates are real
    numbers, indices are integers without overflow, [None] is a panic. *)
From Verif Require Export IndexModel Vec Complex.
Open Scope R_scope.

(** Auxiliary: fails if one of the results fails. *)
Fixpoint all_some {A} (l : list (option A)) : option (list A) :=
  match l with
  | [] => Some []
  | x :: l' => match x, all_some l' with Some y, Some ys => Some (y :: ys) | _, _ => None end
  end.
(** a[i] of a slice indexed by an int, as in pfutil/grid.go. *)
Definition zget {A} (l : list A) (i : Z) : option A := if (i <? 0)%Z then None else nth_error l (Z.to_nat i).
(** for i := range data, as in pfutil/voronoi.go:9 and pfutil/blur.go:48. *)
Definition node_range (n : nat) : list Z := map Z.of_nat (seq 0 n).

(** ** Voronoi *)

(** pfutil/voronoi.go:34-39, absInt. *)
Definition abs_int (x : Z) : Z := if (x <? 0)%Z then (- x)%Z else x.
(** pfutil/voronoi.go:21-28: one coordinate, shifts -1 and 1 in this order. *)
Definition smallest_diff (a b d : Z) : Z :=
  let s0 := (a - b)%Z in
  let m := fun (best shift : Z) => let diff := (a - b + shift * d)%Z in if (abs_int diff <? abs_int best)%Z then diff else best in
  m (m s0 (-1)%Z) 1%Z.
Fixpoint sum_sq_diff (ip jp dom : list Z) : option Z :=
  match ip, jp, dom with
  | [], _, _ => Some 0%Z
  | a :: ip', b :: jp', d :: dom' =>
      match sum_sq_diff ip' jp' dom' with
      | Some r => let s := smallest_diff a b d in Some (s * s + r)%Z
      | None => None
      end
  | _, _, _ => None
  end.
(** pfutil/voronoi.go:16-32, pointDistSq. *)
Definition point_dist_sq (i j : Z) (dom : list Z) : option Z :=
  match IndexModel.pos dom i, IndexModel.pos dom j with
  | Some ip, Some jp => sum_sq_diff ip jp dom
  | _, _ => None
  end.
Definition max_int32 : Z := 2147483647.
(** pfutil/voronoi.go:41-52, closestPoint: the loop over the points from number
    [i] on, with the best distance and point so far. *)
Fixpoint closest_from (pts : list Z) (point : Z) (dom : list Z) (i best : nat) (mind : Z) : option nat :=
  match pts with
  | [] => Some best
  | p :: pts' =>
      match point_dist_sq p point dom with
      | None => None
      | Some d => if (d <? mind)%Z then closest_from pts' point dom (S i) i d
                  else closest_from pts' point dom (S i) best mind
      end
  end.
Definition closest_point (pts : list Z) (point : Z) (dom : list Z) : option nat := closest_from pts point dom 0 0 max_int32.
(** pfutil/voronoi.go:8-12, Voronoi: the labels written into data of length
    [n]. *)
Definition voronoi (pts : list Z) (n : nat) (dom : list Z) : option (list nat) :=
  all_some (map (fun i => closest_point pts i dom) (node_range n)).

(** ** Blur *)

(** pfutil/blur.go:4-12, BlurKernel. *)
Record kernel := { k_value : list Z -> R; k_cutoff : Z }.
(** pfutil/blur.go:15-32, BoxKernel. *)
Definition box_value (width : Z) (x : list Z) : R :=
  if forallb (fun a => negb ((width <? a)%Z || (a <? - width)%Z)) x then 1 else 0.
Definition box_kernel (width : Z) : kernel := {| k_value := box_value width; k_cutoff := (Z.quot width 2 + 1)%Z |}.

(** pfutil/blur.go:57, for pos := prod.Next(); pos != nil; pos = prod.Next(). *)
Fixpoint drain (fuel : nat) (p : product) : option (list (list Z)) :=
  match fuel with
  | O => None
  | S f => match next p with
           | None => None
           | Some (None, _) => Some []
           | Some (Some x, p') => match drain f p' with Some l => Some (x :: l) | None => None end
           end
  end.

(** pfutil/blur.go:57-64: one offset: the wrapped neighbour's value and the
    kernel value. *)
Definition shift_of (cut : Z) (p : list Z) : list Z := map (fun x => (x - cut)%Z) p.
Fixpoint zadd (a b : list Z) : list Z := match a, b with x :: a', y :: b' => (x + y)%Z :: zadd a' b' | _, _ => [] end.
Definition neighbour (data : list R) (dom center shift : list Z) : option R :=
  match wrap (zadd center shift) dom with
  | None => None
  | Some w => match node_idx dom w with None => None | Some j => zget data j end
  end.
(** pfutil/blur.go:54-65: newValue and kernelIntegral. *)
Fixpoint blur_sum (k : kernel) (data : list R) (dom center : list Z) (ps : list (list Z)) (acc integral : R) : option (R * R) :=
  match ps with
  | [] => Some (acc, integral)
  | p :: ps' =>
      let s := shift_of (k_cutoff k) p in
      match neighbour data dom center s with
      | None => None
      | Some v => blur_sum k data dom center ps' (acc + v * k_value k s) (integral + k_value k s)
      end
  end.
(** pfutil/blur.go:38-68, Blur.  The values are read from the copy made at the
    start, so the result is computed node by node from the old data.  The fuel
    of the iterator is one more than the number of offsets. *)
Definition blur (k : kernel) (data : list R) (dom : list Z) : option (list R) :=
  let e := map (fun _ => (2 * k_cutoff k + 1)%Z) dom in
  match drain (S (Z.to_nat (fold_right Z.mul 1%Z e))) (new_product e) with
  | None => None
  | Some ps =>
      all_some (map (fun i => match IndexModel.pos dom i with
                              | None => None
                              | Some c => match blur_sum k data dom c ps 0 0 with
                                          | None => None
                                          | Some (v, s) => Some (v / s)
                                          end
                              end) (node_range (length data)))
  end.

(** ** Affine transformations *)

(** pfutil/affine.go:11-13; a 4x4 matrix as a function of row and column. *)
Definition affine := nat -> nat -> R.
(** pfutil/affine.go:16-26, Apply: at most four coordinates fit in the vector,
    the fourth is overwritten by 1. *)
Definition padded (p : list R) (i : nat) : R := if Nat.eqb i 3 then 1 else nth i p 0.
Definition apply (a : affine) (p : list R) : option (list R) :=
  if Nat.leb (length p) 4 then Some (map (fun i => rsum 4 (fun j => a i j * padded p j)) (seq 0 (length p))) else None.
(** pfutil/affine.go:31-33, Append: A <- B*A. *)
Definition append_affine (a b : affine) : affine := fun i j => rsum 4 (fun k => b i k * a k j).
(** pfutil/affine.go:36-40, NewAffine. *)
Definition new_affine : affine := fun _ _ => 0.
Definition set_entry (a : affine) (i j : nat) (v : R) : affine := fun r c => if Nat.eqb r i && Nat.eqb c j then v else a r c.
(** pfutil/affine.go:43-49, Identity. *)
Definition identity : affine := set_entry (set_entry (set_entry (set_entry new_affine 0 0 1) 1 1 1) 2 2 1) 3 3 1.
(** pfutil/affine.go:52-59, Translation; [i] is the current index. *)
Fixpoint set_column3 (a : affine) (i : nat) (v : list R) : affine :=
  match v with [] => a | x :: v' => set_column3 (set_entry a i 3 x) (S i) v' end.
Definition translation (v : list R) : option affine :=
  if Nat.leb (length v) 4 then Some (set_entry (set_column3 identity 0 v) 3 3 1) else None.
(** pfutil/affine.go:62-69, Scaling. *)
Fixpoint set_diagonal (a : affine) (i : nat) (v : list R) : affine :=
  match v with [] => a | x :: v' => set_diagonal (set_entry a i i x) (S i) v' end.
Definition scaling (v : list R) : option affine :=
  if Nat.leb (length v) 4 then Some (set_entry (set_diagonal new_affine 0 v) 3 3 1) else None.
(** pfutil/affine.go:78-90, RotZ. *)
Definition rot_z (t : R) : affine :=
  set_entry (set_entry (set_entry (set_entry (set_entry (set_entry new_affine 0 0 (cos t)) 0 1 (- sin t)) 1 0 (sin t)) 1 1 (cos t)) 2 2 1) 3 3 1.
(** pfutil/affine.go:99-111, RotY. *)
Definition rot_y (t : R) : affine :=
  set_entry (set_entry (set_entry (set_entry (set_entry (set_entry new_affine 0 0 (cos t)) 0 2 (sin t)) 1 1 1) 2 0 (- sin t)) 2 2 (cos t)) 3 3 1.
(** pfutil/affine.go:120-132, RotX. *)
Definition rot_x (t : R) : affine :=
  set_entry (set_entry (set_entry (set_entry (set_entry (set_entry new_affine 0 0 1) 1 1 (cos t)) 1 2 (- sin t)) 2 1 (sin t)) 2 2 (cos t)) 3 3 1.

(** ** Shapes *)

(** int(x) of pfutil/grid.go:123-124 and pfutil/shapes.go:58-82: truncation towards zero. *)
Definition trunc (x : R) : Z := if Rle_dec 0 x then Int_part x else (- Int_part (- x))%Z.

(** pfutil/shapes.go:6-18, a shape; InteriorPoint may panic. *)
Record bounding_box := { bb_min : list Z; bb_max : list Z }.
Record shape := { sh_inside : list R -> option bool; sh_bbox : option bounding_box }.
(** pfutil/shapes.go:20-29, BoundingBox.check. *)
Fixpoint ordered_bounds (lo hi : list Z) : bool :=
  match lo, hi with a :: lo', b :: hi' => negb (b <? a)%Z && ordered_bounds lo' hi' | _, _ => true end.
Definition bbox_ok (b : bounding_box) : bool :=
  Nat.eqb (length (bb_min b)) 3 && Nat.eqb (length (bb_max b)) 3 && ordered_bounds (bb_min b) (bb_max b).

(** Comparison of floats, auxiliary. *)
Definition Rgtb (a b : R) : bool := if Rlt_dec b a then true else false.
(** Comparison of floats, auxiliary. *)
Definition Rltb (a b : R) : bool := if Rlt_dec a b then true else false.
(** pfutil/shapes.go:37-48, Box.InteriorPoint. *)
Fixpoint box_inside_loop (diag p : list R) : bool :=
  match p, diag with
  | x :: p', d :: diag' => if Rgtb x (d / 2) || Rltb x (- d / 2) then false else box_inside_loop diag' p'
  | _, _ => true
  end.
Definition box_inside (diag p : list R) : option bool :=
  if Nat.ltb (length diag) (length p) then None else Some (box_inside_loop diag p).
(** pfutil/shapes.go:51-62, Box.BBox; a diagonal of more than three entries is
    out of range. *)
Definition pad3 (l : list Z) : list Z := l ++ repeat 0%Z (3 - length l).
Definition box_bbox (diag : list R) : option bounding_box :=
  if Nat.leb (length diag) 3 then
    Some {| bb_min := pad3 (map (fun d => (- trunc (d / 2) - 1)%Z) diag);
            bb_max := pad3 (map (fun d => (trunc (d / 2) + 1)%Z) diag) |}
  else None.
Definition box (diag : list R) : shape := {| sh_inside := box_inside diag; sh_bbox := box_bbox diag |}.

(** pfutil/shapes.go:71-92, Ball. *)
Fixpoint dot (a b : list R) : R := match a, b with x :: a', y :: b' => x * y + dot a' b' | _, _ => 0 end.
Definition ball (r : R) : shape :=
  {| sh_inside := fun p => Some (Rltb (dot p p) (r * r));
     sh_bbox := Some {| bb_min := repeat (- trunc r - 1)%Z 3; bb_max := repeat (trunc r + 1)%Z 3 |} |}.

(** pfutil/shapes.go:98-118, Draw.  [fp] is floatPos: it lives outside the loop
    and only its first len(pos) entries are set for every pixel. *)
Fixpoint overwrite (p fp : list R) : list R :=
  match p, fp with x :: p', _ :: fp' => x :: overwrite p' fp' | [], _ => fp | _, [] => [] end.
Fixpoint draw_loop (sh : shape) (dom : list Z) (a : affine) (value : R) (i : Z) (data fp : list R) : option (list R) :=
  match data with
  | [] => Some []
  | v :: data' =>
      match IndexModel.pos dom i with
      | None => None
      | Some p =>
          match apply a (overwrite (map IZR p) fp) with
          | None => None
          | Some fp' =>
              match sh_inside sh (firstn (length dom) fp') with
              | None => None
              | Some b =>
                  match draw_loop sh dom a value (i + 1) data' fp' with
                  | Some rest => Some ((if b then value else v) :: rest)
                  | None => None
                  end
              end
          end
      end
  end.
Definition draw (sh : shape) (dom : list Z) (data : list R) (transformation : option affine) (value : R) : option (list R) :=
  let a := match transformation with Some a => a | None => identity end in
  match sh_bbox sh with
  | None => None
  | Some b => if bbox_ok b then draw_loop sh dom a value 0 data [0; 0; 0] else None
  end.

(** ** Grid *)

(** pfutil/grid.go:12-15, Grid: the dimensions and the slice of values.  A slice
    is an address of the list of arrays allocated so far, so that two grids may
    share their values. *)
Record grid := { g_dims : list Z; g_addr : nat }.
Definition heap := list (list R).

(** pfutil/grid.go:18-23, NewGrid.  make panics on a negative length. *)
Definition prod_int (l : list Z) : Z := fold_left Z.mul l 1%Z.
Definition new_grid (dims : list Z) (h : heap) : option (grid * heap) :=
  if (prod_int dims <? 0)%Z then None
  else Some ({| g_dims := dims; g_addr := length h |}, h ++ [repeat 0 (Z.to_nat (prod_int dims))]).
Definition grid_data (g : grid) (h : heap) : list R := nth (g_addr g) h [].
(** pfutil/grid.go:26-34, Copy. *)
Definition copy_grid (g : grid) (h : heap) : grid * heap :=
  ({| g_dims := g_dims g; g_addr := length h |}, h ++ [grid_data g h]).
Fixpoint upd {A} (l : list A) (i : nat) (x : A) : list A :=
  match l, i with [], _ => [] | _ :: l', O => x :: l' | y :: l', S i' => y :: upd l' i' x end.
(** pfutil/grid.go:47-49, Set. *)
Definition set_grid (g : grid) (p : list Z) (v : R) (h : heap) : option heap :=
  match node_idx (g_dims g) p with
  | None => None
  | Some i => match zget (grid_data g h) i with
              | None => None
              | Some _ => Some (upd h (g_addr g) (upd (grid_data g h) (Z.to_nat i) v))
              end
  end.
(** pfutil/grid.go:52-54, Get. *)
Definition get_grid (g : grid) (p : list Z) (h : heap) : option R :=
  match node_idx (g_dims g) p with None => None | Some i => zget (grid_data g h) i end.
(** pfutil/grid.go:59-65, ToComplex. *)
Definition to_complex (g : grid) (h : heap) : list C := map RtoC (grid_data g h).
(** pfutil/grid.go:68-72, FromComplex; panics when the array is longer. *)
Fixpoint write_prefix (src dst : list R) : option (list R) :=
  match src, dst with
  | [], _ => Some dst
  | x :: src', _ :: dst' => match write_prefix src' dst' with Some l => Some (x :: l) | None => None end
  | _ :: _, [] => None
  end.
Definition from_complex (g : grid) (a : list C) (h : heap) : option heap :=
  match write_prefix (map Re a) (grid_data g h) with
  | Some d => Some (upd h (g_addr g) d)
  | None => None
  end.

(** pfutil/grid.go:106-130, Rotate2D on the values. *)
Definition rotated_pos (d0 d1 : Z) (c s : R) (p : list Z) : list Z :=
  let p0 := (nth 0 p 0 - Z.quot d0 2)%Z in
  let p1 := (nth 1 p 0 - Z.quot d1 2)%Z in
  [(trunc (IZR p0 * c + IZR p1 * s) + Z.quot d0 2)%Z; (trunc (IZR p1 * c - IZR p0 * s) + Z.quot d1 2)%Z].
Definition rotate2d (dom : list Z) (data : list R) (angle : R) : option (list R) :=
  match dom with
  | [d0; d1] =>
      all_some (map (fun i => match IndexModel.pos dom i with
                              | None => None
                              | Some p => match wrap (rotated_pos d0 d1 (cos (- angle)) (sin (- angle)) p) dom with
                                          | None => None
                                          | Some w => match node_idx dom w with None => None | Some j => zget data j end
                                          end
                              end) (node_range (length data)))
  | _ => None
  end.

(** ** Operations on slices *)

(** pfutil/sliceOperations.go:20-31, ElemwiseAdd and ElemwiseMul: panic when
    the second slice is shorter. *)
Fixpoint elemwise (f : C -> C -> C) (dst data : list C) : option (list C) :=
  match dst, data with
  | [], _ => Some []
  | x :: dst', y :: data' => match elemwise f dst' data' with Some l => Some (f x y :: l) | None => None end
  | _ :: _, [] => None
  end.
(** pfutil/sliceOperations.go:34-40, DivRealScalar. *)
Definition div_real_scalar (data : list C) (x : R) : list C := map (fun z => Cdiv z (RtoC x)) data.
(** pfutil/sliceOperations.go:61-80, MaxReal and MinReal; panic on an empty
    slice. *)
Fixpoint max_from (m : R) (l : list C) : R := match l with [] => m | z :: l' => max_from (if Rgtb (Re z) m then Re z else m) l' end.
Definition max_real (l : list C) : option R := match l with [] => None | z :: _ => Some (max_from (Re z) l) end.
Fixpoint min_from (m : R) (l : list C) : R := match l with [] => m | z :: l' => min_from (if Rltb (Re z) m then Re z else m) l' end.
Definition min_real (l : list C) : option R := match l with [] => None | z :: _ => Some (min_from (Re z) l) end.
(** pfutil/sliceOperations.go:6-17, CmplxEqualApprox. *)
Fixpoint approx_loop (a b : list C) (tol : R) : bool :=
  match a, b with
  | x :: a', y :: b' => if Rgtb (Rabs (Re x - Re y)) tol || Rgtb (Rabs (Im x - Im y)) tol then false else approx_loop a' b' tol
  | _, _ => true
  end.
Definition equal_approx (a b : list C) (tol : R) : bool :=
  if Nat.eqb (length a) (length b) then approx_loop a b tol else false.
