(** Vocabulary for the statements about the grid tools. *)
From Verif Require Export GridModel IndexSpec.
Open Scope R_scope.

(** ** Periodic distance *)
(** Squared distance between p and the image of q displaced by the lattice
    vector with coefficients ks. *)
Fixpoint image_sq_dist (dom p q ks : list Z) : Z :=
  match dom, p, q, ks with
  | d :: dom', a :: p', b :: q', k :: ks' => ((a - b + k * d) * (a - b + k * d) + image_sq_dist dom' p' q' ks')%Z
  | _, _, _, _ => 0%Z
  end.
(** m is the smallest squared distance between node i and any image of node j. *)
Definition periodic_sq_dist (dom : list Z) (i j m : Z) : Prop :=
  exists p q, IndexModel.pos dom i = Some p /\ IndexModel.pos dom j = Some q /\
  (exists ks, length ks = length dom /\ image_sq_dist dom p q ks = m) /\
  (forall ks, length ks = length dom -> (m <= image_sq_dist dom p q ks)%Z).
(** Seed number l is the first of the seeds closest to node j. *)
Definition first_nearest (dom pts : list Z) (j : Z) (l : nat) : Prop :=
  exists p m, nth_error pts l = Some p /\ periodic_sq_dist dom p j m /\
  forall s q m', nth_error pts s = Some q -> periodic_sq_dist dom q j m' -> (m <= m')%Z /\ ((s < l)%nat -> (m < m')%Z).
(** Sum of the squares of half the extents. *)
Fixpoint half_diagonal_sq (dom : list Z) : Z := match dom with [] => 0%Z | d :: dom' => ((d / 2) * (d / 2) + half_diagonal_sq dom')%Z end.

(** ** Blur *)
Fixpoint lsum {A} (f : A -> R) (l : list A) : R := match l with [] => 0 | x :: l' => f x + lsum f l' end.
(** Value of the periodically repeated data at any integer position. *)
Definition mod_list (p dom : list Z) : list Z := map (fun t => (fst t mod snd t)%Z) (combine p dom).
Definition periodic_value (dom : list Z) (data : list R) (p : list Z) : R :=
  match node_idx dom (mod_list p dom) with Some n => nth (Z.to_nat n) data 0 | None => 0 end.
(** L lists every integer vector with [d] entries in -c..c once. *)
Definition all_offsets (c : Z) (d : nat) (L : list (list Z)) : Prop :=
  NoDup L /\ forall s, In s L <-> length s = d /\ Forall (fun x => (- c <= x <= c)%Z) s.
(** Non-negative values, not all zero within the cutoff. *)
Definition averaging (k : kernel) (dim : nat) : Prop :=
  (0 <= k_cutoff k)%Z /\ (forall s, 0 <= k_value k s) /\
  exists s, length s = dim /\ Forall (fun x => (- k_cutoff k <= x <= k_cutoff k)%Z) s /\ 0 < k_value k s.

(** ** Affine maps *)
Definition affine_row (a : affine) : Prop := a 3%nat 0%nat = 0 /\ a 3%nat 1%nat = 0 /\ a 3%nat 2%nat = 0 /\ a 3%nat 3%nat = 1.
(** The third coordinate does not enter the first two. *)
Definition planar (a : affine) : Prop := a 0%nat 2%nat = 0 /\ a 1%nat 2%nat = 0.
Definition and_then {A B} (x : option A) (f : A -> option B) : option B := match x with Some a => f a | None => None end.
Fixpoint sq_dist (p q : list R) : R := match p, q with x :: p', y :: q' => (x - y) ^ 2 + sq_dist p' q' | _, _ => 0 end.

(** ** Draw *)
(** Image of pixel p: coordinate i of A (p, 0.., 1). *)
Definition pixel_image (a : affine) (dim : nat) (p : list Z) : list R :=
  map (fun i => rsum 3 (fun j => a i j * IZR (nth j p 0%Z)) + a i 3%nat) (seq 0 dim).

(** ** Grid as a map *)
Inductive grid_op :=
| GNew (dims : list Z)                      (* g := NewGrid(dims) *)
| GCopy (k : nat)                           (* g := grids[k].Copy() *)
| GShare (k : nat)                          (* g := grids[k] *)
| GSet (k : nat) (p : list Z) (v : R)       (* grids[k].Set(p, v) *)
| GFrom (k : nat) (a : list C).             (* grids[k].FromComplex(a) *)
Definition grid_step (st : list grid * heap) (o : grid_op) : option (list grid * heap) :=
  let '(gs, h) := st in
  match o with
  | GNew dims => match new_grid dims h with Some (g, h') => Some (gs ++ [g], h') | None => None end
  | GCopy k => match nth_error gs k with Some g => let '(g', h') := copy_grid g h in Some (gs ++ [g'], h') | None => None end
  | GShare k => match nth_error gs k with Some g => Some (gs ++ [g], h) | None => None end
  | GSet k p v => match nth_error gs k with Some g => match set_grid g p v h with Some h' => Some (gs, h') | None => None end | None => None end
  | GFrom k a => match nth_error gs k with Some g => match from_complex g a h with Some h' => Some (gs, h') | None => None end | None => None end
  end.
Fixpoint grid_run (st : list grid * heap) (os : list grid_op) : option (list grid * heap) :=
  match os with [] => Some st | o :: os' => match grid_step st o with Some st' => grid_run st' os' | None => None end end.

(** The meaning: every grid has dimensions and names a map from positions to
    values; Copy makes a new map, assignment shares it. *)
Record meaning := { mn_grids : list (list Z * nat); mn_maps : nat; mn_value : nat -> list Z -> R }.
Definition position_eq_dec : forall p q : list Z, {p = q} + {p <> q} := list_eq_dec Z.eq_dec.
Definition meaning_step (m : meaning) (o : grid_op) : meaning :=
  match o with
  | GNew dims => {| mn_grids := mn_grids m ++ [(dims, mn_maps m)]; mn_maps := S (mn_maps m);
                    mn_value := fun i p => if Nat.eqb i (mn_maps m) then 0 else mn_value m i p |}
  | GCopy k => match nth_error (mn_grids m) k with
               | Some (dims, j) => {| mn_grids := mn_grids m ++ [(dims, mn_maps m)]; mn_maps := S (mn_maps m);
                                      mn_value := fun i p => if Nat.eqb i (mn_maps m) then mn_value m j p else mn_value m i p |}
               | None => m
               end
  | GShare k => match nth_error (mn_grids m) k with
                | Some g => {| mn_grids := mn_grids m ++ [g]; mn_maps := mn_maps m; mn_value := mn_value m |}
                | None => m
                end
  | GSet k p v => match nth_error (mn_grids m) k with
                  | Some (dims, j) => {| mn_grids := mn_grids m; mn_maps := mn_maps m;
                       mn_value := fun i q => if Nat.eqb i j then if position_eq_dec q p then v else mn_value m i q else mn_value m i q |}
                  | None => m
                  end
  | GFrom k a => match nth_error (mn_grids m) k with
                 | Some (dims, j) => {| mn_grids := mn_grids m; mn_maps := mn_maps m;
                      mn_value := fun i q => if Nat.eqb i j then
                        match node_idx dims q with
                        | Some n => match nth_error a (Z.to_nat n) with Some z => Re z | None => mn_value m i q end
                        | None => mn_value m i q
                        end else mn_value m i q |}
                 | None => m
                 end
  end.
Fixpoint meaning_run (m : meaning) (os : list grid_op) : meaning := match os with [] => m | o :: os' => meaning_run (meaning_step m o) os' end.
(** Every grid is 2D or 3D, every operation names an existing grid, positions
    set are inside it and complex arrays are not longer than it. *)
Fixpoint ops_inside (m : meaning) (os : list grid_op) : Prop :=
  match os with
  | [] => True
  | o :: os' =>
      match o with
      | GNew dims => valid_domain dims
      | GCopy k | GShare k => (k < length (mn_grids m))%nat
      | GSet k p _ => exists dims j, nth_error (mn_grids m) k = Some (dims, j) /\ in_box dims p
      | GFrom k a => exists dims j, nth_error (mn_grids m) k = Some (dims, j) /\ (Z.of_nat (length a) <= num_nodes dims)%Z
      end /\ ops_inside (meaning_step m o) os'
  end.
Definition no_grids : meaning := {| mn_grids := []; mn_maps := 0; mn_value := fun _ _ => 0 |}.
