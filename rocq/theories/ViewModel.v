(** Model of the slice wrappers of pfutil and of Blur as it works through them.
    [None] is a panic. *)
From Verif Require Export GridModel.
Open Scope R_scope.

(** A Go slice: [w_len] elements of an array from number [w_off] on, for example
    sdd.orientation[i*numNodes : (i+1)*numNodes] in pf/sdd.go:442.  The capacity
    is not modelled, the wrappers never extend a slice. *)
Record window := { w_off : nat; w_len : nat }.

(** pfutil/sliceWrappers.go:4-14, ImmutableSlice and MutableSlice, as operations
    on the array behind the slice.  The array may be shared with other slices. *)
Record view (A : Type) := { v_len : nat; v_get : list A -> Z -> option R; v_set : list A -> Z -> R -> option (list A) }.
Arguments v_len {A}. Arguments v_get {A}. Arguments v_set {A}.

(** s[i] of a slice: the index of the array, or a panic. *)
Definition at_window (w : window) (i : Z) : option nat :=
  if ((i <? 0) || (Z.of_nat (w_len w) <=? i))%Z then None else Some (w_off w + Z.to_nat i)%nat.

(** pfutil/sliceWrappers.go:17-34, RealSlice. *)
Definition real_slice (w : window) : view R := {|
  v_len := w_len w;
  v_get := fun a i => match at_window w i with Some j => nth_error a j | None => None end;
  v_set := fun a i v => match at_window w i with
                        | Some j => match nth_error a j with Some _ => Some (upd a j v) | None => None end
                        | None => None
                        end |}.
(** pfutil/sliceWrappers.go:38-55, RealPartSlice. *)
Definition real_part_slice (w : window) : view C := {|
  v_len := w_len w;
  v_get := fun a i => match at_window w i with Some j => option_map Re (nth_error a j) | None => None end;
  v_set := fun a i v => match at_window w i with
                        | Some j => match nth_error a j with Some z => Some (upd a j (v, Im z)) | None => None end
                        | None => None
                        end |}.

(** A sequence of calls of Set, as in examples/heterogeneousNucleation/main.go:64-73. *)
Fixpoint run_sets {A} (v : view A) (ws : list (Z * R)) (a : list A) : option (list A) :=
  match ws with
  | [] => Some a
  | (i, x) :: ws' => match v_set v a i x with Some a' => run_sets v ws' a' | None => None end
  end.

(** pfutil/blur.go:47-50: the copy of the data. *)
Definition read_all {A} (v : view A) (a : list A) : option (list R) := all_some (map (v_get v a) (node_range (v_len v))).
(** pfutil/blur.go:53-66: the new value of node [i], from the copy. *)
Definition blur_node (k : kernel) (cpy : list R) (dom : list Z) (ps : list (list Z)) (i : Z) : option R :=
  match IndexModel.pos dom i with
  | None => None
  | Some c => match blur_sum k cpy dom c ps 0 0 with None => None | Some (v, s) => Some (v / s) end
  end.
(** pfutil/blur.go:52-67: the loop, which writes every new value at once. *)
Fixpoint blur_loop {A} (v : view A) (k : kernel) (cpy : list R) (dom : list Z) (ps : list (list Z)) (is : list Z) (a : list A) : option (list A) :=
  match is with
  | [] => Some a
  | i :: is' => match blur_node k cpy dom ps i with
                | None => None
                | Some x => match v_set v a i x with Some a' => blur_loop v k cpy dom ps is' a' | None => None end
                end
  end.
(** pfutil/blur.go:38-68, Blur.  The iterator starts anew for every node with
    the same offsets; its fuel is one more than their number, as in GridModel. *)
Definition blur_view {A} (k : kernel) (v : view A) (dom : list Z) (a : list A) : option (list A) :=
  match read_all v a with
  | None => None
  | Some cpy =>
      let e := map (fun _ => (2 * k_cutoff k + 1)%Z) dom in
      match drain (S (Z.to_nat (fold_right Z.mul 1%Z e))) (new_product e) with
      | None => None
      | Some ps => blur_loop v k cpy dom ps (node_range (length cpy)) a
      end
  end.

(** pfutil/sliceOperations.go:83-87, Clear. *)
Definition clear (d : list C) : list C := map (fun _ => C0) d.
(** pfutil/grid.go:37-44, Grid.Index and Grid.Pos. *)
Definition grid_index (g : grid) (p : list Z) : option Z := node_idx (g_dims g) p.
Definition grid_pos (g : grid) (i : Z) : option (list Z) := IndexModel.pos (g_dims g) i.
