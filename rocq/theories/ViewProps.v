(** C117: slice wrappers. *)
From Verif Require Import IndexSpec IndexProps GridSpec GridProps ViewSpec ViewProofs.
From Coq Require Import Lia Lra.
Open Scope nat_scope.

Lemma rs_get w a i : v_get (real_slice w) a i = match at_window w i with Some j => option_map (fun x : R => x) (nth_error a j) | None => None end.
Proof. cbn [real_slice v_get]. destruct (at_window w i) as [j|]; [destruct (nth_error a j)|]; reflexivity. Qed.
Lemma rs_set w a i x : v_set (real_slice w) a i x = match at_window w i with
  | Some j => match nth_error a j with Some z => Some (upd a j ((fun (_ x : R) => x) z x)) | None => None end | None => None end.
Proof. reflexivity. Qed.
Lemma ps_get w a i : v_get (real_part_slice w) a i = match at_window w i with Some j => option_map Re (nth_error a j) | None => None end.
Proof. reflexivity. Qed.
Lemma ps_set w a i x : v_set (real_part_slice w) a i x = match at_window w i with
  | Some j => match nth_error a j with Some z => Some (upd a j ((fun (z : C) (x : R) => (x, Im z)) z x)) | None => None end | None => None end.
Proof. reflexivity. Qed.

(** After any sequence of calls of Set, Get returns the value written last to
    the element, or the original one; the imaginary parts, and the elements of
    the array outside the slice, are as before. *)
Theorem C117_real_part_writes : forall w (a : list C) ws, window_of w a -> Forall (fun x => (0 <= fst x < Z.of_nat (w_len w))%Z) ws ->
  exists a', run_sets (real_part_slice w) ws a = Some a' /\ length a' = length a
  /\ (forall i, (0 <= i < Z.of_nat (w_len w))%Z -> v_get (real_part_slice w) a' i = match last_write ws i with Some x => Some x | None => v_get (real_part_slice w) a i end)
  /\ (forall j, option_map Im (nth_error a' j) = option_map Im (nth_error a j))
  /\ (forall j, j < w_off w \/ w_off w + w_len w <= j -> nth_error a' j = nth_error a j).
Proof.
  intros w a ws Ha HF. destruct (sets_spec (real_part_slice w) w _ eq_refl (ps_set w) (fun z x y => eq_refl) ws a Ha HF) as (a' & E & L & H1 & H2).
  assert (HIn : forall j, j < w_len w -> exists z, nth_error a (w_off w + j) = Some z).
  { intros j Hj. destruct (nth_error a (w_off w + j)) eqn:E1; [eauto|]. apply nth_error_None in E1. unfold window_of in Ha. lia. }
  exists a'. split; [exact E|]. split; [exact L|]. split; [|split; [|exact H2]].
  - intros i Hi. rewrite !ps_get, <- (Z2Nat.id i) by lia. rewrite at_in by lia. rewrite (H1 (Z.to_nat i)) by lia.
    destruct (last_write ws (Z.of_nat (Z.to_nat i))) as [x|]; [|reflexivity]. destruct (HIn (Z.to_nat i)) as (z & ->); [lia|reflexivity].
  - intros j. destruct (Nat.lt_ge_cases j (w_off w)) as [Hj|Hj]; [rewrite H2 by lia; reflexivity|].
    destruct (Nat.lt_ge_cases j (w_off w + w_len w)) as [Hj2|Hj2]; [|rewrite H2 by lia; reflexivity].
    replace j with (w_off w + (j - w_off w)) by lia. rewrite H1 by lia. destruct (HIn (j - w_off w)) as (z & ->); [lia|]. destruct (last_write ws _); reflexivity.
Qed.
Print Assumptions C117_real_part_writes.

Theorem C117_real_writes : forall w (a : list R) ws, window_of w a -> Forall (fun x => (0 <= fst x < Z.of_nat (w_len w))%Z) ws ->
  exists a', run_sets (real_slice w) ws a = Some a' /\ length a' = length a
  /\ (forall i, (0 <= i < Z.of_nat (w_len w))%Z -> v_get (real_slice w) a' i = match last_write ws i with Some x => Some x | None => v_get (real_slice w) a i end)
  /\ (forall j, j < w_off w \/ w_off w + w_len w <= j -> nth_error a' j = nth_error a j).
Proof.
  intros w a ws Ha HF. destruct (sets_spec (real_slice w) w _ eq_refl (rs_set w) (fun z x y => eq_refl) ws a Ha HF) as (a' & E & L & H1 & H2).
  exists a'. split; [exact E|]. split; [exact L|]. split; [|exact H2].
  intros i Hi. rewrite !rs_get, <- (Z2Nat.id i) by lia. rewrite at_in by lia. rewrite (H1 (Z.to_nat i)) by lia.
  destruct (last_write ws (Z.of_nat (Z.to_nat i))) as [x|]; [|reflexivity].
  destruct (nth_error a (w_off w + Z.to_nat i)) eqn:E1; [reflexivity|]. apply nth_error_None in E1. unfold window_of in Ha. lia.
Qed.
Print Assumptions C117_real_writes.

(** A write outside the slice panics, also where the array goes on. *)
Theorem C117_writes_outside : forall w ws, Exists (fun x => ~ (0 <= fst x < Z.of_nat (w_len w))%Z) ws ->
  (forall a, run_sets (real_slice w) ws a = None) /\ (forall a, run_sets (real_part_slice w) ws a = None).
Proof.
  intros w ws H. split; intros a; [exact (sets_panic (real_slice w) w _ (rs_set w) ws a H)|exact (sets_panic (real_part_slice w) w _ (ps_set w) ws a H)].
Qed.
Print Assumptions C117_writes_outside.

(** Slices of different parts of an array do not see each other's writes. *)
Theorem C117_disjoint : forall w w' (a a' : list R) ws, window_of w a -> Forall (fun x => (0 <= fst x < Z.of_nat (w_len w))%Z) ws ->
  w_off w + w_len w <= w_off w' \/ w_off w' + w_len w' <= w_off w ->
  run_sets (real_slice w) ws a = Some a' -> forall i, v_get (real_slice w') a' i = v_get (real_slice w') a i.
Proof.
  intros w w' a a' ws Ha HF HD E i. destruct (C117_real_writes w a ws Ha HF) as (a2 & E2 & _ & _ & H2). rewrite E in E2. injection E2 as <-.
  cbn [real_slice v_get]. destruct (Z.ltb_spec i 0) as [Hi|Hi]; [rewrite at_out by lia; reflexivity|].
  destruct (Z.ltb_spec i (Z.of_nat (w_len w'))) as [Hi2|Hi2]; [|rewrite at_out by lia; reflexivity].
  rewrite <- (Z2Nat.id i) by lia. rewrite at_in by lia. apply H2. lia.
Qed.
Print Assumptions C117_disjoint.

(** Blur through a slice is the blur of C10 on what Get returns: the new values
    replace the real parts of the elements in the slice and nothing else; it
    panics if and only if that blur does. *)
Theorem C117_blur_real_part : forall k dom w (a : list C), window_of w a ->
  blur_view k (real_part_slice w) dom a
  = option_map (fun out => with_inside w a (zip (fun z x => (x, Im z)) (inside w a) out)) (blur k (map Re (inside w a)) dom).
Proof. intros k dom w a Ha. exact (blur_inside (real_part_slice w) w Re _ eq_refl (ps_get w) (ps_set w) k dom a Ha). Qed.
Print Assumptions C117_blur_real_part.

Theorem C117_blur_real : forall k dom w (a : list R), window_of w a ->
  blur_view k (real_slice w) dom a = option_map (fun out => with_inside w a (zip (fun _ x => x) (inside w a) out)) (blur k (inside w a) dom).
Proof.
  intros k dom w a Ha. assert (H := blur_inside (real_slice w) w (fun x => x) _ eq_refl (rs_get w) (rs_set w) k dom a Ha). rewrite map_id in H. exact H.
Qed.
Print Assumptions C117_blur_real.

(** Index and Pos of a grid are inverse. *)
Theorem C117_grid_index : forall g, valid_domain (g_dims g) ->
  (forall p i, in_box (g_dims g) p -> grid_index g p = Some i -> (0 <= i < num_nodes (g_dims g))%Z /\ grid_pos g i = Some p)
  /\ (forall i, (0 <= i < num_nodes (g_dims g))%Z -> exists p, grid_pos g i = Some p /\ in_box (g_dims g) p /\ grid_index g p = Some i).
Proof.
  intros g Hv. split.
  - intros p i Hp Hi. exact (C02_pos_inverts_node_idx (g_dims g) p i Hv Hp Hi).
  - intros i Hi. exact (C02_node_idx_inverts_pos (g_dims g) i Hv Hi).
Qed.
Print Assumptions C117_grid_index.

Theorem C117_clear : forall d, length (clear d) = length d /\ forall i, nth i (clear d) C0 = C0.
Proof.
  intros d. split; [apply map_length|]. intros i. unfold clear. revert i. induction d as [|z d IH]; intros [|i]; cbn [map nth]; auto.
Qed.
Print Assumptions C117_clear.

(** A slice in the middle of an array; the blur of six of its eight elements on
    a 3x2 domain. *)
Example C117_nonvacuous :
  let w := {| w_off := 1; w_len := 6 |} in
  let a : list C := [(7, 1); (1, 2); (0, 3); (0, 4); (2, 5); (0, 6); (5, 7); (9, 8)]%R in
  window_of w a
  /\ run_sets (real_part_slice w) [(0%Z, 3%R); (5%Z, 4%R); (0%Z, 6%R)] a = Some [(7, 1); (6, 2); (0, 3); (0, 4); (2, 5); (0, 6); (4, 7); (9, 8)]%R
  /\ Exists (fun x => ~ (0 <= fst x < Z.of_nat (w_len w))%Z) [(6%Z, 3%R)]
  /\ exists out a', blur (box_kernel 8) (map Re (inside w a)) [3; 2]%Z = Some out /\ lsum (fun x => x) out = 8%R
     /\ blur_view (box_kernel 8) (real_part_slice w) [3; 2]%Z a = Some a' /\ map Im a' = map Im a /\ nth 7 a' C0 = (9, 8)%R.
Proof.
  intros w a. assert (Hw : window_of w a) by (unfold window_of; cbn; lia). split; [exact Hw|]. split; [reflexivity|].
  split; [constructor; cbn; lia|]. destruct C10_nonvacuous as (V & A1 & A2 & out & E & S).
  assert (Ei : map Re (inside w a) = [1; 0; 0; 2; 0; 5]%R) by reflexivity. rewrite Ei.
  exists out, (with_inside w a (zip (fun z x => (x, Im z)) (inside w a) out)). split; [exact E|]. split; [exact S|].
  split; [rewrite (C117_blur_real_part (box_kernel 8) [3; 2]%Z w a Hw), Ei, E; reflexivity|].
  assert (Lo : length out = 6).
  { destruct (C10_range_kept (box_kernel 8) [1; 0; 0; 2; 0; 5]%R [3; 2]%Z 0%R 5%R V A1 A2) as (o & Eo & Lo & _); [repeat constructor; lra|]. rewrite E in Eo. injection Eo as <-. exact Lo. }
  destruct out as [|o1 [|o2 [|o3 [|o4 [|o5 [|o6 [|]]]]]]]; try discriminate Lo. split; reflexivity.
Qed.
