(** Lemmas about slice wrappers. *)
From Verif Require Import ViewSpec.
From Coq Require Import Lia.
Open Scope nat_scope.

Lemma upd_app {A} (pre : list A) z mid y : upd (pre ++ z :: mid) (length pre) y = pre ++ y :: mid.
Proof. induction pre as [|x pre IH]; cbn [app length upd]; [reflexivity|]. rewrite IH. reflexivity. Qed.
Lemma upd_length {A} (a : list A) i y : length (upd a i y) = length a.
Proof. revert i. induction a as [|x a IH]; intros [|i]; cbn [upd length]; auto. Qed.
Lemma upd_nth {A} (a : list A) i y j : nth_error (upd a i y) j = if Nat.eqb i j then option_map (fun _ => y) (nth_error a j) else nth_error a j.
Proof.
  revert i j. induction a as [|x a IH]; intros [|i] [|j]; cbn [upd nth_error Nat.eqb option_map]; try reflexivity.
  - destruct (Nat.eqb _ _); reflexivity.
  - apply IH.
Qed.
Lemma all_some_map {A B} (f : A -> option B) (g : A -> B) l : (forall x, In x l -> f x = Some (g x)) -> all_some (map f l) = Some (map g l).
Proof. induction l as [|x l IH]; intros H; cbn [map all_some]; [reflexivity|]. rewrite (H x (or_introl eq_refl)), IH by (intros y Hy; apply H; right; exact Hy). reflexivity. Qed.

Lemma skipn_skipn' {A} (l : list A) : forall i j, skipn j (skipn i l) = skipn (i + j) l.
Proof. induction l as [|x l IH]; intros [|i] j; cbn [skipn Nat.add]; try reflexivity; [destruct j; reflexivity|apply IH]. Qed.

Lemma at_in w j : j < w_len w -> at_window w (Z.of_nat j) = Some (w_off w + j).
Proof.
  intros H. unfold at_window. destruct (Z.ltb_spec (Z.of_nat j) 0); [lia|]. destruct (Z.leb_spec (Z.of_nat (w_len w)) (Z.of_nat j)); [lia|].
  cbn [orb]. rewrite Nat2Z.id. reflexivity.
Qed.
Lemma at_out w i : ~ (0 <= i < Z.of_nat (w_len w))%Z -> at_window w i = None.
Proof. intros H. unfold at_window. destruct (Z.ltb_spec i 0); [reflexivity|]. destruct (Z.leb_spec (Z.of_nat (w_len w)) i); [reflexivity|lia]. Qed.

Section Slice.
  Context {A : Type}.
  Variables (v : view A) (w : window) (pr : A -> R) (put : A -> R -> A).
  Hypothesis Hlen : v_len v = w_len w.
  Hypothesis Hget : forall a i, v_get v a i = match at_window w i with Some j => option_map pr (nth_error a j) | None => None end.
  Hypothesis Hset : forall a i x, v_set v a i x = match at_window w i with
    | Some j => match nth_error a j with Some z => Some (upd a j (put z x)) | None => None end | None => None end.

  Lemma split_window (a : list A) : window_of w a -> a = firstn (w_off w) a ++ inside w a ++ skipn (w_off w + w_len w) a
    /\ length (firstn (w_off w) a) = w_off w /\ length (inside w a) = w_len w.
  Proof.
    intros H. unfold window_of in H. unfold inside. split; [|split].
    - rewrite <- (firstn_skipn (w_off w) a) at 1. f_equal. rewrite <- (firstn_skipn (w_len w) (skipn (w_off w) a)) at 1. f_equal.
      rewrite skipn_skipn'. reflexivity.
    - rewrite firstn_length. lia.
    - rewrite firstn_length, skipn_length. lia.
  Qed.

  Lemma read_from pre post : length pre = w_off w -> forall mid2 mid1, length mid1 + length mid2 = w_len w ->
    all_some (map (v_get v (pre ++ mid1 ++ mid2 ++ post)) (map Z.of_nat (seq (length mid1) (length mid2)))) = Some (map pr mid2).
  Proof.
    intros Hp. induction mid2 as [|z mid2 IH]; intros mid1 HL; cbn [length seq map all_some] in *; [reflexivity|].
    rewrite Hget, at_in by lia. rewrite nth_error_app2 by lia. replace (w_off w + length mid1 - length pre) with (length mid1) by lia.
    rewrite nth_error_app2 by lia. rewrite Nat.sub_diag. cbn [app nth_error option_map].
    specialize (IH (mid1 ++ [z])). rewrite app_length in IH. cbn [length] in IH. rewrite <- app_assoc in IH. cbn [app] in IH.
    rewrite Nat.add_1_r in IH. rewrite IH by lia. reflexivity.
  Qed.
  Lemma read_inside a : window_of w a -> read_all v a = Some (map pr (inside w a)).
  Proof.
    intros H. destruct (split_window a H) as (E & L1 & L2). unfold read_all, node_range. rewrite Hlen, <- L2.
    rewrite E at 1. exact (read_from _ _ L1 (inside w a) [] L2).
  Qed.

  Lemma loop_from k cpy dom ps pre post : length pre = w_off w -> forall mid2 mid1, length mid1 + length mid2 = w_len w ->
    blur_loop v k cpy dom ps (map Z.of_nat (seq (length mid1) (length mid2))) (pre ++ mid1 ++ mid2 ++ post)
    = option_map (fun out => pre ++ mid1 ++ zip put mid2 out ++ post) (all_some (map (blur_node k cpy dom ps) (map Z.of_nat (seq (length mid1) (length mid2))))).
  Proof.
    intros Hp. induction mid2 as [|z mid2 IH]; intros mid1 HL; cbn [length seq map blur_loop all_some] in *; [reflexivity|].
    destruct (blur_node k cpy dom ps (Z.of_nat (length mid1))) as [x|]; [|reflexivity].
    rewrite Hset, at_in by lia. rewrite nth_error_app2 by lia. replace (w_off w + length mid1 - length pre) with (length mid1) by lia.
    rewrite nth_error_app2 by lia. rewrite Nat.sub_diag. cbn [app nth_error].
    assert (E : upd (pre ++ mid1 ++ z :: mid2 ++ post) (w_off w + length mid1) (put z x) = pre ++ (mid1 ++ [put z x]) ++ mid2 ++ post).
    { rewrite !app_assoc. rewrite <- Hp, <- app_length, upd_app, <- !app_assoc. reflexivity. }
    rewrite E. specialize (IH (mid1 ++ [put z x])). rewrite app_length in IH. cbn [length] in IH. rewrite Nat.add_1_r in IH. rewrite IH by lia.
    destruct (all_some _) as [out|]; [|reflexivity]. cbn [option_map zip]. rewrite <- !app_assoc. reflexivity.
  Qed.

  Lemma blur_inside k dom a : window_of w a ->
    blur_view k v dom a = option_map (fun out => with_inside w a (zip put (inside w a) out)) (blur k (map pr (inside w a)) dom).
  Proof.
    intros H. destruct (split_window a H) as (E & L1 & L2). unfold blur_view, blur. rewrite (read_inside a H).
    destruct (drain _ _) as [ps|]; [|reflexivity].
    assert (HL := loop_from k (map pr (inside w a)) dom ps _ (skipn (w_off w + w_len w) a) L1 (inside w a) [] L2).
    cbn [length app] in HL. rewrite <- E in HL. unfold node_range. rewrite map_length. exact HL.
  Qed.

  (** ** Sequences of writes *)
  Lemma last_write_cons i x ws j : last_write ((i, x) :: ws) j = match last_write ws j with Some y => Some y | None => if Z.eqb i j then Some x else None end.
  Proof.
    unfold last_write. cbn [rev].
    assert (F : forall l, find (fun x => Z.eqb (fst x) j) (l ++ [(i, x)]) = match find (fun x => Z.eqb (fst x) j) l with Some y => Some y | None => if Z.eqb i j then Some (i, x) else None end).
    { induction l as [|u l IH]; cbn [app find fst]; [reflexivity|]. destruct (Z.eqb (fst u) j); [reflexivity|exact IH]. }
    rewrite F. destruct (find _ (rev ws)); [reflexivity|]. destruct (Z.eqb i j); reflexivity.
  Qed.

  Hypothesis Hput : forall z x y, put (put z x) y = put z y.
  Lemma sets_spec ws : forall a, window_of w a -> Forall (fun x => (0 <= fst x < Z.of_nat (w_len w))%Z) ws ->
    exists a', run_sets v ws a = Some a' /\ length a' = length a
    /\ (forall j, j < w_len w -> nth_error a' (w_off w + j) = match last_write ws (Z.of_nat j) with Some x => option_map (fun z => put z x) (nth_error a (w_off w + j)) | None => nth_error a (w_off w + j) end)
    /\ (forall j, j < w_off w \/ w_off w + w_len w <= j -> nth_error a' j = nth_error a j).
  Proof.
    induction ws as [|[i x] ws IH]; intros a Ha HF; cbn [run_sets].
    { exists a. repeat split; auto. }
    assert (Hi := Forall_inv HF). cbn [fst] in Hi. assert (HF' := Forall_inv_tail HF). unfold window_of in *.
    rewrite Hset. rewrite <- (Z2Nat.id i) by lia. rewrite at_in by lia. destruct (nth_error a (w_off w + Z.to_nat i)) as [z|] eqn:Ez; [|apply nth_error_None in Ez; lia].
    destruct (IH (upd a (w_off w + Z.to_nat i) (put z x))) as (a' & E & L & H1 & H2); [rewrite upd_length; exact Ha|exact HF'|].
    exists a'. split; [exact E|]. split; [rewrite L; apply upd_length|]. split.
    - intros j Hj. rewrite (H1 j Hj), last_write_cons, upd_nth. rewrite Z2Nat.id by lia.
      destruct (Nat.eqb_spec (w_off w + Z.to_nat i) (w_off w + j)) as [Ej|Ej].
      + assert (Eij : Z.to_nat i = j) by lia. replace (i =? Z.of_nat j)%Z with true by (symmetry; apply Z.eqb_eq; lia). rewrite <- Eij, Ez. cbn [option_map].
        destruct (last_write ws _) as [y|]; cbn [option_map]; [rewrite Hput|]; reflexivity.
      + replace (i =? Z.of_nat j)%Z with false by (symmetry; apply Z.eqb_neq; lia). destruct (last_write ws _); reflexivity.
    - intros j Hj. rewrite (H2 j Hj), upd_nth. destruct (Nat.eqb_spec (w_off w + Z.to_nat i) j); [lia|reflexivity].
  Qed.
  Lemma sets_panic ws : forall a, Exists (fun x => ~ (0 <= fst x < Z.of_nat (w_len w))%Z) ws -> run_sets v ws a = None.
  Proof.
    induction ws as [|[i x] ws IH]; intros a HE; cbn [run_sets]; [inversion HE|].
    rewrite Hset. apply Exists_cons in HE. cbn [fst] in HE. destruct HE as [HE|HE]; [rewrite (at_out w i HE); reflexivity|].
    destruct (at_window w i) as [j|]; [|reflexivity]. destruct (nth_error a j); [|reflexivity]. apply IH, HE.
  Qed.
End Slice.
