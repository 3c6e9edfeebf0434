(** Proofs about Grid, Rotate2D and the slice operations. *)
From Verif Require Import GridModel GridSpec IndexProofs GridProofs GridProofs2 GridProofs3.
From Coq Require Import Psatz.
From Verif Require Import Complex.
Open Scope R_scope.

(** ** Arrays *)
Lemma nth_error_ext_list {A} (l : list A) : forall l', (forall i, nth_error l i = nth_error l' i) -> l = l'.
Proof.
  induction l as [|x l IH]; intros [|y l'] H; [reflexivity|specialize (H 0%nat); discriminate|specialize (H 0%nat); discriminate|].
  pose proof (H 0%nat) as H0. cbn in H0. injection H0 as <-. f_equal. apply IH. intros i. exact (H (S i)).
Qed.
Lemma forall2_flip {A B} (P : A -> B -> Prop) (Q : B -> A -> Prop) a b : (forall x y, P x y -> Q y x) -> Forall2 P a b -> Forall2 Q b a.
Proof. intros H F. induction F; constructor; auto. Qed.
Lemma upd_length {A} (l : list A) i x : length (upd l i x) = length l.
Proof. revert i. induction l as [|y l IH]; intros [|i]; cbn [upd length]; try reflexivity. rewrite IH. reflexivity. Qed.
Lemma upd_nth {A} (l : list A) i x j d : (i < length l)%nat -> nth j (upd l i x) d = if Nat.eqb j i then x else nth j l d.
Proof.
  revert i j. induction l as [|y l IH]; intros [|i] [|j] H; cbn [upd nth length Nat.eqb] in *; try lia; try reflexivity. apply IH. lia.
Qed.
Lemma write_prefix_spec src : forall dst, (length src <= length dst)%nat -> exists out, write_prefix src dst = Some out /\ length out = length dst /\
  forall i, nth i out 0 = if Nat.ltb i (length src) then nth i src 0 else nth i dst 0.
Proof.
  induction src as [|x src IH]; intros dst L.
  - exists dst. split; [destruct dst; reflexivity|]. split; [reflexivity|]. intros i. reflexivity.
  - destruct dst as [|y dst]; cbn [length] in L; [lia|]. destruct (IH dst ltac:(lia)) as (out & E & Lo & N). cbn [write_prefix]. rewrite E. exists (x :: out). split; [reflexivity|].
    split; [cbn [length]; lia|]. intros [|i]; cbn [nth length]; [reflexivity|]. rewrite N. reflexivity.
Qed.
Lemma write_prefix_same l : write_prefix l l = Some l.
Proof. induction l as [|x l IH]; [reflexivity|]. cbn [write_prefix]. rewrite IH. reflexivity. Qed.
Lemma upd_same {A} (l : list A) : forall i d, (i < length l)%nat -> upd l i (nth i l d) = l.
Proof. induction l as [|x l IH]; intros [|i] d H; cbn [upd nth length] in *; try lia; [reflexivity|]. rewrite IH by lia. reflexivity. Qed.
Lemma prod_int_nodes dims : prod_int dims = num_nodes dims.
Proof.
  unfold prod_int. assert (G : forall l a, fold_left Z.mul l a = (a * num_nodes l)%Z).
  { induction l as [|x l IH]; intros a; cbn [fold_left num_nodes fold_right]; [ring|]. rewrite IH. unfold num_nodes. cbn [fold_right]. ring. }
  rewrite G. ring.
Qed.

(** ** Every history *)
Record represents (gs : list grid) (h : heap) (m : meaning) (ds : list (list Z)) : Prop := {
  rp_grids : mn_grids m = map (fun g => (g_dims g, g_addr g)) gs;
  rp_maps : mn_maps m = length h;
  rp_dims : length ds = length h;
  rp_of : forall g, In g gs -> nth_error ds (g_addr g) = Some (g_dims g);
  rp_valid : forall j d, nth_error ds j = Some d -> valid_domain d;
  rp_len : forall j d, nth_error ds j = Some d -> Z.of_nat (length (nth j h [])) = num_nodes d;
  rp_val : forall j d p n, nth_error ds j = Some d -> in_box d p -> node_idx d p = Some n -> nth (Z.to_nat n) (nth j h []) 0 = mn_value m j p }.

Lemma nth_error_snoc {A} (l : list A) x j y : nth_error (l ++ [x]) j = Some y -> (j < length l)%nat /\ nth_error l j = Some y \/ j = length l /\ y = x.
Proof.
  intros H. destruct (lt_dec j (length l)) as [Hj|Hj]; [left; rewrite nth_error_app1 in H by exact Hj; auto|].
  right. rewrite nth_error_app2 in H by lia. destruct (j - length l)%nat eqn:E; cbn in H; [injection H as <-; split; [lia|reflexivity]|]. destruct n; discriminate.
Qed.
Lemma nth_error_lt {A} (l : list A) j y : nth_error l j = Some y -> (j < length l)%nat.
Proof. intros H. apply nth_error_Some. congruence. Qed.

Lemma step_new gs h m ds dims data (V : R -> Prop) (val : list Z -> R) : represents gs h m ds -> valid_domain dims -> Z.of_nat (length data) = num_nodes dims ->
  (forall p n, in_box dims p -> node_idx dims p = Some n -> nth (Z.to_nat n) data 0 = val p) ->
  represents (gs ++ [{| g_dims := dims; g_addr := length h |}]) (h ++ [data])
    {| mn_grids := mn_grids m ++ [(dims, mn_maps m)]; mn_maps := S (mn_maps m); mn_value := fun i p => if Nat.eqb i (mn_maps m) then val p else mn_value m i p |} (ds ++ [dims]).
Proof.
  intros Rp Vd Ld Hv. destruct Rp as [G M D O Va Le Vl]. constructor; cbn [mn_grids mn_maps mn_value].
  - rewrite map_app, G, M. reflexivity.
  - rewrite app_length, M. cbn [length]. lia.
  - rewrite !app_length, D. reflexivity.
  - intros g Hg. apply in_app_or in Hg. destruct Hg as [Hg|[<-|[]]].
    + pose proof (O g Hg) as E. rewrite nth_error_app1 by (exact (nth_error_lt _ _ _ E)). exact E.
    + cbn [g_addr g_dims]. rewrite nth_error_app2, D, Nat.sub_diag by lia. reflexivity.
  - intros j d H. apply nth_error_snoc in H. destruct H as [[_ H]|[_ ->]]; [exact (Va j d H)|exact Vd].
  - intros j d H. apply nth_error_snoc in H. destruct H as [[Hj H]|[-> ->]].
    + rewrite app_nth1 by lia. exact (Le j d H).
    + rewrite D, app_nth2, Nat.sub_diag by lia. exact Ld.
  - intros j d p n H B E. apply nth_error_snoc in H. destruct H as [[Hj H]|[-> ->]].
    + rewrite app_nth1 by lia. destruct (Nat.eqb_spec j (mn_maps m)); [lia|]. exact (Vl j d p n H B E).
    + rewrite D, M, Nat.eqb_refl, app_nth2, Nat.sub_diag by lia. exact (Hv p n B E).
Qed.

Lemma step_write gs h m ds g data (val : list Z -> R) : represents gs h m ds -> In g gs -> length data = length (grid_data g h) ->
  (forall p n, in_box (g_dims g) p -> node_idx (g_dims g) p = Some n -> nth (Z.to_nat n) data 0 = val p) ->
  represents gs (upd h (g_addr g) data)
    {| mn_grids := mn_grids m; mn_maps := mn_maps m; mn_value := fun i p => if Nat.eqb i (g_addr g) then val p else mn_value m i p |} ds.
Proof.
  intros Rp Hg Ld Hv. destruct Rp as [G M D O Va Le Vl]. pose proof (O g Hg) as Eg. assert (Ha : (g_addr g < length h)%nat) by (rewrite <- D; exact (nth_error_lt _ _ _ Eg)).
  constructor; cbn [mn_grids mn_maps mn_value]; auto.
  - rewrite upd_length. exact M.
  - rewrite upd_length. exact D.
  - intros j d H. rewrite upd_nth by exact Ha. destruct (Nat.eqb_spec j (g_addr g)) as [->|N]; [|exact (Le j d H)]. rewrite Ld. unfold grid_data. exact (Le _ d H).
  - intros j d p n H B E. rewrite upd_nth by exact Ha. destruct (Nat.eqb_spec j (g_addr g)) as [->|N]; [|exact (Vl j d p n H B E)].
    rewrite Eg in H. injection H as <-. exact (Hv p n B E).
Qed.

Lemma represents_ext gs h m m' ds : represents gs h m ds -> mn_grids m' = mn_grids m -> mn_maps m' = mn_maps m -> (forall j d p, nth_error ds j = Some d -> in_box d p -> mn_value m' j p = mn_value m j p) -> represents gs h m' ds.
Proof.
  intros [G M D O Va Le Vl] Eg Em Ev. constructor; auto; try congruence. intros j d p n H B E. rewrite (Ev j d p H B). exact (Vl j d p n H B E).
Qed.

Lemma node_inj d p q n : valid_domain d -> in_box d p -> in_box d q -> node_idx d p = Some n -> node_idx d q = Some n -> p = q.
Proof. intros V Bp Bq Ep Eq. destruct (pos_node_idx d p n V Bp Ep) as [_ A]. destruct (pos_node_idx d q n V Bq Eq) as [_ B]. congruence. Qed.

Lemma grid_step_sound gs h m ds o os : represents gs h m ds -> ops_inside m (o :: os) ->
  exists gs' h' ds', grid_step (gs, h) o = Some (gs', h') /\ represents gs' h' (meaning_step m o) ds'.
Proof.
  intros Rp [Ho _]. destruct o as [dims|k|k|k p v|k a]; cbn [grid_step meaning_step].
  - unfold new_grid. rewrite prod_int_nodes. pose proof (num_nodes_pos dims (proj2 Ho)) as P. destruct (Z.ltb_spec (num_nodes dims) 0); [lia|].
    do 3 eexists. split; [reflexivity|]. apply (step_new gs h m ds dims _ (fun _ => True) (fun _ => 0)); [exact Rp|exact Ho|rewrite repeat_length; lia|].
    intros p n _ _. apply nth_repeat.
  - rewrite (rp_grids _ _ _ _ Rp), map_length in Ho. destruct (nth_error gs k) as [g|] eqn:Eg; [|apply nth_error_None in Eg; lia].
    unfold copy_grid. assert (Em : nth_error (mn_grids m) k = Some (g_dims g, g_addr g)) by (rewrite (rp_grids _ _ _ _ Rp), nth_error_map, Eg; reflexivity). rewrite Em.
    pose proof (rp_of _ _ _ _ Rp g (nth_error_In _ _ Eg)) as Ed.
    do 3 eexists. split; [reflexivity|]. apply (step_new gs h m ds (g_dims g) (grid_data g h) (fun _ => True) (mn_value m (g_addr g))); [exact Rp|exact (rp_valid _ _ _ _ Rp _ _ Ed)|exact (rp_len _ _ _ _ Rp _ _ Ed)|].
    intros p n B E. exact (rp_val _ _ _ _ Rp _ _ p n Ed B E).
  - rewrite (rp_grids _ _ _ _ Rp), map_length in Ho. destruct (nth_error gs k) as [g|] eqn:Eg; [|apply nth_error_None in Eg; lia].
    assert (Em : nth_error (mn_grids m) k = Some (g_dims g, g_addr g)) by (rewrite (rp_grids _ _ _ _ Rp), nth_error_map, Eg; reflexivity). rewrite Em.
    do 3 eexists. split; [reflexivity|]. destruct Rp as [G M D O Va Le Vl]. apply (Build_represents _ _ _ ds); cbn [mn_grids mn_maps mn_value]; auto.
    + rewrite map_app, G. reflexivity.
    + intros g' Hg. apply in_app_or in Hg. destruct Hg as [Hg|[<-|[]]]; [exact (O g' Hg)|exact (O g (nth_error_In _ _ Eg))].
  - destruct Ho as (dims & j & Em & B). rewrite Em. rewrite (rp_grids _ _ _ _ Rp), nth_error_map in Em. destruct (nth_error gs k) as [g|] eqn:Eg; [|discriminate]. cbn in Em. injection Em as <- <-.
    pose proof (nth_error_In _ _ Eg) as Hg. pose proof (rp_of _ _ _ _ Rp g Hg) as Ed. pose proof (rp_valid _ _ _ _ Rp _ _ Ed) as V.
    destruct (node_idx_defined _ p V B) as [n En]. destruct (pos_node_idx _ p n V B En) as [Hn _]. pose proof (rp_len _ _ _ _ Rp _ _ Ed) as Ln.
    unfold set_grid. rewrite En. change (nth (g_addr g) h []) with (grid_data g h) in Ln. rewrite (zget_nth (grid_data g h) n) by lia.
    do 3 eexists. split; [reflexivity|].
    apply (represents_ext gs _ {| mn_grids := mn_grids m; mn_maps := mn_maps m; mn_value := fun i q => if Nat.eqb i (g_addr g) then (if position_eq_dec q p then v else mn_value m (g_addr g) q) else mn_value m i q |} _ ds); [|reflexivity|reflexivity|].
    + apply (step_write gs h m ds g _ (fun q => if position_eq_dec q p then v else mn_value m (g_addr g) q)); [exact Rp|exact Hg|apply upd_length|].
      intros q n' Bq Eq. destruct (pos_node_idx _ q n' V Bq Eq) as [Hn' _]. rewrite upd_nth by lia. destruct (Nat.eqb_spec (Z.to_nat n') (Z.to_nat n)) as [E|N].
      * assert (n' = n) by lia. subst n'. rewrite (node_inj _ q p n V Bq B Eq En). destruct (position_eq_dec p p); [reflexivity|contradiction].
      * destruct (position_eq_dec q p) as [->|_]; [congruence|]. exact (rp_val _ _ _ _ Rp _ _ q n' Ed Bq Eq).
    + intros j d q Hd Bq. cbn [mn_value]. destruct (Nat.eqb_spec j (g_addr g)) as [->|_]; reflexivity.
  - destruct Ho as (dims & j & Em & L). rewrite Em. rewrite (rp_grids _ _ _ _ Rp), nth_error_map in Em. destruct (nth_error gs k) as [g|] eqn:Eg; [|discriminate]. cbn in Em. injection Em as <- <-.
    pose proof (nth_error_In _ _ Eg) as Hg. pose proof (rp_of _ _ _ _ Rp g Hg) as Ed. pose proof (rp_valid _ _ _ _ Rp _ _ Ed) as V. pose proof (rp_len _ _ _ _ Rp _ _ Ed) as Ln.
    change (nth (g_addr g) h []) with (grid_data g h) in Ln.
    unfold from_complex. destruct (write_prefix_spec (map Re a) (grid_data g h)) as (out & Eo & Lo & No); [rewrite map_length; lia|]. rewrite Eo.
    do 3 eexists. split; [reflexivity|].
    apply (represents_ext gs _ {| mn_grids := mn_grids m; mn_maps := mn_maps m; mn_value := fun i q => if Nat.eqb i (g_addr g) then
      match node_idx (g_dims g) q with Some n => match nth_error a (Z.to_nat n) with Some z => Re z | None => mn_value m (g_addr g) q end | None => mn_value m (g_addr g) q end else mn_value m i q |} _ ds); [|reflexivity|reflexivity|].
    + apply (step_write gs h m ds g _ (fun q => match node_idx (g_dims g) q with Some n => match nth_error a (Z.to_nat n) with Some z => Re z | None => mn_value m (g_addr g) q end | None => mn_value m (g_addr g) q end)); [exact Rp|exact Hg|exact Lo|].
      intros q n' Bq Eq. rewrite Eq, No, map_length. destruct (Nat.ltb_spec (Z.to_nat n') (length a)) as [Hl|Hl].
      * destruct (nth_error a (Z.to_nat n')) as [z|] eqn:Ez; [|apply nth_error_None in Ez; lia]. apply (map_nth_error Re) in Ez. exact (nth_error_nth _ _ 0 Ez).
      * destruct (nth_error a (Z.to_nat n')) as [z|] eqn:Ez; [apply nth_error_lt in Ez; lia|]. exact (rp_val _ _ _ _ Rp _ _ q n' Ed Bq Eq).
    + intros j d q Hd Bq. cbn [mn_value]. destruct (Nat.eqb_spec j (g_addr g)) as [->|_]; reflexivity.
Qed.
Lemma grid_run_sound os : forall gs h m ds, represents gs h m ds -> ops_inside m os -> exists gs' h' ds', grid_run (gs, h) os = Some (gs', h') /\ represents gs' h' (meaning_run m os) ds'.
Proof.
  induction os as [|o os IH]; intros gs h m ds Rp Ho; [exists gs, h, ds; split; [reflexivity|exact Rp]|].
  destruct (grid_step_sound gs h m ds o os Rp Ho) as (gs' & h' & ds' & E & Rp'). cbn [grid_run meaning_run]. rewrite E. exact (IH gs' h' _ ds' Rp' (proj2 Ho)).
Qed.
Lemma nothing : represents [] [] no_grids [].
Proof. constructor; try reflexivity; try (intros [|]; cbn; discriminate); intros; try contradiction; destruct j; discriminate. Qed.
Theorem grid_history os : ops_inside no_grids os ->
  exists gs h, grid_run ([], []) os = Some (gs, h) /\ length gs = length (mn_grids (meaning_run no_grids os)) /\
  forall k g, nth_error gs k = Some g -> exists j, nth_error (mn_grids (meaning_run no_grids os)) k = Some (g_dims g, j) /\
  forall p, in_box (g_dims g) p -> get_grid g p h = Some (mn_value (meaning_run no_grids os) j p).
Proof.
  intros Ho. destruct (grid_run_sound os [] [] no_grids [] nothing Ho) as (gs & h & ds & E & Rp). exists gs, h. split; [exact E|].
  split; [rewrite (rp_grids _ _ _ _ Rp), map_length; reflexivity|]. intros k g Eg. exists (g_addr g). split; [rewrite (rp_grids _ _ _ _ Rp), nth_error_map, Eg; reflexivity|].
  intros p B. pose proof (rp_of _ _ _ _ Rp g (nth_error_In _ _ Eg)) as Ed. pose proof (rp_valid _ _ _ _ Rp _ _ Ed) as V. pose proof (rp_len _ _ _ _ Rp _ _ Ed) as Ln.
  destruct (node_idx_defined _ p V B) as [n En]. destruct (pos_node_idx _ p n V B En) as [Hn _]. unfold get_grid. rewrite En. change (nth (g_addr g) h []) with (grid_data g h) in Ln.
  rewrite zget_nth by lia. f_equal. exact (rp_val _ _ _ _ Rp _ _ p n Ed B En).
Qed.
(** One Set. *)
Theorem get_after_set g h p q v h' : valid_domain (g_dims g) -> (g_addr g < length h)%nat -> in_box (g_dims g) p -> in_box (g_dims g) q ->
  set_grid g p v h = Some h' -> get_grid g q h' = if position_eq_dec q p then Some v else get_grid g q h.
Proof.
  intros V Ha Bp Bq H. unfold set_grid in H. destruct (node_idx_defined _ p V Bp) as [n En]. rewrite En in H. destruct (zget (grid_data g h) n) as [x|] eqn:Ex; [|discriminate]. injection H as <-.
  destruct (pos_node_idx _ p n V Bp En) as [Hn _]. destruct (node_idx_defined _ q V Bq) as [n' En']. destruct (pos_node_idx _ q n' V Bq En') as [Hn' _].
  assert (Hl : (Z.to_nat n < length (grid_data g h))%nat).
  { unfold zget in Ex. destruct (Z.ltb_spec n 0); [lia|]. exact (nth_error_lt _ _ _ Ex). }
  assert (Ed : grid_data g (upd h (g_addr g) (upd (grid_data g h) (Z.to_nat n) v)) = upd (grid_data g h) (Z.to_nat n) v) by (unfold grid_data at 1; rewrite upd_nth, Nat.eqb_refl by exact Ha; reflexivity).
  unfold get_grid. rewrite En', Ed. unfold zget. destruct (Z.ltb_spec n' 0); [lia|].
  destruct (position_eq_dec q p) as [->|N].
  - rewrite En in En'. injection En' as <-. rewrite (nth_error_nth' _ 0) by (rewrite upd_length; exact Hl). rewrite upd_nth, Nat.eqb_refl by exact Hl. reflexivity.
  - assert (NE : Z.to_nat n' <> Z.to_nat n) by (intros E; assert (n' = n) by lia; subst n'; apply N; exact (node_inj _ q p n V Bq Bp En' En)).
    destruct (lt_dec (Z.to_nat n') (length (grid_data g h))) as [L|L].
    + rewrite !(nth_error_nth' _ 0) by (rewrite ?upd_length; exact L). rewrite upd_nth by exact Hl. destruct (Nat.eqb_spec (Z.to_nat n') (Z.to_nat n)); [contradiction|reflexivity].
    + rewrite !(proj2 (nth_error_None _ _)); [reflexivity|lia|rewrite upd_length; lia].
Qed.
Theorem copy_independent g h g' h' p v h'' : (g_addr g < length h)%nat -> copy_grid g h = (g', h') ->
  grid_data g' h' = grid_data g h /\ g_dims g' = g_dims g /\
  (set_grid g p v h' = Some h'' -> grid_data g' h'' = grid_data g h) /\
  (set_grid g' p v h' = Some h'' -> grid_data g h'' = grid_data g h).
Proof.
  intros Ha E. unfold copy_grid in E. injection E as <- <-. unfold grid_data at 1. cbn [g_addr g_dims].
  split; [rewrite app_nth2, Nat.sub_diag by lia; reflexivity|]. split; [reflexivity|]. split; intros H; unfold set_grid in H; cbn [g_dims g_addr] in H;
  (destruct (node_idx (g_dims g) p) as [n|]; [|discriminate]); match type of H with match ?x with _ => _ end = _ => destruct x end; try discriminate; injection H as <-; unfold grid_data at 1; cbn [g_addr].
  - rewrite upd_nth by (rewrite app_length; cbn [length]; lia). destruct (Nat.eqb_spec (length h) (g_addr g)); [lia|]. rewrite app_nth2, Nat.sub_diag by lia. reflexivity.
  - rewrite upd_nth by (rewrite app_length; cbn [length]; lia). destruct (Nat.eqb_spec (g_addr g) (length h)); [lia|]. rewrite app_nth1 by lia. reflexivity.
Qed.
Lemma map_Re_RtoC l : map Re (map RtoC l) = l.
Proof. rewrite map_map. transitivity (map (fun x : R => x) l); [apply map_ext; reflexivity|apply map_id]. Qed.
Theorem complex_round_trip g h : (g_addr g < length h)%nat ->
  Forall (fun z => Im z = 0) (to_complex g h) /\ length (to_complex g h) = length (grid_data g h) /\ from_complex g (to_complex g h) h = Some h.
Proof.
  intros Ha. split.
  - apply Forall_forall. intros z Hz. apply in_map_iff in Hz. destruct Hz as (x & <- & _). reflexivity.
  - split; [apply map_length|]. unfold from_complex, to_complex. rewrite map_Re_RtoC, write_prefix_same. unfold grid_data. rewrite upd_same by exact Ha. reflexivity.
Qed.
Theorem complex_round_trip_back g h a : (g_addr g < length h)%nat -> length a = length (grid_data g h) ->
  exists h', from_complex g a h = Some h' /\ to_complex g h' = map (fun z => RtoC (Re z)) a.
Proof.
  intros Ha L. unfold from_complex. destruct (write_prefix_spec (map Re a) (grid_data g h)) as (out & E & Lo & N); [rewrite map_length; lia|]. rewrite E.
  eexists. split; [reflexivity|]. unfold to_complex, grid_data. rewrite upd_nth, Nat.eqb_refl by exact Ha. rewrite <- (map_map Re RtoC). f_equal.
  apply (nth_ext _ _ 0 0); [rewrite map_length; lia|]. intros i Hi. rewrite N, map_length. destruct (Nat.ltb_spec i (length a)); [reflexivity|lia].
Qed.

(** ** Rotate2D *)
Lemma Int_part_IZR n : Int_part (IZR n) = n.
Proof.
  destruct (base_Int_part (IZR n)) as [A B]. apply le_IZR in A. assert (X : IZR n < IZR (Int_part (IZR n) + 1)) by (rewrite plus_IZR; lra). apply lt_IZR in X. lia.
Qed.
Lemma trunc_IZR n : trunc (IZR n) = n.
Proof.
  unfold trunc. destruct (Rle_dec 0 (IZR n)) as [H|H].
  - apply Int_part_IZR.
  - rewrite <- opp_IZR, Int_part_IZR. lia.
Qed.
Lemma trunc_near x : Rabs (IZR (trunc x) - x) < 1.
Proof.
  unfold trunc. destruct (Rle_dec 0 x) as [H|H].
  - destruct (base_Int_part x). apply Rabs_def1; lra.
  - destruct (base_Int_part (- x)). rewrite opp_IZR. apply Rabs_def1; lra.
Qed.
Theorem rotate2d_spec d0 d1 data angle : (0 < d0)%Z -> (0 < d1)%Z -> Z.of_nat (length data) = num_nodes [d0; d1] ->
  exists out, rotate2d [d0; d1] data angle = Some out /\ length out = length data /\
  forall i p, (i < length data)%nat -> IndexModel.pos [d0; d1] (Z.of_nat i) = Some p ->
  exists s0 s1 : Z, nth i out 0 = periodic_value [d0; d1] data [(d0 / 2 + s0)%Z; (d1 / 2 + s1)%Z] /\
    Rabs (IZR s0 - (cos angle * IZR (nth 0 p 0%Z - d0 / 2) - sin angle * IZR (nth 1 p 0%Z - d1 / 2))) < 1 /\
    Rabs (IZR s1 - (sin angle * IZR (nth 0 p 0%Z - d0 / 2) + cos angle * IZR (nth 1 p 0%Z - d1 / 2))) < 1.
Proof.
  intros P0 P1 Hl. assert (V : valid_domain [d0; d1]) by (split; [left; reflexivity|repeat constructor; lia]).
  assert (Q0 : Z.quot d0 2 = (d0 / 2)%Z) by (apply Z.quot_div_nonneg; lia). assert (Q1 : Z.quot d1 2 = (d1 / 2)%Z) by (apply Z.quot_div_nonneg; lia).
  assert (Ev : forall i p, IndexModel.pos [d0; d1] i = Some p ->
     match IndexModel.pos [d0; d1] i with None => None | Some p => match wrap (rotated_pos d0 d1 (cos (- angle)) (sin (- angle)) p) [d0; d1] with None => None | Some w => match node_idx [d0; d1] w with None => None | Some j => zget data j end end end
     = Some (periodic_value [d0; d1] data (rotated_pos d0 d1 (cos (- angle)) (sin (- angle)) p))).
  { intros i p ->. set (q := rotated_pos d0 d1 (cos (- angle)) (sin (- angle)) p). destruct (wrap_mod_list q [d0; d1] (proj2 V) eq_refl) as [E B]. rewrite E.
    destruct (node_idx_defined _ _ V B) as [n En]. rewrite En. destruct (pos_node_idx _ _ n V B En) as [Hn _]. unfold periodic_value. rewrite En. apply zget_nth. lia. }
  unfold rotate2d. match goal with |- context[all_some ?l] => destruct (all_some_total l) as [out E] end.
  { intros x Hx. apply in_map_iff in Hx. destruct Hx as (i & <- & Hi). apply node_range_In in Hi. destruct (node_idx_pos [d0; d1] i V ltac:(lia)) as (p & Ep & _). rewrite (Ev i p Ep). discriminate. }
  exists out. split; [exact E|]. destruct (all_some_nth _ _ E) as [Lo No]. rewrite map_length, node_range_length in Lo. split; [exact Lo|].
  intros i p Hi Hp. specialize (No i). rewrite nth_error_map, node_range_nth in No by exact Hi. cbn [option_map] in No. rewrite (Ev _ p Hp) in No. apply nth_error_nth with (d := 0) in No.
  unfold rotated_pos in No. rewrite Q0, Q1, cos_neg, sin_neg in No. rewrite (Z.add_comm _ (d0 / 2)), (Z.add_comm _ (d1 / 2)) in No.
  eexists. eexists. split; [exact No|]. split.
  - match goal with |- Rabs (IZR (trunc ?x) - ?y) < 1 => replace y with x by ring end. apply trunc_near.
  - match goal with |- Rabs (IZR (trunc ?x) - ?y) < 1 => replace y with x by ring end. apply trunc_near.
Qed.
Theorem rotate2d_values d0 d1 data angle out : (0 < d0)%Z -> (0 < d1)%Z -> Z.of_nat (length data) = num_nodes [d0; d1] ->
  rotate2d [d0; d1] data angle = Some out -> Forall (fun v => In v data) out.
Proof.
  intros P0 P1 Hl E. assert (V : valid_domain [d0; d1]) by (split; [left; reflexivity|repeat constructor; lia]).
  destruct (rotate2d_spec d0 d1 data angle P0 P1 Hl) as (out' & E' & L & N). rewrite E in E'. injection E' as <-.
  apply Forall_forall. intros x Hx. destruct (In_nth _ _ 0 Hx) as (i & Hi & Ei). destruct (node_idx_pos [d0; d1] (Z.of_nat i) V ltac:(lia)) as (p & Ep & _).
  destruct (N i p ltac:(lia) Ep) as (s0 & s1 & Es & _). rewrite Ei in Es. rewrite Es. destruct (periodic_value_node [d0; d1] data [(d0 / 2 + s0)%Z; (d1 / 2 + s1)%Z] V Hl eq_refl) as (n & Hn & -> & _). apply nth_In, Hn.
Qed.
(** A turn by a multiple of a full turn changes nothing. *)
Theorem rotate2d_full_turn d0 d1 data angle : (0 < d0)%Z -> (0 < d1)%Z -> Z.of_nat (length data) = num_nodes [d0; d1] -> cos angle = 1 ->
  rotate2d [d0; d1] data angle = Some data.
Proof.
  intros P0 P1 Hl Ca. assert (V : valid_domain [d0; d1]) by (split; [left; reflexivity|repeat constructor; lia]).
  assert (Sa : sin angle = 0) by (pose proof (sin2_cos2 angle) as H; rewrite Ca in H; unfold Rsqr in H; nra).
  assert (Ev : forall i p, IndexModel.pos [d0; d1] (Z.of_nat i) = Some p -> in_box [d0; d1] p -> rotated_pos d0 d1 (cos (- angle)) (sin (- angle)) p = p).
  { intros i p _ B. assert (Lp : length p = 2%nat) by (symmetry; exact (ListAux.Forall2_length _ _ _ B)). destruct p as [|x [|y [|]]]; try discriminate Lp. unfold rotated_pos. rewrite cos_neg, sin_neg, Ca, Sa. cbn [nth].
    replace (IZR (x - Z.quot d0 2) * 1 + IZR (y - Z.quot d1 2) * - 0) with (IZR (x - Z.quot d0 2)) by ring.
    replace (IZR (y - Z.quot d1 2) * 1 - IZR (x - Z.quot d0 2) * - 0) with (IZR (y - Z.quot d1 2)) by ring. rewrite !trunc_IZR. f_equal; [lia|f_equal; lia]. }
  unfold rotate2d. match goal with |- all_some ?l = _ => assert (El : l = map Some data) end.
  - apply nth_error_ext_list. intros i. rewrite !nth_error_map. destruct (lt_dec i (length data)) as [Hi|Hi].
    + rewrite node_range_nth by exact Hi. cbn [option_map]. destruct (node_idx_pos [d0; d1] (Z.of_nat i) V ltac:(lia)) as (p & Ep & Bp & Np). rewrite Ep, (Ev i p Ep Bp), (in_box_wrap_id p _ Bp), Np.
      rewrite zget_nth by lia. rewrite Nat2Z.id, (nth_error_nth' _ 0 Hi). reflexivity.
    + rewrite !(proj2 (nth_error_None _ _)); [reflexivity|lia|rewrite node_range_length; lia].
  - rewrite El. clear. induction data as [|x data IH]; [reflexivity|]. cbn [map all_some]. rewrite IH. reflexivity.
Qed.

(** ** Slices *)
Theorem elemwise_spec f dst data : (length dst <= length data)%nat -> exists out, elemwise f dst data = Some out /\ length out = length dst /\
  forall i, (i < length dst)%nat -> nth i out C0 = f (nth i dst C0) (nth i data C0).
Proof.
  revert data. induction dst as [|x dst IH]; intros data L.
  - exists []. split; [reflexivity|]. split; [reflexivity|]. intros i Hi. cbn in Hi. lia.
  - destruct data as [|y data]; cbn [length] in L; [lia|]. destruct (IH data ltac:(lia)) as (out & E & Lo & N). cbn [elemwise]. rewrite E. exists (f x y :: out).
    split; [reflexivity|]. split; [cbn [length]; lia|]. intros [|i] Hi; [reflexivity|]. cbn [nth]. apply N. cbn [length] in Hi. lia.
Qed.
Lemma max_from_spec l : forall m, m <= max_from m l /\ (forall z, In z l -> Re z <= max_from m l) /\ (max_from m l = m \/ exists z, In z l /\ Re z = max_from m l).
Proof.
  induction l as [|z l IH]; intros m; cbn [max_from].
  - split; [lra|]. split; [intros z []|left; reflexivity].
  - destruct (Rgtb (Re z) m) eqn:E; [apply Rgtb_true in E|apply Rgtb_false in E].
    + destruct (IH (Re z)) as (A & B & D). split; [lra|]. split; [intros w [->|Hw]; [exact A|exact (B w Hw)]|]. right. destruct D as [->|(w & Hw & Ew)]; [exists z|exists w]; split; try reflexivity; [left; reflexivity|right; exact Hw|exact Ew].
    + destruct (IH m) as (A & B & D). split; [lra|]. split; [intros w [->|Hw]; [lra|exact (B w Hw)]|]. destruct D as [D|(w & Hw & Ew)]; [left; exact D|right; exists w; split; [right; exact Hw|exact Ew]].
Qed.
Lemma min_from_spec l : forall m, min_from m l <= m /\ (forall z, In z l -> min_from m l <= Re z) /\ (min_from m l = m \/ exists z, In z l /\ Re z = min_from m l).
Proof.
  induction l as [|z l IH]; intros m; cbn [min_from].
  - split; [lra|]. split; [intros z []|left; reflexivity].
  - destruct (Rltb (Re z) m) eqn:E; [apply Rltb_true in E|apply Rltb_false in E].
    + destruct (IH (Re z)) as (A & B & D). split; [lra|]. split; [intros w [->|Hw]; [exact A|exact (B w Hw)]|]. right. destruct D as [->|(w & Hw & Ew)]; [exists z|exists w]; split; try reflexivity; [left; reflexivity|right; exact Hw|exact Ew].
    + destruct (IH m) as (A & B & D). split; [lra|]. split; [intros w [->|Hw]; [lra|exact (B w Hw)]|]. destruct D as [D|(w & Hw & Ew)]; [left; exact D|right; exists w; split; [right; exact Hw|exact Ew]].
Qed.
Theorem extremes l : l <> [] -> exists lo hi, min_real l = Some lo /\ max_real l = Some hi /\ (forall z, In z l -> lo <= Re z <= hi) /\
  (exists z, In z l /\ Re z = lo) /\ (exists z, In z l /\ Re z = hi).
Proof.
  destruct l as [|z l]; [congruence|]. intros _. exists (min_from (Re z) (z :: l)), (max_from (Re z) (z :: l)). split; [reflexivity|]. split; [reflexivity|].
  destruct (max_from_spec (z :: l) (Re z)) as (_ & B & D). destruct (min_from_spec (z :: l) (Re z)) as (_ & B' & D'). split; [intros w Hw; split; auto|].
  split; [destruct D' as [->|D']|destruct D as [->|D]]; auto; exists z; split; try reflexivity; left; reflexivity.
Qed.
Lemma approx_loop_iff a : forall b tol, length a = length b -> (approx_loop a b tol = true <-> Forall2 (fun x y => Rabs (Re x - Re y) <= tol /\ Rabs (Im x - Im y) <= tol) a b).
Proof.
  induction a as [|x a IH]; intros [|y b] tol L; try discriminate; cbn [approx_loop]; [split; [constructor|reflexivity]|].
  assert (X : (Rgtb (Rabs (Re x - Re y)) tol || Rgtb (Rabs (Im x - Im y)) tol) = false <-> Rabs (Re x - Re y) <= tol /\ Rabs (Im x - Im y) <= tol) by (rewrite Bool.orb_false_iff, !Rgtb_false; reflexivity).
  destruct (Rgtb (Rabs (Re x - Re y)) tol || Rgtb (Rabs (Im x - Im y)) tol) eqn:E.
  - split; [discriminate|]. intros H. inversion H as [|? ? ? ? A B]; subst. apply X in A. discriminate.
  - rewrite IH by (cbn in L; lia). split; [intros H; constructor; [apply X; reflexivity|exact H]|]. intros H. inversion H; subst. assumption.
Qed.
Theorem equal_approx_iff a b tol : equal_approx a b tol = true <-> Forall2 (fun x y => Rabs (Re x - Re y) <= tol /\ Rabs (Im x - Im y) <= tol) a b.
Proof.
  unfold equal_approx. destruct (Nat.eqb_spec (length a) (length b)) as [E|E]; [apply approx_loop_iff, E|]. split; [discriminate|]. intros H. apply ListAux.Forall2_length in H. contradiction.
Qed.
Theorem equal_approx_sym a b tol : equal_approx a b tol = equal_approx b a tol.
Proof.
  apply Bool.eq_true_iff_eq. rewrite !equal_approx_iff. split; intros H; (eapply forall2_flip; [|exact H]); intros x y [A B]; cbv beta; rewrite (Rabs_minus_sym (Re y)), (Rabs_minus_sym (Im y)); auto.
Qed.
Theorem div_scalar_spec data x : x <> 0 -> Forall2 (fun z w => Cmul w (RtoC x) = z) data (div_real_scalar data x).
Proof.
  intros H. unfold div_real_scalar. induction data as [|z data IH]; cbn [map]; constructor; [|exact IH].
  change (Cmul (Cdiv z (RtoC x)) (RtoC x) = z). field. apply RtoC_neq0, H.
Qed.
