(** Proofs about the plots. *)
From Verif Require Import ParseProofs IndexProofs FileProofs DbProofs3 CliSpec CliProofs CliProofs3 CliProofs4.
Open Scope nat_scope.

Lemma Forall2_length {A B} (R : A -> B -> Prop) l l' : Forall2 R l l' -> length l = length l'.
Proof. induction 1; cbn; congruence. Qed.

Lemma atoi_dec z : atoi (dec z) = Some z.
Proof.
  unfold atoi, dec. destruct (z <? 0)%Z eqn:E.
  - apply Z.ltb_lt in E. change (Ascii.eqb minus_c minus_c) with true. cbv iota. change (skipn 1 (minus_c :: dec_nat (- z))) with (dec_nat (- z)).
    destruct (dec_nat_spec (- z) ltac:(lia)) as (H1 & H2 & H3). destruct (dec_nat (- z)) as [|a l] eqn:El; [contradiction|].
    rewrite H1, H2. f_equal. lia.
  - apply Z.ltb_ge in E. destruct (dec_nat_spec z E) as (H1 & H2 & H3).
    assert (M : match dec_nat z with m :: _ => Ascii.eqb m minus_c | [] => false end = false).
    { destruct (dec_nat z) as [|a l] eqn:El; [reflexivity|]. destruct (Ascii.eqb a minus_c) eqn:Ea; [|reflexivity].
      apply Ascii.eqb_eq in Ea. subst a. exfalso. exact (dec_nat_no_minus z l E El). }
    rewrite M. cbv iota. destruct (dec_nat z) as [|a l] eqn:El; [contradiction|]. rewrite H1, H2. reflexivity.
Qed.

Lemma find_col_at header column : forall i j, nth_error header j = Some column ->
  (forall k, k < j -> nth_error header k <> Some column) -> find_col header column i = i + j.
Proof.
  induction header as [|v header IH]; intros i j H N; [destruct j; discriminate|]. cbn [find_col].
  destruct j as [|j].
  - cbn in H. injection H as ->. rewrite str_eqb_refl. lia.
  - destruct (str_eqb v column) eqn:E.
    + apply str_eqb_iff in E. subst v. exfalso. apply (N 0); [lia|reflexivity].
    + rewrite (IH (S i) j); [lia|exact H|]. intros k Hk. apply (N (S k)). lia.
Qed.

Lemma parse_fmt_value q : parse_f (fmt_f q) = Some (parse_or_zero (fmt_f q)).
Proof. unfold parse_or_zero. destruct (parse_fmt q) as (r & -> & _). reflexivity. Qed.

(** The rows read from a file of SaveCsv. *)
Definition saved_row (dom : list Z) (vs : list Q) (i : nat) : drow :=
  let p := match IndexModel.pos dom (Z.of_nat i) with Some p => csv_pos3 p | None => [] end in
  {| d_x := nth 0 p 0%Z; d_y := nth 1 p 0%Z; d_z := nth 2 p 0%Z; d_value := parse_or_zero (fmt_f (nth i vs 0%Q)) |}.

Lemma read_saved dom data file j n vs : valid_domain dom -> save_csv data (Some dom) = Written file ->
  (forall f, In f data -> Z.of_nat (length (snd f)) = num_nodes dom) ->
  nth_error data j = Some (n, vs) -> NoDup (map lit ["X"; "Y"; "Z"]%string ++ map fst data) ->
  n <> [] -> read_data file n = Some (map (saved_row dom vs) (seq 0 (Z.to_nat (num_nodes dom)))).
Proof.
  intros Hd Hs Hl Hj Hn Hne.
  assert (Hd0 : data <> []) by (intros ->; destruct j; discriminate).
  rewrite (save_csv_written dom data Hd Hd0 Hl) in Hs. injection Hs as <-. unfold read_data.
  assert (Lh : length (map lit ["X"; "Y"; "Z"]%string ++ map fst data) <? 4 = false).
  { apply Nat.ltb_ge. rewrite app_length, !map_length. cbn [length]. destruct data; [contradiction|cbn; lia]. }
  set (hdr := map lit ["X"; "Y"; "Z"]%string ++ map fst data) in *.
  match goal with |- (if length ?h <? 4 then _ else _) = _ => change h with hdr end.
  rewrite Lh.
  assert (Hcol : get_col_index hdr n = 3 + j).
  { unfold get_col_index. destruct n as [|c n']; [contradiction|].
    assert (Hat : nth_error hdr (3 + j) = Some (c :: n')).
    { unfold hdr. rewrite nth_error_app2 by (cbn; lia). replace (3 + j - length (map lit ["X"; "Y"; "Z"]%string)) with j by (cbn; lia).
      rewrite nth_error_map, Hj. reflexivity. }
    rewrite (find_col_at _ _ 0 (3 + j)); [reflexivity|exact Hat|].
    intros k Hk Hc. assert (Hlen : 3 + j < length hdr) by (apply nth_error_Some; rewrite Hat; discriminate).
    pose proof (proj1 (NoDup_nth_error _) Hn k (3 + j) ltac:(lia) (eq_trans Hc (eq_sym Hat))). lia. }
  match goal with |- context [get_col_index ?h n] => change h with hdr end.
  rewrite Hcol, map_map. apply all_some_map_f. intros i Hi. apply in_seq in Hi.
  unfold read_row, row_of, saved_row. destruct (node_idx_pos dom (Z.of_nat i) Hd ltac:(lia)) as (p & Ep & _). rewrite Ep.
  unfold csv_pos3. cbn [map app nth_error plus nth]. rewrite nth_error_map, Hj. cbn [option_map snd]. rewrite !atoi_dec, parse_fmt_value. reflexivity.
Qed.

(** ** Lines *)
Lemma line_loop_spec x y z rows : forall acc,
  line_loop rows x y z acc = rev (map (fun r => (nth (abscissa_index x y z) [d_x r; d_y r; d_z r] 0%Z, d_value r)) (filter (fun r => include_row r x y z) rows)) ++ acc.
Proof.
  induction rows as [|r rows IH]; intros acc; cbn [line_loop filter]; [reflexivity|]. rewrite IH.
  destruct (include_row r x y z); [|reflexivity]. cbn [map rev]. rewrite <- app_assoc. reflexivity.
Qed.

Lemma include_row_iff r x y z : include_row r x y z = true <->
  (x = -1 \/ d_x r = x)%Z /\ (y = -1 \/ d_y r = y)%Z /\ (z = -1 \/ d_z r = z)%Z.
Proof.
  unfold include_row. rewrite !andb_true_iff.
  assert (K : forall a b : Z, (if (a =? -1)%Z then true else (b =? a)%Z) = true <-> (a = -1 \/ b = a)%Z).
  { intros a b. destruct (a =? -1)%Z eqn:E; [apply Z.eqb_eq in E; tauto|]. apply Z.eqb_neq in E. rewrite Z.eqb_eq. tauto. }
  rewrite !K. tauto.
Qed.

Lemma line_data_In rows x y z a v : In (a, v) (line_data rows x y z) <->
  exists r, In r rows /\ ((x = -1 \/ d_x r = x)%Z /\ (y = -1 \/ d_y r = y)%Z /\ (z = -1 \/ d_z r = z)%Z)
  /\ a = nth (abscissa_index x y z) [d_x r; d_y r; d_z r] 0%Z /\ v = d_value r.
Proof.
  unfold line_data. rewrite line_loop_spec, app_nil_r, <- in_rev, in_map_iff. split.
  - intros (r & E & I). apply filter_In in I. destruct I as [I C]. apply include_row_iff in C. injection E as <- <-. exists r. auto.
  - intros (r & I & C & -> & ->). exists r. split; [reflexivity|]. apply filter_In. split; [exact I|]. apply include_row_iff. exact C.
Qed.

Lemma num_set_two x y z : num_set x y z = 2%Z <->
  (x = -1 /\ y <> -1 /\ z <> -1 \/ x <> -1 /\ y = -1 /\ z <> -1 \/ x <> -1 /\ y <> -1 /\ z = -1)%Z.
Proof.
  unfold num_set. destruct (x =? -1)%Z eqn:Ex, (y =? -1)%Z eqn:Ey, (z =? -1)%Z eqn:Ez;
    rewrite ?Z.eqb_eq, ?Z.eqb_neq in *; split; intros; lia.
Qed.

(** The points of a line through saved data. *)
Lemma coord3 dom i : valid_domain dom -> (0 <= Z.of_nat i < num_nodes dom)%Z -> exists p, IndexModel.pos dom (Z.of_nat i) = Some p /\ csv_pos3 p = three p /\ length (three p) = 3.
Proof.
  intros Hd Hi. destruct (node_idx_pos dom (Z.of_nat i) Hd Hi) as (p & Hp & Hb & _). exists p. split; [exact Hp|].
  rewrite <- (csv_pos3_three dom p Hd Hb). split; reflexivity.
Qed.

Lemma line_of_saved dom vs x y z : valid_domain dom -> num_set x y z = 2%Z ->
  let pts := line_data (map (saved_row dom vs) (seq 0 (Z.to_nat (num_nodes dom)))) x y z in
  NoDup (map fst pts)
  /\ forall a v, In (a, v) pts <-> exists i px py pz, (0 <= Z.of_nat i < num_nodes dom)%Z
     /\ (exists p, IndexModel.pos dom (Z.of_nat i) = Some p /\ three p = [px; py; pz])
     /\ ((x = -1 /\ a = px /\ py = y /\ pz = z) \/ (y = -1 /\ a = py /\ px = x /\ pz = z) \/ (z = -1 /\ a = pz /\ px = x /\ py = y))%Z
     /\ v = parse_or_zero (fmt_f (nth i vs 0%Q)).
Proof.
  intros Hd Hnum pts.
  assert (Hin : forall a v, In (a, v) pts <-> exists i px py pz, (0 <= Z.of_nat i < num_nodes dom)%Z
     /\ (exists p, IndexModel.pos dom (Z.of_nat i) = Some p /\ three p = [px; py; pz])
     /\ ((x = -1 /\ a = px /\ py = y /\ pz = z) \/ (y = -1 /\ a = py /\ px = x /\ pz = z) \/ (z = -1 /\ a = pz /\ px = x /\ py = y))%Z
     /\ v = parse_or_zero (fmt_f (nth i vs 0%Q))).
  { intros a v. unfold pts. rewrite line_data_In. apply num_set_two in Hnum. split.
    - intros (r & I & C & -> & ->). apply in_map_iff in I. destruct I as (i & <- & I). apply in_seq in I.
      assert (Hi : (0 <= Z.of_nat i < num_nodes dom)%Z) by lia.
      destruct (coord3 dom i Hd Hi) as (p & Hp & H3 & L3). unfold saved_row in *. rewrite Hp in *. rewrite H3 in *.
      destruct (three p) as [|px [|py [|pz [|]]]] eqn:E3; try discriminate.
      exists i, px, py, pz. split; [exact Hi|]. split; [exists p; auto|]. cbn [nth d_x d_y d_z d_value] in *. split; [|reflexivity].
      unfold abscissa_index. destruct (x =? -1)%Z eqn:Ex; [|destruct (y =? -1)%Z eqn:Ey]; rewrite ?Z.eqb_eq, ?Z.eqb_neq in *; cbn [nth]; lia.
    - intros (i & px & py & pz & Hi & (p & Hp & E3) & C & ->). exists (saved_row dom vs i). split; [apply in_map; apply in_seq; lia|].
      destruct (coord3 dom i Hd Hi) as (p' & Hp' & H3 & L3). rewrite Hp in Hp'. injection Hp' as <-.
      unfold saved_row. rewrite Hp, H3, E3. cbn [nth d_x d_y d_z d_value]. split; [lia|]. split; [|reflexivity].
      unfold abscissa_index. destruct (x =? -1)%Z eqn:Ex; [|destruct (y =? -1)%Z eqn:Ey]; rewrite ?Z.eqb_eq, ?Z.eqb_neq in *; cbn [nth]; lia. }
  split; [|exact Hin].
  unfold pts, line_data. rewrite line_loop_spec, app_nil_r, map_rev. apply NoDup_rev. rewrite map_map. cbn [fst].
  apply num_set_two in Hnum.
  assert (K : forall i k, i < Z.to_nat (num_nodes dom) -> k < Z.to_nat (num_nodes dom) ->
     include_row (saved_row dom vs i) x y z = true -> include_row (saved_row dom vs k) x y z = true ->
     nth (abscissa_index x y z) [d_x (saved_row dom vs i); d_y (saved_row dom vs i); d_z (saved_row dom vs i)] 0%Z
     = nth (abscissa_index x y z) [d_x (saved_row dom vs k); d_y (saved_row dom vs k); d_z (saved_row dom vs k)] 0%Z -> i = k).
  { intros i k Hi Hk Ci Ck E. apply include_row_iff in Ci. apply include_row_iff in Ck.
    assert (Hi' : (0 <= Z.of_nat i < num_nodes dom)%Z) by lia. assert (Hk' : (0 <= Z.of_nat k < num_nodes dom)%Z) by lia.
    destruct (node_idx_pos dom (Z.of_nat i) Hd Hi') as (p & Hp & Hb & Hn). destruct (node_idx_pos dom (Z.of_nat k) Hd Hk') as (q & Hq & Hb' & Hn').
    unfold saved_row in *. rewrite Hp, Hq in *. cbn [csv_pos3 nth d_x d_y d_z] in *. 
    assert (E0 : nth 0 p 0%Z = nth 0 q 0%Z /\ nth 1 p 0%Z = nth 1 q 0%Z /\ nth 2 p 0%Z = nth 2 q 0%Z).
    { revert E. unfold abscissa_index. destruct (x =? -1)%Z eqn:Ex; [|destruct (y =? -1)%Z eqn:Ey]; rewrite ?Z.eqb_eq, ?Z.eqb_neq in *; cbn [nth]; intros E; lia. }
    assert (p = q).
    { destruct Hd as [[L|L] _]; apply Forall2_length in Hb; apply Forall2_length in Hb'; rewrite L in Hb, Hb'.
      - destruct p as [|p0 [|p1 [|]]]; cbn in Hb; try lia. destruct q as [|q0 [|q1 [|]]]; cbn in Hb'; try lia. cbn in E0. destruct E0 as (-> & -> & _). reflexivity.
      - destruct p as [|p0 [|p1 [|p2 [|]]]]; cbn in Hb; try lia. destruct q as [|q0 [|q1 [|q2 [|]]]]; cbn in Hb'; try lia. cbn in E0. destruct E0 as (-> & -> & ->). reflexivity. }
    subst q. rewrite Hn in Hn'. injection Hn' as X. lia. }
  revert K. generalize (Z.to_nat (num_nodes dom)) as N. intros N K.
  assert (K' : forall i k, In i (seq 0 N) -> In k (seq 0 N) -> include_row (saved_row dom vs i) x y z = true -> include_row (saved_row dom vs k) x y z = true ->
     nth (abscissa_index x y z) [d_x (saved_row dom vs i); d_y (saved_row dom vs i); d_z (saved_row dom vs i)] 0%Z
     = nth (abscissa_index x y z) [d_x (saved_row dom vs k); d_y (saved_row dom vs k); d_z (saved_row dom vs k)] 0%Z -> i = k).
  { intros i k Hi Hk. apply in_seq in Hi. apply in_seq in Hk. apply K; lia. }
  pose proof (seq_NoDup N 0) as ND. revert K' ND. generalize (seq 0 N) as l. clear. intros l K ND.
  induction l as [|i l IH]; cbn [map filter]; [constructor|]. inversion ND as [|? ? N1 N2]; subst.
  assert (IH' := IH (fun a b Ha Hb => K a b (or_intror Ha) (or_intror Hb)) N2).
  destruct (include_row (saved_row dom vs i) x y z) eqn:Ei; [|exact IH']. cbn [map]. constructor; [|exact IH'].
  intros C. apply in_map_iff in C. destruct C as (r & E & I). apply filter_In in I. destruct I as [I Ck].
  apply in_map_iff in I. destruct I as (k & <- & Ik). apply N1.
  rewrite (K i k (or_introl eq_refl) (or_intror Ik) Ei Ck (eq_sym E)). exact Ik.
Qed.

(** ** The range of the data *)
Lemma range_loop_spec rows : forall lo hi lo' hi', range_loop rows lo hi = (lo', hi') ->
  (forall r, In r rows -> lo' <= d_value r <= hi')%Q /\ (lo' <= lo)%Q /\ (hi <= hi')%Q
  /\ (lo' = lo \/ exists r, In r rows /\ d_value r = lo') /\ (hi' = hi \/ exists r, In r rows /\ d_value r = hi').
Proof.
  induction rows as [|r rows IH]; intros lo hi lo' hi' H; cbn [range_loop] in H.
  - injection H as <- <-. split; [intros r []|]. split; [apply Qle_refl|]. split; [apply Qle_refl|]. auto.
  - destruct (IH _ _ _ _ H) as (B & Bl & Bh & Al & Ah). clear IH H.
    assert (L : (lo' <= d_value r)%Q /\ (lo' <= lo)%Q).
    { destruct (Qltb (d_value r) lo) eqn:E.
      - apply Qltb_spec in E. split; [exact Bl|]. apply Qle_trans with (d_value r); [exact Bl|]. apply Qlt_le_weak. exact E.
      - split; [|exact Bl]. apply Qle_trans with lo; [exact Bl|]. apply Qnot_lt_le. intros C. apply Qltb_spec in C. congruence. }
    assert (Hh : (d_value r <= hi')%Q /\ (hi <= hi')%Q).
    { destruct (Qltb hi (d_value r)) eqn:E.
      - apply Qltb_spec in E. split; [exact Bh|]. apply Qle_trans with (d_value r); [|exact Bh]. apply Qlt_le_weak. exact E.
      - split; [|exact Bh]. apply Qle_trans with hi; [|exact Bh]. apply Qnot_lt_le. intros C. apply Qltb_spec in C. congruence. }
    split; [intros q [<-|I]; [split; tauto|exact (B q I)]|]. split; [tauto|]. split; [tauto|]. split.
    + destruct Al as [->|(q & I & E)]; [|right; exists q; split; [now right|exact E]].
      destruct (Qltb (d_value r) lo); [right; exists r; split; [now left|reflexivity]|left; reflexivity].
    + destruct Ah as [->|(q & I & E)]; [|right; exists q; split; [now right|exact E]].
      destruct (Qltb hi (d_value r)); [right; exists r; split; [now left|reflexivity]|left; reflexivity].
Qed.

Lemma data_range_spec rows lo hi : data_range rows = Some (lo, hi) ->
  (forall r, In r rows -> lo <= d_value r <= hi)%Q
  /\ (exists r, In r rows /\ d_value r = lo) /\ (exists r, In r rows /\ d_value r = hi).
Proof.
  destruct rows as [|r rows]; [discriminate|]. intros H. unfold data_range in H.
  assert (H' : range_loop (r :: rows) (d_value r) (d_value r) = (lo, hi)) by congruence.
  destruct (range_loop_spec _ _ _ _ _ H') as (B & _ & _ & Al & Ah). split; [exact B|]. split.
  - destruct Al as [->|K]; [exists r; split; [now left|reflexivity]|exact K].
  - destruct Ah as [->|K]; [exists r; split; [now left|reflexivity]|exact K].
Qed.

(** ** The heat map *)
Lemma max_above_spec l : forall m, (m <= max_above l m)%Z /\ (forall x, In x l -> x <= max_above l m)%Z /\ (max_above l m = m \/ In (max_above l m) l).
Proof.
  induction l as [|a l IH]; intros m; cbn [max_above].
  - split; [lia|]. split; [intros x []|]. now left.
  - destruct (IH (if (m <? a)%Z then a else m)) as (H1 & H2 & H3). destruct (m <? a)%Z eqn:E; rewrite ?Z.ltb_lt, ?Z.ltb_ge in E.
    + split; [lia|]. split; [intros x [<-|I]; [lia|auto]|]. right. destruct H3 as [->|H3]; [now left|now right].
    + split; [lia|]. split; [intros x [<-|I]; [lia|auto]|]. destruct H3 as [->|H3]; [now left|right; now right].
Qed.

Lemma fill_index_some rows nx : forall i t, (forall r, In r rows -> 0 <= hm_index (d_x r) (d_y r) nx < Z.of_nat (length t))%Z ->
  exists t', fill_index rows i nx t = Some t'.
Proof.
  induction rows as [|r rows IH]; intros i t H; cbn [fill_index]; [exists t; reflexivity|].
  pose proof (H r (or_introl eq_refl)) as [H1 H2].
  replace (hm_index (d_x r) (d_y r) nx <? 0)%Z with false by (symmetry; apply Z.ltb_ge; exact H1).
  destruct (set_nth_some t (Z.to_nat (hm_index (d_x r) (d_y r) nx)) i ltac:(lia)) as (t' & -> & L).
  apply IH. intros q I. rewrite L. apply H. now right.
Qed.

(** [rows] holds one row for each node of an nx times ny grid, row [k] for the
    node [node k]. *)
Lemma heat_map_spec (nx ny : Z) rows (node : nat -> Z * Z) : (0 < nx)%Z -> (0 < ny)%Z -> Z.of_nat (length rows) = (nx * ny)%Z ->
  (forall k r, nth_error rows k = Some r -> (d_x r, d_y r) = node k) ->
  (forall k, k < length rows -> (0 <= fst (node k) < nx /\ 0 <= snd (node k) < ny)%Z) ->
  (exists k, k < length rows /\ fst (node k) = (nx - 1)%Z) -> (exists k, k < length rows /\ snd (node k) = (ny - 1)%Z) ->
  exists h, new_heat_map rows = Some h /\ hm_dims h = (nx, ny)
  /\ forall c r, (0 <= c < nx)%Z -> (0 <= r < ny)%Z -> exists row,
     nth_error rows (Z.to_nat (r * nx + c)) = Some row /\ pixel_value h c r = Some (d_value row).
Proof.
  intros Hx Hy L Hnode B (kx & Kx1 & Kx2) (ky & Ky1 & Ky2).
  assert (Hr : forall r, In r rows -> (0 <= d_x r < nx /\ 0 <= d_y r < ny)%Z).
  { intros r I. apply In_nth_error in I. destruct I as [k E]. pose proof (Hnode k r E) as En.
    assert (K : k < length rows) by (apply nth_error_Some; rewrite E; discriminate). specialize (B k K). rewrite <- En in B. exact B. }
  assert (Ex : (max_above (map d_x rows) 0 + 1 = nx)%Z).
  { destruct (max_above_spec (map d_x rows) 0) as (M1 & M2 & M3).
    assert (max_above (map d_x rows) 0 <= nx - 1)%Z by (destruct M3 as [->|M3]; [lia|]; apply in_map_iff in M3; destruct M3 as (r & <- & I); specialize (Hr r I); lia).
    destruct (nth_error rows kx) as [r|] eqn:E; [|apply nth_error_None in E; lia].
    pose proof (Hnode kx r E) as En. rewrite <- En in Kx2. cbn in Kx2. pose proof (M2 (d_x r) (in_map _ _ _ (nth_error_In _ _ E))). lia. }
  assert (Ey : (max_above (map d_y rows) 0 + 1 = ny)%Z).
  { destruct (max_above_spec (map d_y rows) 0) as (M1 & M2 & M3).
    assert (max_above (map d_y rows) 0 <= ny - 1)%Z by (destruct M3 as [->|M3]; [lia|]; apply in_map_iff in M3; destruct M3 as (r & <- & I); specialize (Hr r I); lia).
    destruct (nth_error rows ky) as [r|] eqn:E; [|apply nth_error_None in E; lia].
    pose proof (Hnode ky r E) as En. rewrite <- En in Ky2. cbn in Ky2. pose proof (M2 (d_y r) (in_map _ _ _ (nth_error_In _ _ E))). lia. }
  unfold new_heat_map. rewrite Ex, Ey.
  destruct (fill_index_some rows nx 0 (repeat 0 (length rows))) as [t Et].
  { intros r I. rewrite repeat_length, L. specialize (Hr r I). unfold hm_index. nia. }
  rewrite Et. eexists. split; [reflexivity|]. split; [reflexivity|]. intros c r Hc Hr'.
  assert (K : Z.to_nat (r * nx + c) < length rows) by nia.
  destruct (nth_error rows (Z.to_nat (r * nx + c))) as [row|] eqn:E; [|apply nth_error_None in E; lia].
  exists row. split; [reflexivity|]. unfold pixel_value, hm_z, hm_index. cbn [hm_nx hm_ny hm_rows].
  replace ((0 <=? c)%Z && (c <? nx)%Z && (0 <=? r)%Z && (r <? ny)%Z) with true
    by (symmetry; rewrite !andb_true_iff; repeat split; (apply Z.leb_le || apply Z.ltb_lt); lia).
  replace (r * nx + c <? 0)%Z with false by (symmetry; apply Z.ltb_ge; nia). rewrite E. reflexivity.
Qed.

(** A file written by SaveCsv for an nx times ny domain. *)
Lemma heat_map_saved nx ny vs : (0 < nx)%Z -> (0 < ny)%Z -> Z.of_nat (length vs) = (nx * ny)%Z ->
  exists h, new_heat_map (map (saved_row [nx; ny] vs) (seq 0 (Z.to_nat (nx * ny)))) = Some h /\ hm_dims h = (nx, ny)
  /\ forall c r v, (0 <= c < nx)%Z -> (0 <= r < ny)%Z -> nth_error vs (Z.to_nat (r * nx + c)) = Some v ->
     pixel_value h c r = Some (parse_or_zero (fmt_f v)).
Proof.
  intros Hx Hy L. set (rows := map (saved_row [nx; ny] vs) (seq 0 (Z.to_nat (nx * ny)))).
  assert (V : valid_domain [nx; ny]) by (split; [left; reflexivity|repeat constructor; assumption]).
  assert (NN : num_nodes [nx; ny] = (nx * ny)%Z) by (cbn; lia).
  assert (Lr : length rows = Z.to_nat (nx * ny)) by (unfold rows; rewrite map_length, seq_length; reflexivity).
  assert (At : forall k, k < length rows -> nth_error rows k = Some (saved_row [nx; ny] vs k)).
  { intros k Hk. unfold rows. rewrite nth_error_map, (nth_error_nth' _ 0) by (rewrite seq_length, <- Lr; exact Hk).
    rewrite seq_nth by (rewrite <- Lr; exact Hk). reflexivity. }
  assert (P : forall k, IndexModel.pos [nx; ny] (Z.of_nat k) = Some [Z.of_nat k / ny; Z.of_nat k mod ny]%Z).
  { intros k. cbn [IndexModel.pos]. rewrite go_rem_pos, go_div_pos by exact Hy. rewrite Z.rem_mod_nonneg, Z.quot_div_nonneg by lia. reflexivity. }
  pose (node := fun k : nat => (Z.of_nat k / ny, Z.of_nat k mod ny)%Z).
  destruct (heat_map_spec nx ny rows node) as (h & H1 & H2 & H3); try assumption.
  - rewrite Lr. lia.
  - intros k r E. assert (K : k < length rows) by (apply nth_error_Some; rewrite E; discriminate). rewrite (At k K) in E. injection E as <-.
    unfold saved_row. rewrite (P k). reflexivity.
  - intros k K. unfold node. cbn [fst snd]. split; [|apply Z.mod_pos_bound; exact Hy].
    split; [apply Z.div_pos; lia|]. apply Z.div_lt_upper_bound; [exact Hy|]. nia.
  - exists (Z.to_nat ((nx - 1) * ny)). split; [nia|]. unfold node. cbn [fst]. rewrite Z2Nat.id by nia. apply Z.div_mul. lia.
  - exists (Z.to_nat (ny - 1)). split; [nia|]. unfold node. cbn [snd]. rewrite Z2Nat.id by lia. apply Z.mod_small. lia.
  - exists h. split; [exact H1|]. split; [exact H2|]. intros c r v Hc Hr Hv.
    destruct (H3 c r Hc Hr) as (row & E & ->). assert (K : Z.to_nat (r * nx + c) < length rows) by (apply nth_error_Some; rewrite E; discriminate).
    rewrite (At _ K) in E. injection E as <-. unfold saved_row. cbn [d_value]. rewrite (nth_error_nth _ _ _ Hv). reflexivity.
Qed.

(** Rows with x fastest: every pixel shows its node. *)
Lemma heat_map_x_fastest nx ny rows : (0 < nx)%Z -> (0 < ny)%Z -> Z.of_nat (length rows) = (nx * ny)%Z ->
  (forall k r, nth_error rows k = Some r -> d_x r = Z.of_nat k mod nx /\ d_y r = Z.of_nat k / nx)%Z ->
  exists h, new_heat_map rows = Some h /\ hm_dims h = (nx, ny)
  /\ forall c r, (0 <= c < nx)%Z -> (0 <= r < ny)%Z -> exists row, In row rows /\ d_x row = c /\ d_y row = r /\ pixel_value h c r = Some (d_value row).
Proof.
  intros Hx Hy L Hk. destruct (heat_map_spec nx ny rows (fun k => (Z.of_nat k mod nx, Z.of_nat k / nx)%Z)) as (h & H1 & H2 & H3); try assumption.
  - intros k r E. destruct (Hk k r E) as [-> ->]. reflexivity.
  - intros k K. cbn [fst snd]. split; [apply Z.mod_pos_bound; exact Hx|]. split; [apply Z.div_pos; lia|]. apply Z.div_lt_upper_bound; [exact Hx|]. nia.
  - exists (Z.to_nat (nx - 1)). split; [nia|]. cbn [fst]. rewrite Z2Nat.id by lia. apply Z.mod_small. lia.
  - exists (Z.to_nat ((ny - 1) * nx)). split; [nia|]. cbn [snd]. rewrite Z2Nat.id by nia. apply Z.div_mul. lia.
  - exists h. split; [exact H1|]. split; [exact H2|]. intros c r Hc Hr. destruct (H3 c r Hc Hr) as (row & E & P).
    exists row. split; [exact (nth_error_In _ _ E)|]. destruct (Hk _ _ E) as [Ex Ey]. rewrite Z2Nat.id in Ex, Ey by nia.
    split; [rewrite Ex, Z.add_comm, Z.mod_add by lia; apply Z.mod_small; exact Hc|].
    split; [rewrite Ey, Z.div_add_l, Z.div_small by lia; lia|exact P].
Qed.

(** ** The fields of a line plot *)
Lemma plotted_all args header : plotted_fields args header = skipn 3 header.
Proof. reflexivity. Qed.

(** ** Grid.SaveCsv *)
Definition grid_row (dims : list Z) (data : list Q) (i : nat) : list str :=
  match IndexModel.pos dims (Z.of_nat i) with Some p => map dec p ++ [fmt_f (nth i data 0%Q)] | None => [] end.
Lemma grid_save_csv_written dims data : valid_domain dims -> Z.of_nat (length data) = num_nodes dims ->
  grid_save_csv dims data = Some ((if Nat.eqb (length dims) 3 then map lit ["x"; "y"; "z"; "value"]%string
                        else map lit ["x"; "y"; "value"]%string) :: map (grid_row dims data) (seq 0 (length data))).
Proof.
  intros Hd L. unfold grid_save_csv. rewrite (all_some_map_f _ (grid_row dims data)); [reflexivity|].
  intros i Hi. apply in_seq in Hi. unfold grid_csv_row, grid_row.
  destruct (node_idx_pos dims (Z.of_nat i) Hd ltac:(lia)) as (p & -> & _).
  rewrite (nth_error_nth' data 0%Q) by lia. reflexivity.
Qed.

Lemma grid_csv_plot dims data file : valid_domain dims -> Z.of_nat (length data) = num_nodes dims ->
  grid_save_csv dims data = Some file ->
  (length dims = 2 -> forall column, read_data file column = None)
  /\ (length dims = 3 -> read_data file [] = Some (map (saved_row dims data) (seq 0 (length data)))).
Proof.
  intros Hd L H. rewrite (grid_save_csv_written dims data Hd L) in H. injection H as <-. split.
  - intros E column. rewrite E. reflexivity.
  - intros E. rewrite E. cbn [Nat.eqb read_data map length Nat.ltb Nat.leb]. rewrite map_map. apply all_some_map_f. intros i Hi. apply in_seq in Hi.
    unfold read_row, grid_row, saved_row, get_col_index. destruct (node_idx_pos dims (Z.of_nat i) Hd ltac:(lia)) as (p & -> & Hb & _).
    apply Forall2_length in Hb. rewrite E in Hb. destruct p as [|a [|b [|c [|]]]]; cbn in Hb; try lia.
    cbn [map app nth_error csv_pos3 nth]. rewrite !atoi_dec, parse_fmt_value. reflexivity.
Qed.
