(** Properties C50 (tables of the commands), C51 (export) and C52 (plots). *)
From Verif Require Import ParseProofs IndexProofs FileProofs DbProofs3 DbProofs5 CliSpec CliProofs CliProofs2 CliProofs3 CliProofs4 CliProofs5.
From Coq Require Import Lia Lra.
Open Scope nat_scope.

(** ** C50 *)

Lemma id_line_table : forall e, table_line (id_line e) (dec (fst e)) (snd e).
Proof.
  intros e. unfold id_line, pad_right. exists 0, (23 - length (dec (fst e))), 0, (29 - length (snd e)).
  cbn [repeat app]. now rewrite <- !app_assoc.
Qed.
Lemma comment_line_table : forall a b, table_line (comment_line a b) a b.
Proof.
  intros a b. unfold comment_line, pad_right. exists 0, (sim_id_width - length a), 0, (comment_width - length b).
  cbn [repeat app]. now rewrite <- !app_assoc.
Qed.
Lemma info_line_table : forall a b, table_line (info_line a b) a b.
Proof.
  intros a b. unfold info_line, pad_right, pad_left. exists 0, (desc_width - length a), (value_width - length b), 0.
  cbn [repeat app]. now rewrite <- !app_assoc.
Qed.
Lemma map_table : forall (f : str -> str) a ls, (forall l, table_line (f l) a l) -> Forall2 (fun line l => table_line line a l) (map f ls) ls.
Proof. intros f a ls H. induction ls; constructor; auto. Qed.

(** The list of simulations shows the newest ones, newest first, as many as
    asked for, and says when some are left out. *)
Theorem C50_list_simulations : forall rows answer max, newest_first rows answer -> (0 <= max)%Z ->
  exists shown hidden, Forall2 (fun line e => table_line line (dec (fst e)) (snd e)) (snd (show_ids answer max)) shown
  /\ Permutation (shown ++ hidden) rows
  /\ length shown = Nat.min (Z.to_nat max) (length rows)
  /\ (forall a b, In a shown -> In b hidden -> str_le (snd b) (snd a) = true)
  /\ (forall i j a b, i < j -> nth_error shown i = Some a -> nth_error shown j = Some b -> str_le (snd b) (snd a) = true)
  /\ (fst (show_ids answer max) = None <-> hidden = [])
  /\ (hidden <> [] -> fst (show_ids answer max)
       = Some (lit "Showing " ++ dec (Z.of_nat (length shown)) ++ lit " of " ++ dec (Z.of_nat (length rows)) ++ lit " rows")).
Proof.
  intros rows answer max H M. destruct (show_ids_spec rows answer max H M) as (shown & hidden & E & R).
  exists shown, hidden. split; [|exact R]. rewrite E. clear E R. induction shown as [|e shown IH]; [constructor|].
  constructor; [apply id_line_table|exact IH].
Qed.
Print Assumptions C50_list_simulations.

(** The simulation used by default is a newest one. *)
Theorem C50_default_simulation : forall rows answer, newest_first rows answer ->
  match rows with
  | [] => newest_simulation answer = 0%Z
  | _ => exists t, In (newest_simulation answer, t) rows /\ forall e, In e rows -> str_le (snd e) t = true \/ e = (newest_simulation answer, t)
  end.
Proof. exact newest_simulation_spec. Qed.
Print Assumptions C50_default_simulation.

(** The comment command prints the comment of the simulation, and the empty
    text when it has none. *)
Theorem C50_comment_of_simulation : forall d sim, (forall text, has_comment d sim text -> comment_of d sim = text)
  /\ (no_comment d sim -> comment_of d sim = []).
Proof. exact comment_of_spec. Qed.
Print Assumptions C50_comment_of_simulation.

(** Changing a comment changes the one asked for and no other. *)
Theorem C50_comment_update : forall d sim text,
  (forall old, has_comment d sim old -> comment_of (update_comment d sim text) sim = text)
  /\ forall s, s <> sim -> comment_of (update_comment d sim text) s = comment_of d s.
Proof. exact update_comment_spec. Qed.
Print Assumptions C50_comment_update.

(** The list with comments shows the simulations asked for; one that has a
    comment is shown with its own.  Missing: one without a comment is shown with
    the comment of the line above. *)
Theorem C50_list_comments_partial : forall d answer max, map fst (show_comments d answer max) = map fst (limit max answer)
  /\ forall v c text, In (v, c) (show_comments d answer max) -> has_comment d v text -> c = text.
Proof. exact show_comments_own. Qed.
Print Assumptions C50_list_comments_partial.

Theorem C50_list_comments_refuted : ~ (forall d answer max v c, In (v, c) (show_comments d answer max) -> no_comment d v -> c = []).
Proof.
  intros H. pose (d := Build_db [1; 2]%Z [] [] [] [] [{| cr_value := lit "annealed"; cr_sim := 1 |}] []).
  specialize (H d [(1, lit "2"); (2, lit "1")]%Z 10%Z 2%Z (lit "annealed")).
  assert (C : lit "annealed" = []); [|discriminate]. apply H; [right; left; reflexivity|].
  intros r [<-|[]]. cbn. discriminate.
Qed.
Print Assumptions C50_list_comments_refuted.

(** --new on a simulation without a comment stores nothing. *)
Theorem C50_comment_update_refuted : ~ (forall d sim text, In sim (t_ids d) -> comment_of (update_comment d sim text) sim = text).
Proof.
  intros H. specialize (H (Build_db [1]%Z [] [] [] [] [] []) 1%Z (lit "new") (or_introl eq_refl)). discriminate.
Qed.
Print Assumptions C50_comment_update_refuted.

(** The table of all comments: the lines of a comment stand under its
    simulation and show its words in order, when no word is too long.  Missing:
    the end of a long comment can be left out or shown twice. *)
Theorem C50_comment_table_partial : forall sim comment printed,
  length comment < 96 \/ In blank (firstn 97 comment) -> print_comment sim comment = Some printed ->
  exists first more l ls, printed = l :: ls /\ table_line l (dec sim) first
  /\ Forall2 (fun line text => table_line line (lit " ") text) ls more /\ wrapped comment (first :: more).
Proof.
  intros sim comment printed H P. unfold print_comment in P. destruct (wrap_comment comment) as [[|l ls]|] eqn:E; try discriminate.
  - exfalso. destruct (comment_wrapped comment [] H E) as [(t & C & _)|(w & m & C & D & _)]; [now apply C|].
    destruct w; [now apply C|discriminate].
  - injection P as <-. exists l, ls, (comment_line (dec sim) l), (map (comment_line (lit " ")) ls). split; [reflexivity|].
    split; [apply comment_line_table|]. split; [apply map_table; intros; apply comment_line_table|].
    exact (comment_wrapped comment (l :: ls) H E).
Qed.
Print Assumptions C50_comment_table_partial.

(** A comment that fits is shown completely on one line. *)
Theorem C50_short_comment : forall sim comment, length comment < 96 ->
  exists line, print_comment sim comment = Some [line] /\ table_line line (dec sim) comment.
Proof.
  intros sim comment H. exists (comment_line (dec sim) comment). split; [|apply comment_line_table].
  unfold print_comment. rewrite (short_comment comment H). reflexivity.
Qed.
Print Assumptions C50_short_comment.

(** Every comment of 96 bytes makes the command panic. *)
Theorem C50_comment_96_panics : forall sim comment, length comment = 96 -> print_comment sim comment = None.
Proof. intros sim comment H. unfold print_comment. rewrite (exactly_96_panics comment H). reflexivity. Qed.
Print Assumptions C50_comment_96_panics.

(** A comment of eight words of 50 letters loses three words. *)
Theorem C50_comment_complete_refuted : ~ (forall comment ls, wrap_comment comment = Some ls -> In blank (firstn 97 comment) -> join_char blank ls = comment).
Proof.
  intros H. pose (c := join_char blank (repeat (repeat "a"%char 50) 8)).
  assert (E : wrap_comment c = Some (repeat (repeat "a"%char 50) 5)) by (vm_compute; reflexivity).
  specialize (H c _ E). assert (I : In blank (firstn 97 c)).
  { apply (nth_error_In _ 50). vm_compute. reflexivity. }
  specialize (H I). apply (f_equal (@length ascii)) in H. vm_compute in H. discriminate.
Qed.
Print Assumptions C50_comment_complete_refuted.

(** The table of attributes.  The keys of the selected simulations are spread
    over tables of at most ten columns, each once; every table has one row for
    each selected simulation with an attribute; a cell shows the attribute of
    that simulation with that key, or nothing when it has none.  [keys] and
    [entries] are in the order in which Go visits the maps. *)
Theorem C50_attribute_tables : forall fmtf d sim keys entries, sim <> 0%Z ->
  Permutation keys (attr_header fmtf d sim) -> Permutation entries (attr_map fmtf d sim) ->
  let tables := list_attributes keys entries in
  (forall k, In k (concat (map fst tables)) <-> exists s, ((sim < 0)%Z \/ s = sim) /\ has_attr d s k)
  /\ NoDup (concat (map fst tables))
  /\ (forall cols rows, In (cols, rows) tables -> length cols <= 10
       /\ NoDup (map fst rows)
       /\ (forall s, In s (map fst rows) <-> ((sim < 0)%Z \/ s = sim) /\ exists k, has_attr d s k)
       /\ forall s cells, In (s, cells) rows -> length cells = length cols
          /\ forall j k c, nth_error cols j = Some k -> nth_error cells j = Some c ->
             attr_text fmtf d s k c \/ ~ has_attr d s k /\ c = []).
Proof. intros fmtf d sim keys entries H. exact (list_attributes_spec fmtf d sim H keys entries). Qed.
Print Assumptions C50_attribute_tables.

(** With --simid 0 the numbers of all simulations are listed. *)
Theorem C50_attribute_tables_zero_refuted : ~ (forall fmtf d sim s, (0 <= sim)%Z -> In s (map fst (attr_map fmtf d sim)) -> s = sim).
Proof.
  intros H. specialize (H (fun _ => []) (Build_db [1]%Z [] [] [{| ar_key := lit "dx"; ar_value := 1%R; ar_sim := 1 |}] [] [] []) 0%Z 1%Z ltac:(lia) (or_introl eq_refl)).
  discriminate.
Qed.
Print Assumptions C50_attribute_tables_zero_refuted.

(** One attribute of one or all simulations: the numbers are complete. *)
Theorem C50_single_attribute_partial : forall fmtf is_number d sim name, sim <> 0%Z ->
  exists others, list_single fmtf is_number d sim name = single_numbers fmtf (t_attr d) sim name ++ others
  /\ forall s v, In (s, v) (single_numbers fmtf (t_attr d) sim name) <->
     exists r, In r (t_attr d) /\ ar_key r = name /\ ((sim < 0)%Z \/ s = sim) /\ ar_sim r = s /\ fmtf (ar_value r) = v.
Proof.
  intros fmtf is_number d sim name H. eexists. split; [reflexivity|]. intros s v. exact (single_numbers_spec fmtf (t_attr d) sim name s v H).
Qed.
Print Assumptions C50_single_attribute_partial.

(** A text attribute is shown empty and under a wrong simulation. *)
Theorem C50_single_text_refuted : ~ (forall fmtf is_number d sim name r, In r (t_text d) -> tr_key r = name -> tr_sim r = sim ->
  In (sim, tr_value r) (list_single fmtf is_number d sim name)).
Proof.
  intros H. specialize (H (fun _ => []) (fun _ => false)
    (Build_db [1]%Z [] [] [] [{| tr_key := lit "alloy"; tr_value := lit "AlMg"; tr_sim := 1 |}] [] []) 1%Z (lit "alloy") _ (or_introl eq_refl) eq_refl eq_refl).
  destruct H as [H|[]]. discriminate.
Qed.
Print Assumptions C50_single_text_refuted.

(** info: the names are printed completely, at most 60 characters on a line. *)
Theorem C50_info_list_complete : forall name array, exists p ps l ls,
  print_list name array = l :: ls /\ table_line l name p /\ Forall2 (fun line text => table_line line [] text) ls ps
  /\ concat (p :: ps) = join_list array /\ Forall (fun q => length q <= 60) (p :: ps).
Proof.
  intros name array. destruct (print_list_complete name array) as (p & ps & E & R).
  exists p, ps, (info_line name p), (map (info_line []) ps). split; [exact E|]. split; [apply info_line_table|].
  split; [apply map_table; intros; apply info_line_table|exact R].
Qed.
Print Assumptions C50_info_list_complete.

(** info: the extents of the domain. *)
Theorem C50_info_extents : forall dom d, positions_of dom d -> info_dims d = [nth 0 dom 1; nth 1 dom 1; nth 2 dom 1]%Z.
Proof. exact info_dims_spec. Qed.
Print Assumptions C50_info_extents.

Example C50_nonvacuous :
  newest_first [(1, lit "10"); (2, lit "20")]%Z [(2, lit "20"); (1, lit "10")]%Z
  /\ has_comment (Build_db [1]%Z [] [] [] [] [{| cr_value := lit "a"; cr_sim := 1 |}] []) 1%Z (lit "a")
  /\ (exists p, print_comment 1 (join_char blank (repeat (repeat "a"%char 50) 8)) = Some p)
  /\ has_attr (Build_db [1]%Z [] [] [{| ar_key := lit "dx"; ar_value := 1%R; ar_sim := 1 |}] [] [] []) 1%Z (lit "dx").
Proof.
  split; [|split; [|split]].
  - split; [apply perm_swap|]. intros i j a b L A B.
    destruct i as [|i]; [destruct j as [|[|j]]; [lia| |destruct j; discriminate]|destruct j as [|[|j]]; [lia|lia|destruct j; discriminate]].
    cbn in A, B. injection A as <-. injection B as <-. reflexivity.
  - exists {| cr_value := lit "a"; cr_sim := 1 |}. split; [|reflexivity]. exists [], []. repeat split. intros y [].
  - eexists. vm_compute. reflexivity.
  - left. exists {| ar_key := lit "dx"; ar_value := 1%R; ar_sim := 1 |}. repeat split. now left.
Qed.

(** ** C51 *)

(** The exported time series: one column for each stored name, the row number
    is the time step, and each cell is the stored sample of its name and step
    (zero when there is none).  Only a negative time step is refused. *)
Theorem C51_export_series : forall fmtf order d sim, some_order order ->
  (export_series fmtf order d sim = None <-> exists r, In r (t_series d) /\ sr_sim r = sim /\ (sr_ts r < 0)%Z)
  /\ forall t, export_series fmtf order d sim = Some t ->
     exists keys rows, t = keys :: rows /\ NoDup keys
     /\ (forall k, In k keys <-> exists r, In r (t_series d) /\ sr_sim r = sim /\ sr_key r = k)
     /\ (forall r, In r (t_series d) -> sr_sim r = sim -> (0 <= sr_ts r < Z.of_nat (length rows))%Z)
     /\ (length rows = 1 \/ exists r, In r (t_series d) /\ sr_sim r = sim /\ sr_ts r = (Z.of_nat (length rows) - 1)%Z)
     /\ forall i j k, i < length rows -> nth_error keys j = Some k ->
        (exists v, sample d sim k (Z.of_nat i) v /\ cell t (S i) j = Some (fmtf v))
        \/ (no_sample d sim k (Z.of_nat i) /\ cell t (S i) j = Some (fmtf 0%R)).
Proof. exact export_series_spec. Qed.
Print Assumptions C51_export_series.

(** So a sample that was not stored cannot be told from a stored zero. *)
Theorem C51_missing_sample_refuted : ~ (forall fmtf order d d' sim, some_order order ->
  export_series fmtf order d sim = export_series fmtf order d' sim ->
  forall k i, no_sample d sim k i -> no_sample d' sim k i).
Proof.
  intros H. pose (r0 := {| sr_key := lit "e"; sr_value := 0%R; sr_sim := 1; sr_ts := 0 |}).
  pose (r1 := {| sr_key := lit "e"; sr_value := 1%R; sr_sim := 1; sr_ts := 1 |}).
  specialize (H (fun _ => []) (fun l => l) (Build_db [1]%Z [] [] [] [] [] [r1]) (Build_db [1]%Z [] [] [] [] [] [r0; r1]) 1%Z
    (fun l => Permutation_refl l) eq_refl (lit "e") 0%Z).
  apply (H ltac:(intros r [<-|[]] (_ & _ & C); discriminate) r0); [now left|]. repeat split.
Qed.
Print Assumptions C51_missing_sample_refuted.

(** Exported fields agree with what Load returns: one row for each position,
    with its coordinates and the value of every field there. *)
Theorem C51_export_fields : forall fmtf order sim ts d r, some_order order -> (0 <= ts)%Z -> load sim ts d = Some r ->
  match export_fields fmtf order sim ts d with
  | NoEntries => r = []
  | ExportPanics => False
  | File t => exists names rows, t = (map lit ["X"; "Y"; "Z"]%string ++ names) :: rows
      /\ Permutation names (map fst r) /\ length rows = length (t_pos d)
      /\ forall i p, nth_error (t_pos d) i = Some p -> exists cells, nth_error rows i = Some (map dec p ++ cells)
         /\ length cells = length names
         /\ forall j n c, nth_error names j = Some n -> nth_error cells j = Some c ->
            exists data v, In (n, data) r /\ nth_error data i = Some (RtoC v) /\ c = fmtf v
  end.
Proof. exact export_load. Qed.
Print Assumptions C51_export_fields.

(** After a completed SaveFields, whatever came before and whatever is saved
    later for other steps or simulations, the file has the saved values beside
    the coordinates of their nodes. *)
Theorem C51_export_saved : forall fmtf order k w0 hist e fields epoch later dom, some_order order -> new_world k w0 ->
  let w := run w0 hist in let s := sim_of w e in let d := w_db (run (step w e) later) in
  ev_op e = OpSave fields epoch -> NoDup (map fst fields) -> fields <> [] -> completes w e ->
  h_dom (w_handles w (ev_who e)) = Some dom -> ~ saved_at (step w e) later s epoch -> (0 <= epoch)%Z ->
  exists names rows, export_fields fmtf order s epoch d = File ((map lit ["X"; "Y"; "Z"]%string ++ names) :: rows)
  /\ NoDup names
  /\ forall n vs, In (n, vs) fields -> exists j, nth_error names j = Some n
     /\ forall i v, nth_error vs i = Some v -> exists p,
        IndexModel.pos dom (Z.of_nat i) = Some p /\
        cell rows i 0 = Some (dec (nth 0 p 0%Z)) /\ cell rows i 1 = Some (dec (nth 1 p 0%Z)) /\ cell rows i 2 = Some (dec (nth 2 p 0%Z))
        /\ cell rows i (3 + j) = Some (fmtf (fst v)).
Proof. exact export_saved. Qed.
Print Assumptions C51_export_saved.

(** Without a time step the latest one is exported; with --all every stored
    step goes to a file of its own. *)
Theorem C51_default_step : forall fmtf order sim ts d, (ts < 0)%Z -> (exists r, In r (t_fields d) /\ fr_sim r = sim) ->
  (forall r, In r (t_fields d) -> fr_sim r = sim -> (0 <= fr_ts r)%Z) ->
  exists m, export_fields fmtf order sim ts d = export_fields fmtf order sim m d
  /\ (exists r, In r (t_fields d) /\ fr_sim r = sim /\ fr_ts r = m)
  /\ forall r, In r (t_fields d) -> fr_sim r = sim -> (fr_ts r <= m)%Z.
Proof. exact negative_step. Qed.
Print Assumptions C51_default_step.
Theorem C51_all_steps : forall sim d out, (forall ts, In ts (all_steps sim d) <-> exists r, In r (t_fields d) /\ fr_sim r = sim /\ fr_ts r = ts)
  /\ NoDup (map (step_file out) (all_steps sim d)).
Proof. exact all_steps_spec. Qed.
Print Assumptions C51_all_steps.

Example C51_nonvacuous :
  let d := Build_db [1]%Z [[0; 0; 0]; [0; 1; 0]]%Z [{| fr_name := lit "c"; fr_pos := 1; fr_value := 5%R; fr_sim := 1; fr_ts := 0 |}] [] [] []
             [{| sr_key := lit "e"; sr_value := 1%R; sr_sim := 1; sr_ts := 2 |}] in
  export_series (fun _ => lit "v") (fun l => l) d 1 = Some [[lit "e"]; [lit "v"]; [lit "v"]; [lit "v"]]
  /\ export_fields (fun _ => lit "v") (fun l => l) 1 0 d = File [map lit ["X"; "Y"; "Z"; "c"]%string; map lit ["0"; "0"; "0"; "v"]%string; map lit ["0"; "1"; "0"; "v"]%string]
  /\ exists r, load 1 0 d = Some r.
Proof. split; [reflexivity|]. split; [reflexivity|]. eexists. reflexivity. Qed.

(** ** C52 *)

(** What the plots read of a file written by SaveCsv: one row for each node, in
    order, with the coordinates of the node (0 for a missing third) and the
    value of the chosen field rounded to six decimals. *)
Theorem C52_read_back : forall dom data file j n vs, valid_domain dom -> save_csv data (Some dom) = Written file ->
  (forall f, In f data -> Z.of_nat (length (snd f)) = num_nodes dom) ->
  nth_error data j = Some (n, vs) -> NoDup (map lit ["X"; "Y"; "Z"]%string ++ map fst data) -> n <> [] ->
  exists rows, read_data file n = Some rows /\ Z.of_nat (length rows) = num_nodes dom
  /\ forall i r v, nth_error rows i = Some r -> nth_error vs i = Some v -> exists p,
     IndexModel.pos dom (Z.of_nat i) = Some p /\ three p = [d_x r; d_y r; d_z r] /\ six_decimals v (d_value r).
Proof.
  intros dom data file j n vs Hd Hs Hl Hj Hn Hne. exists (map (saved_row dom vs) (seq 0 (Z.to_nat (num_nodes dom)))).
  pose proof (Hl _ (nth_error_In _ _ Hj)) as L. cbn [snd] in L.
  split; [exact (read_saved dom data file j n vs Hd Hs Hl Hj Hn Hne)|]. split; [rewrite map_length, seq_length; lia|].
  intros i r v Hr Hv. assert (Hi : i < Z.to_nat (num_nodes dom)) by (assert (i < length vs) by (apply nth_error_Some; rewrite Hv; discriminate); lia).
  assert (E : nth_error (map (saved_row dom vs) (seq 0 (Z.to_nat (num_nodes dom)))) i = Some (saved_row dom vs i)).
  { rewrite nth_error_map, (nth_error_nth' _ 0) by (rewrite seq_length; exact Hi). rewrite seq_nth by exact Hi. reflexivity. }
  rewrite E in Hr. injection Hr as <-. destruct (coord3 dom i Hd ltac:(lia)) as (p & Hp & H3 & L3).
  exists p. split; [exact Hp|]. unfold saved_row. rewrite Hp, H3. cbn [d_x d_y d_z d_value].
  split; [destruct (three p) as [|a [|b [|c [|]]]]; try discriminate; reflexivity|].
  rewrite (nth_error_nth _ _ _ Hv). unfold parse_or_zero. destruct (parse_fmt v) as (q & -> & S). exact S.
Qed.
Print Assumptions C52_read_back.

(** A line plot of that file shows exactly one point for each node on the line,
    at the coordinate of the node, and no other point. *)
Theorem C52_line_plot : forall dom data file j n vs x y z, valid_domain dom -> save_csv data (Some dom) = Written file ->
  (forall f, In f data -> Z.of_nat (length (snd f)) = num_nodes dom) ->
  nth_error data j = Some (n, vs) -> NoDup (map lit ["X"; "Y"; "Z"]%string ++ map fst data) -> n <> [] -> two_given x y z ->
  num_set x y z = 2%Z
  /\ exists rows, read_data file n = Some rows
  /\ NoDup (map fst (line_data rows x y z))
  /\ (forall a q, In (a, q) (line_data rows x y z) -> exists i p v, IndexModel.pos dom (Z.of_nat i) = Some p
       /\ on_line x y z p a /\ nth_error vs i = Some v /\ six_decimals v q)
  /\ (forall i p a v, IndexModel.pos dom (Z.of_nat i) = Some p -> on_line x y z p a -> nth_error vs i = Some v ->
       exists q, In (a, q) (line_data rows x y z) /\ six_decimals v q).
Proof.
  intros dom data file j n vs x y z Hd Hs Hl Hj Hn Hne H2. apply num_set_two in H2. split; [exact H2|].
  pose proof (Hl _ (nth_error_In _ _ Hj)) as L. cbn [snd] in L.
  eexists. split; [exact (read_saved dom data file j n vs Hd Hs Hl Hj Hn Hne)|].
  destruct (line_of_saved dom vs x y z Hd H2) as [ND I]. split; [exact ND|]. split.
  - intros a q H. apply I in H. destruct H as (i & px & py & pz & Hi & (p & Hp & H3) & C & ->).
    destruct (nth_error vs i) as [v|] eqn:Ev; [|apply nth_error_None in Ev; lia].
    exists i, p, v. split; [exact Hp|]. split; [exists px, py, pz; auto|]. split; [exact Ev|].
    rewrite (nth_error_nth _ _ _ Ev). unfold parse_or_zero. destruct (parse_fmt v) as (q & -> & S). exact S.
  - intros i p a v Hp (px & py & pz & H3 & C) Hv. exists (parse_or_zero (fmt_f v)). split.
    + apply I. exists i, px, py, pz. assert (i < length vs) by (apply nth_error_Some; rewrite Hv; discriminate).
      split; [lia|]. split; [exists p; auto|]. split; [exact C|]. rewrite (nth_error_nth _ _ _ Hv). reflexivity.
    + unfold parse_or_zero. destruct (parse_fmt v) as (q & -> & S). exact S.
Qed.
Print Assumptions C52_line_plot.

(** For any rows whatever: a point is shown exactly for a row whose given
    coordinates match. *)
Theorem C52_line_rows : forall rows x y z a v, two_given x y z -> In (a, v) (line_data rows x y z) <->
  exists r, In r rows /\ v = d_value r
  /\ ((x = -1 /\ a = d_x r /\ d_y r = y /\ d_z r = z) \/ (y = -1 /\ a = d_y r /\ d_x r = x /\ d_z r = z) \/ (z = -1 /\ a = d_z r /\ d_x r = x /\ d_y r = y))%Z.
Proof.
  intros rows x y z a v H2. rewrite line_data_In. unfold two_given in H2. unfold abscissa_index. split.
  - intros (r & I & C & -> & ->). exists r. split; [exact I|]. split; [reflexivity|].
    destruct (x =? -1)%Z eqn:Ex; [|destruct (y =? -1)%Z eqn:Ey]; rewrite ?Z.eqb_eq, ?Z.eqb_neq in *; cbn [nth]; lia.
  - intros (r & I & -> & C). exists r. split; [exact I|].
    destruct (x =? -1)%Z eqn:Ex; [|destruct (y =? -1)%Z eqn:Ey]; rewrite ?Z.eqb_eq, ?Z.eqb_neq in *; cbn [nth]; repeat split; lia.
Qed.
Print Assumptions C52_line_rows.

(** The command plots every field of the file, whatever the option -d says. *)
Theorem C52_fields_option_refuted : ~ (forall args header d n, In (lit "data", d) args -> In n (plotted_fields args header) -> In n (split_char comma_c d)).
Proof.
  intros H. specialize (H [(lit "data", lit "a")] (map lit ["X"; "Y"; "Z"; "a"; "b"]%string) (lit "a") (lit "b") (or_introl eq_refl)).
  destruct (H ltac:(right; left; reflexivity)) as [C|[]]. discriminate.
Qed.
Print Assumptions C52_fields_option_refuted.
Theorem C52_all_fields_plotted : forall args names n, In n names <-> In n (plotted_fields args (map lit ["X"; "Y"; "Z"]%string ++ names)).
Proof. intros. rewrite plotted_all. reflexivity. Qed.
Print Assumptions C52_all_fields_plotted.

(** The range of the colour scale is the smallest and the largest value. *)
Theorem C52_colour_range : forall rows lo hi, data_range rows = Some (lo, hi) ->
  (forall r, In r rows -> lo <= d_value r <= hi)%Q
  /\ (exists r, In r rows /\ d_value r = lo) /\ (exists r, In r rows /\ d_value r = hi).
Proof. exact data_range_spec. Qed.
Print Assumptions C52_colour_range.

(** A contour plot of rows in which x varies fastest shows at each pixel the
    value of the row with these coordinates.  Missing: files of SaveCsv are not
    in this order. *)
Theorem C52_contour_partial : forall nx ny rows, (0 < nx)%Z -> (0 < ny)%Z -> Z.of_nat (length rows) = (nx * ny)%Z ->
  (forall k r, nth_error rows k = Some r -> d_x r = Z.of_nat k mod nx /\ d_y r = Z.of_nat k / nx)%Z ->
  exists h, new_heat_map rows = Some h /\ hm_dims h = (nx, ny)
  /\ forall c r, (0 <= c < nx)%Z -> (0 <= r < ny)%Z -> exists row, In row rows /\ d_x row = c /\ d_y row = r /\ pixel_value h c r = Some (d_value row).
Proof. exact heat_map_x_fastest. Qed.
Print Assumptions C52_contour_partial.

(** The image of a file of SaveCsv has the right size, and the pixel (c, r)
    shows the node with number r*nx + c: on a square domain the image is
    transposed. *)
Theorem C52_contour_saved_partial : forall nx ny data file j n vs, (0 < nx)%Z -> (0 < ny)%Z -> save_csv data (Some [nx; ny]) = Written file ->
  (forall f, In f data -> Z.of_nat (length (snd f)) = (nx * ny)%Z) ->
  nth_error data j = Some (n, vs) -> NoDup (map lit ["X"; "Y"; "Z"]%string ++ map fst data) -> n <> [] ->
  exists rows h, read_data file n = Some rows /\ new_heat_map rows = Some h /\ hm_dims h = (nx, ny)
  /\ (forall c r v, (0 <= c < nx)%Z -> (0 <= r < ny)%Z -> nth_error vs (Z.to_nat (r * nx + c)) = Some v ->
       exists q, pixel_value h c r = Some q /\ six_decimals v q)
  /\ (nx = ny -> forall c r i v, IndexModel.pos [nx; ny] (Z.of_nat i) = Some [r; c] -> (0 <= c < nx)%Z -> (0 <= r < ny)%Z -> nth_error vs i = Some v ->
       exists q, pixel_value h c r = Some q /\ six_decimals v q).
Proof.
  intros nx ny data file j n vs Hx Hy Hs Hl Hj Hn Hne.
  assert (V : valid_domain [nx; ny]) by (split; [left; reflexivity|repeat constructor; assumption]).
  assert (NN : num_nodes [nx; ny] = (nx * ny)%Z) by (cbn; lia).
  pose proof (Hl _ (nth_error_In _ _ Hj)) as L. cbn [snd] in L.
  assert (R := read_saved [nx; ny] data file j n vs V Hs ltac:(intros f If; rewrite NN; exact (Hl f If)) Hj Hn Hne). rewrite NN in R.
  destruct (heat_map_saved nx ny vs Hx Hy L) as (h & H1 & H2 & H3). eexists. exists h. split; [exact R|]. split; [exact H1|]. split; [exact H2|].
  assert (P : forall c r v, (0 <= c < nx)%Z -> (0 <= r < ny)%Z -> nth_error vs (Z.to_nat (r * nx + c)) = Some v ->
       exists q, pixel_value h c r = Some q /\ six_decimals v q).
  { intros c r v Hc Hr Hv. exists (parse_or_zero (fmt_f v)). split; [exact (H3 c r v Hc Hr Hv)|].
    unfold parse_or_zero. destruct (parse_fmt v) as (q & -> & S). exact S. }
  split; [exact P|]. intros <- c r i v Hp Hc Hr Hv. apply (P c r v Hc Hr).
  assert (E : Z.of_nat i = (r * nx + c)%Z).
  { assert (B : (0 <= Z.of_nat i < num_nodes [nx; nx])%Z) by (assert (i < length vs) by (apply nth_error_Some; rewrite Hv; discriminate); lia).
    destruct (node_idx_pos [nx; nx] (Z.of_nat i) V B) as (p & Hp' & _ & Hi). rewrite Hp in Hp'. injection Hp' as <-.
    cbn in Hi. injection Hi as Hi. lia. }
  replace (Z.to_nat (r * nx + c)) with i by lia. exact Hv.
Qed.
Print Assumptions C52_contour_saved_partial.

Theorem C52_contour_saved_refuted : ~ (forall nx ny data file n vs rows h, save_csv data (Some [nx; ny]) = Written file -> data = [(n, vs)] ->
  read_data file n = Some rows -> new_heat_map rows = Some h ->
  forall i c r v q, IndexModel.pos [nx; ny] (Z.of_nat i) = Some [c; r] -> nth_error vs i = Some v -> pixel_value h c r = Some q -> six_decimals v q).
Proof.
  intros H. pose (vs := [0; 1; 2; 3]%Q). pose (data := [(lit "c", vs)]).
  destruct (save_csv data (Some [2; 2]%Z)) as [| |file] eqn:E; [vm_compute in E; discriminate..|].
  destruct (read_data file (lit "c")) as [rows|] eqn:R.
  2:{ vm_compute in E. injection E as <-. vm_compute in R. discriminate. }
  destruct (new_heat_map rows) as [h|] eqn:Hm.
  2:{ vm_compute in E. injection E as <-. vm_compute in R. injection R as <-. vm_compute in Hm. discriminate. }
  destruct (pixel_value h 0 1) as [q|] eqn:Ep.
  2:{ vm_compute in E. injection E as <-. vm_compute in R. injection R as <-. vm_compute in Hm. injection Hm as <-. vm_compute in Ep. discriminate. }
  destruct (H 2%Z 2%Z data file (lit "c") vs rows h E eq_refl R Hm 1 0%Z 1%Z 1%Q q eq_refl eq_refl Ep) as [_ C].
  vm_compute in E. injection E as <-. vm_compute in R. injection R as <-. vm_compute in Hm. injection Hm as <-. vm_compute in Ep. injection Ep as <-.
  vm_compute in C. apply C. reflexivity.
Qed.
Print Assumptions C52_contour_saved_refuted.

(** Files of Grid.SaveCsv: those of a three dimensional grid can be plotted,
    those of a two dimensional one never. *)
Theorem C52_grid_file : forall dims data file, valid_domain dims -> Z.of_nat (length data) = num_nodes dims ->
  grid_save_csv dims data = Some file ->
  (length dims = 2 -> forall column, read_data file column = None)
  /\ (length dims = 3 -> exists rows, read_data file [] = Some rows /\ length rows = length data
      /\ forall i r v, nth_error rows i = Some r -> nth_error data i = Some v ->
         IndexModel.pos dims (Z.of_nat i) = Some [d_x r; d_y r; d_z r] /\ six_decimals v (d_value r)).
Proof.
  intros dims data file Hd L H. destruct (grid_csv_plot dims data file Hd L H) as [A B]. split; [exact A|].
  intros E3. exists (map (saved_row dims data) (seq 0 (length data))). split; [exact (B E3)|]. split; [rewrite map_length, seq_length; reflexivity|].
  intros i r v Hr Hv. assert (Hi : i < length data) by (apply nth_error_Some; rewrite Hv; discriminate).
  rewrite nth_error_map, (nth_error_nth' _ 0), seq_nth in Hr by (rewrite ?seq_length; exact Hi). cbn [option_map plus] in Hr. injection Hr as <-.
  unfold saved_row. destruct (node_idx_pos dims (Z.of_nat i) Hd ltac:(lia)) as (p & Hp & Hb & _). rewrite Hp.
  apply Forall2_length in Hb. rewrite E3 in Hb. destruct p as [|a [|b [|c [|]]]]; cbn in Hb; try lia. cbn [csv_pos3 nth d_x d_y d_z d_value].
  split; [reflexivity|]. rewrite (nth_error_nth _ _ _ Hv). unfold parse_or_zero. destruct (parse_fmt v) as (q & -> & S). exact S.
Qed.
Print Assumptions C52_grid_file.

Example C52_nonvacuous :
  (exists file rows, save_csv [(lit "c", [0; 1; 2; 3]%Q)] (Some [2; 2]%Z) = Written file /\ read_data file (lit "c") = Some rows
   /\ map fst (line_data rows (-1) 1 0) = [1; 0]%Z)
  /\ two_given (-1) 1 0 /\ NoDup (map lit ["X"; "Y"; "Z"]%string ++ map fst [(lit "c", [0; 1; 2; 3]%Q)]).
Proof.
  split; [|split].
  - eexists. eexists. split; [vm_compute; reflexivity|]. split; [vm_compute; reflexivity|]. vm_compute. reflexivity.
  - unfold two_given. lia.
  - cbn. repeat (constructor; [cbn; intuition discriminate|]). constructor.
Qed.
