(** C121: the tables of the commands are aligned. *)
From Verif Require Import ListAux FileProofs CliSpec CliProofs CliProofs3 CliProps FrameModel.
From Coq Require Import Lia QArith. Import ListNotations.
Open Scope nat_scope.

(** A table of width [w]: every line has [w] characters; the first, the third and
    the last are drawn with "-". *)
Definition aligned (w : nat) (t : list str) : Prop :=
  Forall (fun l => length l = w) t
  /\ exists head rows, t = [repeat "-"%char w; head; repeat "-"%char w] ++ rows ++ [repeat "-"%char w].
(** The text in column [j] of a table of attributes. *)
Definition cell (j : nat) (line : str) : str := firstn 10 (skipn (15 + 13 * j) line).

Lemma single_line_repeat n : single_line n = repeat "-"%char n.
Proof. induction n as [|n IH]; [reflexivity|]. cbn [single_line]. rewrite IH. symmetry. exact (repeat_cons n "-"%char). Qed.
Lemma pad_right_length w s : length s <= w -> length (pad_right w s) = w.
Proof. intros H. unfold pad_right. rewrite app_length, repeat_length. lia. Qed.
Lemma pad_left_length w s : length s <= w -> length (pad_left w s) = w.
Proof. intros H. unfold pad_left. rewrite app_length, repeat_length. lia. Qed.

Lemma dec_fuel_length f : forall k n, (0 <= n < 10 ^ Z.of_nat (S k))%Z -> length (dec_fuel f n) <= S k.
Proof.
  induction f as [|f IH]; intros k n H; cbn [dec_fuel]; [cbn [length]; lia|]. destruct (n <? 10)%Z eqn:E; [cbn [length]; lia|]. apply Z.ltb_ge in E. rewrite app_length. cbn [length].
  destruct k as [|k]; [cbn in H; lia|]. assert (length (dec_fuel f (n / 10)) <= S k); [|lia]. apply IH. split; [apply Z.div_pos; lia|]. apply Z.div_lt_upper_bound; [lia|]. replace (10 * 10 ^ Z.of_nat (S k))%Z with (10 ^ Z.of_nat (S (S k)))%Z; [lia|].
  rewrite (Nat2Z.inj_succ (S k)), Z.pow_succ_r by lia. reflexivity.
Qed.
(** The identifiers that gopf draws have at most ten digits. *)
Lemma dec_length k n : (0 <= n < 10 ^ Z.of_nat (S k))%Z -> length (dec n) <= S k.
Proof. intros H. unfold dec. destruct (n <? 0)%Z eqn:E; [apply Z.ltb_lt in E; lia|]. apply dec_fuel_length. exact H. Qed.
Lemma id_length n : (0 <= n < 2 ^ 31)%Z -> length (dec n) <= 10.
Proof. intros H. apply (dec_length 9). split; [lia|]. apply Z.lt_trans with (2 ^ 31)%Z; [lia|reflexivity]. Qed.

(** ** Comments *)
Lemma closest_le line : forall i e, closest_white_space line i = Some e -> e <= i.
Proof.
  induction i as [|i IH]; intros e; cbn [closest_white_space]; destruct (nth_error line _); try discriminate; destruct (Ascii.eqb _ _); intros E; try (injection E as <-; lia). specialize (IH e E). lia.
Qed.
Lemma slice_length {A} (s : list A) a b x : slice s a b = Some x -> length x <= b - a.
Proof. unfold slice. destruct (_ && _); [|discriminate]. intros E. injection E as <-. rewrite firstn_length. lia. Qed.
Lemma comment_lines_length n : forall c start ls, comment_lines n c start = Some ls -> Forall (fun l => length l <= 96) ls.
Proof.
  induction n as [|n IH]; intros c start ls; cbn [comment_lines]; [intros E; injection E as <-; constructor|]. destruct (length c <? start + comment_width) eqn:L.
  - destruct (slice c start (length c)) as [x|] eqn:S; [|discriminate]. destruct (comment_lines n c start) as [r|] eqn:R; [|discriminate]. intros E. injection E as <-. apply Nat.ltb_lt in L. apply slice_length in S. unfold comment_width in L. constructor; [lia|exact (IH _ _ _ R)].
  - destruct (closest_white_space c (start + comment_width)) as [e|] eqn:W; [|discriminate]. destruct (slice c start e) as [x|] eqn:S; [|discriminate]. destruct (comment_lines n c (e + 1)) as [r|] eqn:R; [|discriminate]. intros E. injection E as <-.
    apply closest_le in W. apply slice_length in S. unfold comment_width in W. constructor; [lia|exact (IH _ _ _ R)].
Qed.
Lemma comment_line_length id l : length id <= 10 -> length l <= 96 -> length (comment_line id l) = 113.
Proof. intros A B. unfold comment_line. rewrite !app_length, !pad_right_length by assumption. reflexivity. Qed.
Lemma print_comments_length rows : forall ls, Forall (fun r => length (dec (cr_sim r)) <= 10) rows -> print_comments rows = Some ls -> Forall (fun l => length l = 113) ls.
Proof.
  induction rows as [|r rows IH]; intros ls H E; cbn [print_comments] in E; [injection E as <-; constructor|]. inversion H as [|? ? Hr Hrs]; subst.
  destruct (print_comment (cr_sim r) (cr_value r)) as [a|] eqn:A; [|discriminate]. destruct (print_comments rows) as [b|]; [|discriminate]. injection E as <-. apply Forall_app. split; [|exact (IH b Hrs eq_refl)].
  unfold print_comment in A. destruct (wrap_comment (cr_value r)) as [[|l ls]|] eqn:W; try discriminate; injection A as <-; [constructor|]. apply comment_lines_length in W. inversion W as [|? ? Hl Hls]; subst. constructor; [apply comment_line_length; assumption|].
  apply Forall_forall. intros y Hy. apply in_map_iff in Hy. destruct Hy as (z & <- & Hz). rewrite Forall_forall in Hls. apply comment_line_length; [cbn; lia|exact (Hls z Hz)].
Qed.
(** The table of comments is aligned for all comments, if it is printed at all. *)
Theorem C121_comments : forall d t, Forall (fun r => 0 <= cr_sim r < 2 ^ 31)%Z (t_comments d) -> comment_table d = Some t -> aligned 113 t.
Proof.
  intros d t H E. unfold comment_table in E. destruct (print_all_comments d) as [ls|] eqn:P; [|discriminate]. set (header := lit "| " ++ pad_right sim_id_width (lit "Sim ID.") ++ lit " | " ++ pad_right comment_width (lit "Comment") ++ lit " |") in *.
  assert (HL : length header = 113) by (vm_compute; reflexivity). rewrite HL, single_line_repeat in E. assert (t = [repeat "-"%char 113; header; repeat "-"%char 113] ++ ls ++ [repeat "-"%char 113]) by (symmetry; exact (f_equal (fun o => match o with Some x => x | None => t end) E)). subst t. clear E. split; [|exists header, ls; reflexivity].
  assert (RL : length (repeat "-"%char 113) = 113) by apply repeat_length. repeat (apply Forall_cons; [assumption|]). apply Forall_app. split; [|repeat (apply Forall_cons; [assumption|]); constructor].
  apply (print_comments_length (t_comments d)); [|exact P]. apply Forall_forall. intros r Hr. rewrite Forall_forall in H. apply id_length. exact (H r Hr).
Qed.
Print Assumptions C121_comments.

(** ** Attributes *)
Lemma cells_length {A} (f : A -> str) l : Forall (fun x => length (f x) = 10) l -> length (concat (map (fun k => lit " " ++ f k ++ lit " |") l)) = 13 * length l.
Proof. induction 1 as [|x l Hx _ IH]; [reflexivity|]. cbn [map concat length]. rewrite !app_length, IH, Hx. change (length (lit " ")) with 1. change (length (lit " |")) with 2. lia. Qed.
Lemma cell_at {A} (f : A -> str) l : Forall (fun x => length (f x) = 10) l -> forall j x, nth_error l j = Some x -> firstn 10 (skipn (1 + 13 * j) (concat (map (fun k => lit " " ++ f k ++ lit " |") l))) = f x.
Proof.
  induction 1 as [|y l Hy _ IH]; intros j x E; [destruct j; discriminate|]. cbn [map concat]. destruct j as [|j].
  - injection E as ->. change (1 + 13 * 0) with 1. set (rest := concat _). change (skipn 1 ((lit " " ++ f x ++ lit " |") ++ rest)) with ((f x ++ lit " |") ++ rest). rewrite <- app_assoc. rewrite firstn_app, Hy, Nat.sub_diag. rewrite <- Hy at 1. rewrite firstn_all. apply app_nil_r.
  - rewrite <- (IH j x E). f_equal. replace (1 + 13 * S j) with (13 + (1 + 13 * j)) by lia.
    assert (L : length (lit " " ++ f y ++ lit " |") = 13) by (rewrite !app_length, Hy; reflexivity).
    rewrite skipn_app, L. rewrite skipn_all2 by lia. replace (13 + (1 + 13 * j) - 13) with (1 + 13 * j) by lia. reflexivity.
Qed.
Lemma cell_after id l : length id = 14 -> forall j, cell j (id ++ l) = firstn 10 (skipn (1 + 13 * j) l).
Proof. intros H j. unfold cell. rewrite skipn_app, H. rewrite skipn_all2 by lia. replace (15 + 13 * j - 14) with (1 + 13 * j) by lia. reflexivity. Qed.
(** Texts that fit into a column. *)
Definition fits (s : str) : Prop := length s <= 10.
Lemma attr_head_length cols : Forall fits cols -> length (attr_head cols) = 14 + 13 * length cols.
Proof.
  intros H. unfold attr_head. rewrite !app_length, pad_right_length by (vm_compute; lia). rewrite (cells_length (pad_right col_width)); [change (length (lit "| ")) with 2; change (length (lit " |")) with 2; unfold sim_id_width; lia|]. apply Forall_forall. intros k Hk. rewrite Forall_forall in H. apply pad_right_length. exact (H k Hk).
Qed.
Lemma attr_line_length s vs : (0 <= s < 2 ^ 31)%Z -> Forall fits vs -> length (attr_line (s, vs)) = 14 + 13 * length vs.
Proof.
  intros Hs H. unfold attr_line. cbn [fst snd]. rewrite !app_length, pad_right_length by (apply id_length; exact Hs). rewrite (cells_length (pad_left col_width)); [change (length (lit "| ")) with 2; change (length (lit " |")) with 2; unfold sim_id_width; lia|]. apply Forall_forall. intros k Hk. rewrite Forall_forall in H. apply pad_left_length. exact (H k Hk).
Qed.
(** If names and values have at most ten characters, every table is aligned and
    column [j] shows the name [j] and below it the values with that name. *)
Theorem C121_attributes : forall keys (entries : attrmap), Forall fits keys -> Forall (fun e => 0 <= fst e < 2 ^ 31)%Z entries -> Forall (fun e => Forall (fun kv => fits (snd kv)) (snd e)) entries ->
  Forall (fun t => aligned (14 + 13 * length (fst t)) (attr_table t)
    /\ exists head, nth_error (attr_table t) 1 = Some head
    /\ (forall j k, nth_error (fst t) j = Some k -> cell j head = pad_right 10 k)
    /\ forall i s vs, nth_error (snd t) i = Some (s, vs) -> exists line, nth_error (attr_table t) (3 + i) = Some line
       /\ firstn 12 line = lit "| " ++ pad_right 10 (dec s)
       /\ forall j v, nth_error vs j = Some v -> cell j line = pad_left 10 v) (list_attributes keys entries).
Proof.
  intros keys entries HK HI HV. apply Forall_forall. intros t Ht. unfold list_attributes in Ht. apply in_map_iff in Ht. destruct Ht as (n & <- & _). cbv zeta. set (cols := table_columns keys n).
  assert (FC : Forall fits cols). { apply Forall_forall. intros k Hk. rewrite Forall_forall in HK. apply HK. unfold cols, table_columns in Hk. rewrite <- (firstn_skipn (n * max_cols) keys). apply in_or_app. right. destruct (_ <? _); [exact Hk|]. rewrite <- (firstn_skipn max_cols (skipn (n * max_cols) keys)). apply in_or_app. left. exact Hk. }
  assert (FR : Forall (fun e => (0 <= fst e < 2 ^ 31)%Z /\ Forall fits (snd e) /\ length (snd e) = length cols) (map (table_row cols) entries)).
  { apply Forall_forall. intros e He. apply in_map_iff in He. destruct He as (x & <- & Hx). unfold table_row. cbn [fst snd]. rewrite Forall_forall in HI, HV. split; [exact (HI x Hx)|]. split; [|apply map_length]. apply Forall_forall. intros v Hv. apply in_map_iff in Hv. destruct Hv as (k & <- & _).
    specialize (HV x Hx). clear - HV. induction HV as [|[k' v'] l H _ IH]; cbn [aget]; [unfold fits; cbn; lia|]. destruct (str_eqb k k'); [exact H|exact IH]. }
  assert (T : attr_table (cols, map (table_row cols) entries) = [repeat "-"%char (14 + 13 * length cols); attr_head cols; repeat "-"%char (14 + 13 * length cols)] ++ map attr_line (map (table_row cols) entries) ++ [repeat "-"%char (14 + 13 * length cols)]).
  { unfold attr_table. cbn [fst snd]. rewrite attr_head_length by exact FC. rewrite single_line_repeat. reflexivity. }
  cbn [fst snd]. rewrite T. set (w := 14 + 13 * length cols). assert (RL : length (repeat "-"%char w) = w) by apply repeat_length.
  split. { split; [|eexists; eexists; reflexivity]. repeat (apply Forall_cons; [first [exact RL|exact (attr_head_length cols FC)]|]). apply Forall_app. split; [|repeat constructor; exact RL].
    apply Forall_forall. intros l Hl. apply in_map_iff in Hl. destruct Hl as ([s vs] & <- & He). rewrite Forall_forall in FR. destruct (FR _ He) as (E1 & E2 & E3). cbn [fst snd] in *. rewrite attr_line_length by assumption. rewrite E3. reflexivity. }
  exists (attr_head cols). split; [reflexivity|]. split.
  - intros j k Hj. unfold attr_head. rewrite !app_assoc. rewrite cell_after by (rewrite !app_length, pad_right_length by (vm_compute; lia); reflexivity). apply (cell_at (pad_right col_width)); [|exact Hj]. apply Forall_forall. intros x Hx. rewrite Forall_forall in FC. apply pad_right_length. exact (FC x Hx).
  - intros i s vs Hi. exists (attr_line (s, vs)). rewrite Forall_forall in FR. destruct (FR _ (nth_error_In _ _ Hi)) as (E1 & E2 & E3). cbn [fst snd] in *. apply id_length in E1.
    split. { change (nth_error (map attr_line (map (table_row cols) entries) ++ [repeat "-"%char w]) i = Some (attr_line (s, vs))). rewrite nth_error_app1; [apply map_nth_error; exact Hi|]. rewrite map_length. apply nth_error_Some. rewrite Hi. discriminate. }
    unfold attr_line. cbn [fst snd]. split.
    + rewrite app_assoc. assert (L : length (lit "| " ++ pad_right sim_id_width (dec s)) = 12) by (rewrite app_length, pad_right_length by exact E1; reflexivity). rewrite firstn_app, L, Nat.sub_diag. rewrite <- L at 1. rewrite firstn_all. apply app_nil_r.
    + intros j v Hj. rewrite !app_assoc. rewrite cell_after by (rewrite !app_length, pad_right_length by exact E1; reflexivity). apply (cell_at (pad_left col_width)); [|exact Hj]. apply Forall_forall. intros x Hx. rewrite Forall_forall in E2. apply pad_left_length. exact (E2 x Hx).
Qed.
Print Assumptions C121_attributes.
(** Every number from 1000 on, written with six decimals, is too wide: its line is
    longer than the frame. *)
Theorem C121_wide_number_refuted : ~ (forall sim key v, (0 <= sim < 2 ^ 31)%Z -> fits key -> exists w, aligned w (attr_table ([key], [(sim, [fmt_f v])]))).
Proof.
  intros H. destruct (H 1%Z (lit "steps") 1000%Q ltac:(lia) ltac:(unfold fits; cbn; lia)) as (w & F & _). rewrite Forall_forall in F.
  assert (A : length (single_line (length (attr_head [lit "steps"]))) = w) by (apply F; left; reflexivity).
  assert (B : length (attr_line (1%Z, [fmt_f 1000])) = w) by (apply F; right; right; right; left; reflexivity).
  rewrite <- A in B. vm_compute in B. discriminate B.
Qed.
Print Assumptions C121_wide_number_refuted.

(** ** info *)
Lemma info_line_length desc text : length desc <= 16 -> length text <= 60 -> length (info_line desc text) = 83.
Proof. intros A B. unfold info_line. rewrite !app_length, pad_right_length, pad_left_length by assumption. reflexivity. Qed.
Lemma info_piece_length line i : length (info_piece line i) <= 60.
Proof. unfold info_piece. destruct (length line <? (i + 1) * value_width) eqn:E; [apply Nat.ltb_lt in E; rewrite skipn_length; unfold value_width in *; lia|]. rewrite firstn_length. unfold value_width. lia. Qed.
Lemma print_list_length name array : length name <= 16 -> Forall (fun l => length l = 83) (print_list name array).
Proof. intros H. apply Forall_forall. intros l Hl. unfold print_list in Hl. apply in_map_iff in Hl. destruct Hl as (i & <- & _). apply info_line_length; [destruct i; [exact H|cbn; lia]|apply info_piece_length]. Qed.
(** The summary of info is aligned for all names, for domains with extents below
    10^16 and fewer than 10^60 simulations. *)
Theorem C121_info : forall d fields attrs series, Forall (fun z => 0 <= z < 10 ^ 16)%Z (info_dims d) -> (Z.of_nat (info_count d) < 10 ^ 60)%Z -> aligned 83 (info_table d fields attrs series).
Proof.
  intros d fields attrs series HD HC. unfold info_table. rewrite single_line_repeat. change (desc_width + value_width + 7) with 83.
  assert (RL : length (repeat "-"%char 83) = 83) by apply repeat_length.
  split; [|exists (lit "| " ++ pad_right desc_width (lit "Desc.") ++ lit " | " ++ pad_right value_width (lit "Value") ++ lit " |"),
    (info_line (lit "Num calc.") (dec (Z.of_nat (info_count d))) :: info_line (lit "Dims") (dim_string (info_dims d)) :: print_list (lit "Fields") fields ++ print_list (lit "Attributes") attrs ++ print_list (lit "Timeseries") series);
    cbn [app]; rewrite <- !app_assoc; reflexivity].
  repeat (apply Forall_cons; [first [exact RL|vm_compute; reflexivity|idtac]|]).
  - apply info_line_length; [vm_compute; lia|]. apply (dec_length 59). split; [lia|exact HC].
  - apply info_line_length; [vm_compute; lia|]. unfold dim_string, info_dims in *. inversion HD as [|? ? A HD1]. inversion HD1 as [|? ? B HD2]. inversion HD2 as [|? ? C _]. subst. apply (dec_length 15) in A. apply (dec_length 15) in B. apply (dec_length 15) in C. cbn [map join_list]. rewrite !app_length. change (length (lit "(")) with 1. change (length (lit ")")) with 1. change (length comma_blank) with 2. lia.
  - repeat (apply Forall_app; split); try (apply print_list_length; vm_compute; lia). constructor; [exact RL|constructor].
Qed.
Print Assumptions C121_info.

(** ** list *)
(** The list of simulations is aligned; SQLite's times have 19 characters. *)
Theorem C121_list : forall answer max, Forall (fun e => (0 <= fst e < 2 ^ 31)%Z /\ length (snd e) = 19) answer -> aligned 59 (list_table answer max).
Proof.
  intros answer max H. unfold list_table, show_ids. cbn [snd]. split; [|eexists; eexists; reflexivity].
  repeat (apply Forall_cons; [reflexivity|]). apply Forall_app. split; [|apply Forall_cons; [reflexivity|constructor]].
  apply Forall_forall. intros l Hl. apply in_map_iff in Hl. destruct Hl as ([s t] & <- & He).
  assert (I : In (s, t) answer). { unfold limit in He. destruct (max <? 0)%Z; [exact He|]. rewrite <- (firstn_skipn (Z.to_nat max) answer). apply in_or_app. left. exact He. }
  rewrite Forall_forall in H. destruct (H _ I) as (A & B). cbn [fst snd] in *. apply id_length in A. unfold id_line. cbn [fst snd]. rewrite !app_length, !pad_right_length by lia. reflexivity.
Qed.
Print Assumptions C121_list.

Example C121_nonvacuous :
  (exists t, comment_table (Build_db [7]%Z [] [] [] [] [{| cr_value := lit "first run"; cr_sim := 7 |}] []) = Some t)
  /\ attr_tables [lit "dx"; lit "alloy"] [(7%Z, [(lit "dx", lit "0.500000"); (lit "alloy", lit "AlMg")])] = map lit
    ["----------------------------------------"; "| Sim. ID    | dx         | alloy      |"; "----------------------------------------";
     "| 7          |   0.500000 |       AlMg |"; "----------------------------------------"]%string
  /\ info_dims (Build_db [] [] [] [] [] [] []) = [1; 1; 1]%Z.
Proof. split; [eexists; vm_compute; reflexivity|]. split; [vm_compute; reflexivity|reflexivity]. Qed.
