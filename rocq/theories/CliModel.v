(** Model of the commands that show, export and plot stored data (cmd). *)
From Verif Require Export DbModel FileModel.
Open Scope nat_scope.

(** ** Text

    The verbs %-*s and %*s of fmt: padding with blanks, no truncation.  fmt
    counts characters and Go slices count bytes: the same for ASCII. *)
(** fmt, padding in cmd/attr.go:171-187, cmd/comment.go:90,117, cmd/info.go:148-176. *)
Definition blank : ascii := " "%char.
(** fmt "%-s" in cmd/attr.go:171,173, cmd/comment.go:90,117, cmd/info.go:148-176. *)
Definition pad_right (w : nat) (s : str) : str := s ++ repeat blank (w - length s).
(** fmt "%s" in cmd/attr.go:187, cmd/info.go:151,176. *)
Definition pad_left (w : nat) (s : str) : str := repeat blank (w - length s) ++ s.

(** cmd/util.go:21-27, singleLine. *)
Fixpoint single_line (n : nat) : str := match n with O => [] | S n' => single_line n' ++ ["-"%char] end.

(** cmd/util.go:46-53, closestWhiteSpace; None: index out of range. *)
Fixpoint closest_white_space (line : str) (i : nat) : option nat :=
  match nth_error line i with
  | None => None
  | Some c => if Ascii.eqb c blank then Some i
              else match i with O => Some 0 | S i' => closest_white_space line i' end
  end.

(** Slicing of cmd/comment.go:111,114.  The slice s[a:b]; None: slice bounds out of range. *)
Definition slice {A} (s : list A) (a b : nat) : option (list A) :=
  if (a <=? b) && (b <=? length s) then Some (firstn (b - a) (skipn a s)) else None.

(** cmd/util.go:9-19. *)
Definition sim_id_width : nat := 10.
Definition col_width : nat := 10.
Definition max_cols : nat := 10.
Definition comment_width : nat := 96.

(** cmd/comment.go:98-119: the texts of the lines of one comment; [n] lines
    remain.  None: panic. *)
Fixpoint comment_lines (n : nat) (comment : str) (start : nat) : option (list str) :=
  match n with
  | O => Some []
  | S n' =>
      if length comment <? start + comment_width
      then match slice comment start (length comment), comment_lines n' comment start with
           | Some x, Some r => Some (x :: r)
           | _, _ => None
           end
      else match closest_white_space comment (start + comment_width) with
           | None => None
           | Some e => match slice comment start e, comment_lines n' comment (e + 1) with
                       | Some x, Some r => Some (x :: r)
                       | _, _ => None
                       end
           end
  end.
Definition wrap_comment (comment : str) : option (list str) :=
  comment_lines (length comment / comment_width + 1) comment 0.
(** cmd/comment.go:104-118: the printed lines; the identifier stands in the
    first one. *)
Definition comment_line (idtext line : str) : str :=
  lit "| " ++ pad_right sim_id_width idtext ++ lit " | " ++ pad_right comment_width line ++ lit " |".
Definition print_comment (sim : Z) (comment : str) : option (list str) :=
  match wrap_comment comment with
  | None => None
  | Some [] => Some []
  | Some (l :: ls) => Some (comment_line (dec sim) l :: map (comment_line (lit " ")) ls)
  end.
(** cmd/comment.go:83-121, printAllComments without the frame. *)
Fixpoint print_comments (rows : list crow) : option (list str) :=
  match rows with
  | [] => Some []
  | r :: rows' => match print_comment (cr_sim r) (cr_value r), print_comments rows' with
                  | Some a, Some b => Some (a ++ b)
                  | _, _ => None
                  end
  end.
Definition print_all_comments (d : db) : option (list str) := print_comments (t_comments d).

(** cmd/comment.go:69-78: the comment of one simulation; the last row wins,
    nothing stored gives the empty text.  [cur] is the variable before. *)
Fixpoint scan_comment (rows : list crow) (sim : Z) (cur : str) : str :=
  match rows with
  | [] => cur
  | r :: rows' => scan_comment rows' sim (if (cr_sim r =? sim)%Z then cr_value r else cur)
  end.
Definition comment_of (d : db) (sim : Z) : str := scan_comment (t_comments d) sim [].
(** cmd/comment.go:60-67: --new; UPDATE changes the rows that exist. *)
Definition update_comment (d : db) (sim : Z) (text : str) : db :=
  let 'Build_db ids ps fs at_ tx cs ss := d in
  Build_db ids ps fs at_ tx
    (map (fun r => if (cr_sim r =? sim)%Z then {| cr_value := text; cr_sim := cr_sim r |} else r) cs) ss.

(** ** Lists of simulations.
    The rows of simIDs with their creation time (text, compared bytewise) as
    the query returns them before LIMIT; a negative LIMIT is none. *)
(** SQL "LIMIT" of cmd/list.go:80-81. *)
Definition limit {A} (max : Z) (l : list A) : list A := if (max <? 0)%Z then l else firstn (Z.to_nat max) l.

(** cmd/list.go:66-94, showSimulationIds: the notice and the rows. *)
Definition notice (max : Z) (n : nat) : option str :=
  if (max <? Z.of_nat n)%Z
  then Some (lit "Showing " ++ dec max ++ lit " of " ++ dec (Z.of_nat n) ++ lit " rows") else None.
Definition id_line (e : Z * str) : str :=
  lit "| " ++ pad_right 23 (dec (fst e)) ++ lit " | " ++ pad_right 29 (snd e) ++ lit " |".
Definition show_ids (answer : list (Z * str)) (max : Z) : option str * list str :=
  (notice max (length answer), map id_line (limit max answer)).

(** cmd/list.go:122-139, showComments: [comment] is declared outside the loop. *)
Fixpoint show_comments_loop (d : db) (ids : list Z) (cur : str) : list (Z * str) :=
  match ids with
  | [] => []
  | v :: ids' => let c := scan_comment (t_comments d) v cur in (v, c) :: show_comments_loop d ids' c
  end.
Definition show_comments (d : db) (answer : list (Z * str)) (max : Z) : list (Z * str) :=
  show_comments_loop d (map fst (limit max answer)) [].

(** cmd/util.go:30-42, newestSimulationID. *)
Definition newest_simulation (answer : list (Z * str)) : Z :=
  match limit 1 answer with (id, _) :: _ => id | [] => 0%Z end.

(** ** Attributes.  A Go map is its list of entries; [aput] sets an entry. *)
(** Look-up in the maps of cmd/attr.go:119-157. *)
Fixpoint aget {K V} (eqb : K -> K -> bool) (k : K) (l : list (K * V)) : option V :=
  match l with [] => None | (k', v) :: l' => if eqb k k' then Some v else aget eqb k l' end.
(** Assignment to the maps of cmd/attr.go:119-157. *)
Fixpoint aput {K V} (eqb : K -> K -> bool) (k : K) (v : V) (l : list (K * V)) : list (K * V) :=
  match l with
  | [] => [(k, v)]
  | (k', v') :: l' => if eqb k k' then (k, v) :: l' else (k', v') :: aput eqb k v l'
  end.
(** cmd/attr.go:119, map[int]map[string]string. *)
Definition attrmap := list (Z * list (str * str)).
(** cmd/attr.go:129-137, 153-160: kvp[simID][key] = text. *)
Definition put_attr (m : attrmap) (sim : Z) (key text : str) : attrmap :=
  aput Z.eqb sim (aput str_eqb key text (match aget Z.eqb sim m with Some a => a | None => [] end)) m.
Fixpoint put_rows (rows : list (Z * str * str)) (m : attrmap) : attrmap :=
  match rows with [] => m | (s, k, v) :: rows' => put_rows rows' (put_attr m s k v) end.
Fixpoint header_of (rows : list (Z * str * str)) (h : list (str * bool)) : list (str * bool) :=
  match rows with [] => h | (_, k, _) :: rows' => header_of rows' (aput str_eqb k true h) end.

Section Attr.
  (** The verb %f of a stored value. *)
  Variable fmtf : R -> str.

  (** cmd/attr.go:107-111, 143-147: the rows selected for the identifier. *)
  Definition number_rows (d : db) (sim : Z) : list (Z * str * str) :=
    map (fun r => (ar_sim r, ar_key r, fmtf (ar_value r)))
        (filter (fun r => if (0 <? sim)%Z then (ar_sim r =? sim)%Z else true) (t_attr d)).
  Definition text_rows (d : db) (sim : Z) : list (Z * str * str) :=
    map (fun r => (tr_sim r, tr_key r, tr_value r))
        (filter (fun r => if (sim <? 0)%Z then true else (tr_sim r =? sim)%Z) (t_text d)).
  Definition attr_map (d : db) (sim : Z) : attrmap := put_rows (text_rows d sim) (put_rows (number_rows d sim) []).
  Definition attr_header (d : db) (sim : Z) : list str :=
    map fst (header_of (text_rows d sim) (header_of (number_rows d sim) [])).

  (** cmd/attr.go:163-170: the columns of table number [i]. *)
  Definition table_columns (keys : list str) (i : nat) : list str :=
    if length keys <? (i + 1) * max_cols then skipn (i * max_cols) keys
    else firstn max_cols (skipn (i * max_cols) keys).
  (** cmd/attr.go:181-191: one row of a table. *)
  Definition table_row (cols : list str) (e : Z * list (str * str)) : Z * list str :=
    (fst e, map (fun k => match aget str_eqb k (snd e) with Some v => v | None => [] end) cols).
  (** cmd/attr.go:104-193, listAttributes: the tables, each with the names in
      the header and the rows.  [keys] and [entries] are the header set and the
      map in the order of the iterations. *)
  Definition list_attributes (keys : list str) (entries : attrmap) : list (list str * list (Z * list str)) :=
    map (fun i => let cols := table_columns keys i in (cols, map (table_row cols) entries))
        (seq 0 (length keys / max_cols + 1)).

  (** cmd/attr.go:195-227, listSingleAttribute: the simulation and the value of
      every line.  The text rows are scanned into the variable for numbers, so
      the printed text variable stays empty; a text that is no number stops the
      scan before the identifier. *)
  Variable is_number : str -> bool.
  Fixpoint single_numbers (rows : list arow) (sim : Z) (name : str) : list (Z * str) :=
    match rows with
    | [] => []
    | r :: rows' =>
        let rest := single_numbers rows' sim name in
        if str_eqb (ar_key r) name && (if (0 <? sim)%Z then (ar_sim r =? sim)%Z else true)
        then (ar_sim r, fmtf (ar_value r)) :: rest else rest
    end.
  Fixpoint single_texts (rows : list trow) (sim : Z) (name : str) (cur : Z) : list (Z * str) :=
    match rows with
    | [] => []
    | r :: rows' =>
        if str_eqb (tr_key r) name && (if (0 <? sim)%Z then (tr_sim r =? sim)%Z else true)
        then let id := if is_number (tr_value r) then tr_sim r else cur in
             (id, []) :: single_texts rows' sim name id
        else single_texts rows' sim name cur
    end.
  Definition list_single (d : db) (sim : Z) (name : str) : list (Z * str) :=
    let numbers := single_numbers (t_attr d) sim name in
    numbers ++ single_texts (t_text d) sim name (match rev numbers with (id, _) :: _ => id | [] => 0%Z end).
End Attr.

(** ** info (cmd/info.go:43-152) *)
Definition value_width : nat := 60.
Definition desc_width : nat := 16.
Definition comma_blank : str := lit ", ".
(** strings.Join(array, ", ") of cmd/info.go:164. *)
Fixpoint join_list (l : list str) : str :=
  match l with [] => [] | [x] => x | x :: l' => x ++ comma_blank ++ join_list l' end.
(** cmd/info.go:163-179, printList: the text of line [i]. *)
Definition info_piece (line : str) (i : nat) : str :=
  if length line <? (i + 1) * value_width then skipn (i * value_width) line
  else firstn value_width (skipn (i * value_width) line).
Definition info_line (desc text : str) : str :=
  lit "| " ++ pad_right desc_width desc ++ lit " | " ++ pad_left value_width text ++ lit " |".
Definition print_list (name : str) (array : list str) : list str :=
  let line := join_list array in
  map (fun i => info_line (match i with O => name | S _ => [] end) (info_piece line i))
      (seq 0 (length line / value_width + 1)).
(** cmd/info.go:49-103: number of simulations and the extents. *)
Definition info_count (d : db) : nat := length (t_ids d).
Definition info_dims (d : db) : list Z := [column_max 0 d + 1; column_max 1 d + 1; column_max 2 d + 1]%Z.

(** ** export (cmd/export.go) *)
Section Export.
  Variable fmtf : R -> str.
  (** The order in which SELECT DISTINCT without ORDER BY lists the values. *)
  Variable order : list str -> list str.

  (** The rows of one simulation; auxiliary, SQL "WHERE simId=?" of cmd/export.go:125-154. *)
  Definition series_of (d : db) (sim : Z) : list srow := filter (fun r => (sr_sim r =? sim)%Z) (t_series d).
  (** cmd/export.go:160-163, 178: dataArray[i][key] after all rows; a key that
      is not in the map reads as zero. *)
  Fixpoint series_cell (rows : list srow) (key : str) (i : Z) (cur : R) : R :=
    match rows with
    | [] => cur
    | r :: rows' => series_cell rows' key i (if str_eqb (sr_key r) key && (sr_ts r =? i)%Z then sr_value r else cur)
    end.
  (** cmd/export.go:123-185, exportTimeseries: the records of the file.  None:
      panic (negative time steps). *)
  Definition export_series (d : db) (sim : Z) : option records :=
    let rows := series_of d sim in
    let keys := order (distinct (map sr_key rows)) in
    if existsb (fun r => (sr_ts r <? 0)%Z) rows then None
    else Some (keys :: map (fun i => map (fun k => fmtf (series_cell rows k (Z.of_nat i) 0%R)) keys)
                           (seq 0 (Z.to_nat (DbModel.list_max (map sr_ts rows) + 1)))).

  (** cmd/export.go:232-238, 261: data[i][name]. *)
  Fixpoint field_cell (rows : list frow) (name : str) (i : nat) (cur : R) : R :=
    match rows with
    | [] => cur
    | r :: rows' => field_cell rows' name i (if str_eqb (fr_name r) name && (fr_pos r =? i) then fr_value r else cur)
    end.
  Inductive exported := NoEntries | ExportPanics | File (r : records).
  (** cmd/export.go:187-266, exportFieldData.  Three coordinates per position. *)
  Definition export_step (sim ts : Z) (d : db) : Z := if (ts <? 0)%Z then last_step sim d else ts.
  Definition export_fields (sim ts : Z) (d : db) : exported :=
    let rows := rows_at sim (export_step sim ts d) d in
    match rows with
    | [] => NoEntries
    | _ =>
        let keys := order (distinct (map fr_name rows)) in
        if existsb (fun r => length (t_pos d) <=? fr_pos r) rows then ExportPanics
        else File ((map lit ["X"; "Y"; "Z"]%string ++ keys)
                   :: map (fun i => map dec (nth i (t_pos d) []) ++ map (fun k => fmtf (field_cell rows k i 0%R)) keys)
                          (seq 0 (length (t_pos d))))
    end.
End Export.
(** cmd/export.go:282-296, allTimeSteps, and the names of the files of --all
    (cmd/export.go:92-97). *)
Fixpoint zdistinct (l : list Z) : list Z :=
  match l with [] => [] | x :: l' => if existsb (Z.eqb x) l' then zdistinct l' else x :: zdistinct l' end.
Definition all_steps (sim : Z) (d : db) : list Z :=
  zdistinct (map fr_ts (filter (fun r => (fr_sim r =? sim)%Z) (t_fields d))).
Definition step_file (outfile : str) (step : Z) : str := outfile ++ dec step ++ lit ".csv".
(** cmd/export.go:116-121, appendFileExtension (not called); None: panic. *)
Definition append_file_extension (fname : str) : option str :=
  if length fname <? 4 then None
  else Some (if str_eqb (skipn (length fname - 4) fname) (lit ".csv") then fname else fname ++ lit ".csv").

(** ** Plots *)
(** cmd/contour.go:149-153, DataRow. *)
Record drow := { d_x : Z; d_y : Z; d_z : Z; d_value : Q }.

(** strconv.Atoi of cmd/contour.go:256-266, for decimal digits with an optional minus sign. *)
Definition atoi (s : str) : option Z :=
  let neg := match s with m :: _ => Ascii.eqb m minus_c | [] => false end in
  let t := if neg then skipn 1 s else s in
  match t with
  | [] => None
  | _ => if forallb digit_c t then Some (if neg then - digits_val 0 t else digits_val 0 t)%Z else None
  end.
(** cmd/contour.go:213-225, getColIndex. *)
Fixpoint find_col (header : list str) (column : str) (i : nat) : nat :=
  match header with
  | [] => 3
  | v :: h' => if str_eqb v column then i else find_col h' column (S i)
  end.
Definition get_col_index (header : list str) (column : str) : nat :=
  match column with [] => 3 | _ => find_col header column 0 end.
(** cmd/contour.go:227-284, readData; None: the program ends (log.Fatalf or a
    panic). *)
Definition read_row (idx : nat) (r : list str) : option drow :=
  match nth_error r 0, nth_error r 1, nth_error r 2, nth_error r idx with
  | Some a, Some b, Some c, Some v =>
      match atoi a, atoi b, atoi c, parse_f v with
      | Some x, Some y, Some z, Some q => Some {| d_x := x; d_y := y; d_z := z; d_value := q |}
      | _, _, _, _ => None
      end
  | _, _, _, _ => None
  end.
Definition read_data (file : records) (column : str) : option (list drow) :=
  match file with
  | [] => None
  | header :: rows => if length header <? 4 then None
                      else all_some (map (read_row (get_col_index header column)) rows)
  end.

(** cmd/contour.go:286-299, dataRange; None: no record. *)
Fixpoint range_loop (rows : list drow) (lo hi : Q) : Q * Q :=
  match rows with
  | [] => (lo, hi)
  | r :: rows' => range_loop rows' (if Qltb (d_value r) lo then d_value r else lo)
                                   (if Qltb hi (d_value r) then d_value r else hi)
  end.
Definition data_range (rows : list drow) : option (Q * Q) :=
  match rows with [] => None | r :: _ => Some (range_loop rows (d_value r) (d_value r)) end.

(** cmd/contour.go:154-211, HeatMapData. *)
Fixpoint max_above (l : list Z) (m : Z) : Z :=
  match l with [] => m | x :: l' => max_above l' (if (m <? x)%Z then x else m) end.
Definition hm_index (x y nx : Z) : Z := (y * nx + x)%Z.
Record heat_map := { hm_rows : list drow; hm_table : list nat; hm_nx : Z; hm_ny : Z }.
Fixpoint fill_index (rows : list drow) (i : nat) (nx : Z) (t : list nat) : option (list nat) :=
  match rows with
  | [] => Some t
  | r :: rows' =>
      let k := hm_index (d_x r) (d_y r) nx in
      if (k <? 0)%Z then None
      else match set_nth (Z.to_nat k) i t with
           | Some t' => fill_index rows' (S i) nx t'
           | None => None
           end
  end.
Definition new_heat_map (rows : list drow) : option heat_map :=
  let nx := (max_above (map d_x rows) 0 + 1)%Z in
  let ny := (max_above (map d_y rows) 0 + 1)%Z in
  match fill_index rows 0 nx (repeat 0 (length rows)) with
  | Some t => Some {| hm_rows := rows; hm_table := t; hm_nx := nx; hm_ny := ny |}
  | None => None
  end.
Definition hm_dims (h : heat_map) : Z * Z := (hm_nx h, hm_ny h).
(** cmd/contour.go:208-211, Z; the table of indices is not used. *)
Definition hm_z (h : heat_map) (c r : Z) : option Q :=
  let k := hm_index c r (hm_nx h) in
  if (k <? 0)%Z then None
  else match nth_error (hm_rows h) (Z.to_nat k) with Some row => Some (d_value row) | None => None end.
(** cmd/contour.go:316-334, fillImage: the value whose colour the pixel gets. *)
Definition pixel_value (h : heat_map) (i j : Z) : option Q :=
  if (0 <=? i)%Z && (i <? hm_nx h)%Z && (0 <=? j)%Z && (j <? hm_ny h)%Z then hm_z h i j else None.

(** cmd/lineplot.go:136-150, numSet. *)
Definition num_set (x y z : Z) : Z :=
  ((if x =? -1 then 0 else 1) + (if y =? -1 then 0 else 1) + (if z =? -1 then 0 else 1))%Z.
(** cmd/lineplot.go:163-177, includeRow. *)
Definition include_row (r : drow) (x y z : Z) : bool :=
  (if (x =? -1)%Z then true else (d_x r =? x)%Z)
  && (if (y =? -1)%Z then true else (d_y r =? y)%Z)
  && (if (z =? -1)%Z then true else (d_z r =? z)%Z).
(** cmd/lineplot.go:180-190, absissaIndex. *)
Definition abscissa_index (x y z : Z) : nat := if (x =? -1)%Z then 0 else if (y =? -1)%Z then 1 else 2.
(** cmd/lineplot.go:192-205, lineData: from the last row to the first. *)
Fixpoint line_loop (rows : list drow) (x y z : Z) (acc : list (Z * Q)) : list (Z * Q) :=
  match rows with
  | [] => acc
  | r :: rows' =>
      line_loop rows' x y z
        (if include_row r x y z
         then (nth (abscissa_index x y z) [d_x r; d_y r; d_z r] 0%Z, d_value r) :: acc else acc)
  end.
Definition line_data (rows : list drow) (x y z : Z) : list (Z * Q) := line_loop rows x y z [].

(** cmd/lineplot.go:99-109: the fields to plot.  Flags().GetString returns the
    empty string for a flag that is not registered, and the error is ignored.
    The registered flags are those of cmd/lineplot.go:152-161. *)
Definition lineplot_flags : list str := map lit ["fname"; "data"; "out"; "x"; "y"; "z"]%string.
Definition get_string (args : list (str * str)) (flag : str) : str :=
  if existsb (str_eqb flag) lineplot_flags
  then match aget str_eqb flag args with Some v => v | None => [] end else [].
Definition comma_c : ascii := ","%char.
Definition plotted_fields (args : list (str * str)) (header : list str) : list str :=
  match get_string args (lit "fields") with
  | [] => skipn 3 header
  | fields => skipn 4 (split_char comma_c fields)
  end.

(** ** pfutil/grid.go:80-103, Grid.SaveCsv: the records of the file.  None:
    panic in Pos. *)
Definition grid_csv_row (dims : list Z) (data : list Q) (i : nat) : option (list str) :=
  match IndexModel.pos dims (Z.of_nat i), nth_error data i with
  | Some p, Some v => Some (map dec p ++ [fmt_f v])
  | _, _ => None
  end.
Definition grid_save_csv (dims : list Z) (data : list Q) : option records :=
  match all_some (map (grid_csv_row dims data) (seq 0 (length data))) with
  | Some rows => Some ((if Nat.eqb (length dims) 3 then map lit ["x"; "y"; "z"; "value"]%string
                        else map lit ["x"; "y"; "value"]%string) :: rows)
  | None => None
  end.
