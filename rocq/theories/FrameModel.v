(** Model of the tables that the commands comment, attr and info print: the lines
    with their frame. *)
From Verif Require Export CliModel.
Open Scope nat_scope.

(** cmd/comment.go:83-121, printAllComments: all lines; None: panic. *)
Definition comment_table (d : db) : option (list str) :=
  let header := lit "| " ++ pad_right sim_id_width (lit "Sim ID.") ++ lit " | " ++ pad_right comment_width (lit "Comment") ++ lit " |" in
  let rule := single_line (length header) in
  match print_all_comments d with
  | None => None
  | Some ls => Some ([rule; header; rule] ++ ls ++ [rule])
  end.

(** cmd/attr.go:171-174, the names of the columns. *)
Definition attr_head (cols : list str) : str :=
  lit "| " ++ pad_right sim_id_width (lit "Sim. ID") ++ lit " |" ++ concat (map (fun k => lit " " ++ pad_right col_width k ++ lit " |") cols).
(** cmd/attr.go:181-190, the line of one simulation. *)
Definition attr_line (e : Z * list str) : str :=
  lit "| " ++ pad_right sim_id_width (dec (fst e)) ++ lit " |" ++ concat (map (fun v => lit " " ++ pad_left col_width v ++ lit " |") (snd e)).
(** cmd/attr.go:171-191, one table. *)
Definition attr_table (t : list str * list (Z * list str)) : list str :=
  let rule := single_line (length (attr_head (fst t))) in
  [rule; attr_head (fst t); rule] ++ map attr_line (snd t) ++ [rule].
(** cmd/attr.go:162-192, all tables; [keys] is the result of set2slice
    (cmd/attr.go:229-235), in any order. *)
Definition attr_tables (keys : list str) (entries : attrmap) : list str := concat (map attr_table (list_attributes keys entries)).

(** cmd/info.go:162-164, dimString. *)
Definition dim_string (l : list Z) : str := lit "(" ++ join_list (map dec l) ++ lit ")".
(** cmd/info.go:146-158, the summary.  The names are those of the queries. *)
Definition info_table (d : db) (fields attrs series : list str) : list str :=
  let rule := single_line (desc_width + value_width + 7) in
  [rule; lit "| " ++ pad_right desc_width (lit "Desc.") ++ lit " | " ++ pad_right value_width (lit "Value") ++ lit " |"; rule;
   info_line (lit "Num calc.") (dec (Z.of_nat (info_count d))); info_line (lit "Dims") (dim_string (info_dims d))]
  ++ print_list (lit "Fields") fields ++ print_list (lit "Attributes") attrs ++ print_list (lit "Timeseries") series ++ [rule].

(** cmd/list.go:84-93, showSimulationIds: the table below the notice. *)
Definition list_table (answer : list (Z * str)) (max : Z) : list str :=
  let rule := lit "-----------------------------------------------------------" in
  [rule; lit "| Sim Id                  | Creation time                 |"; rule] ++ snd (show_ids answer max) ++ [rule].
