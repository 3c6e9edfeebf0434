(** Model of the text that encoding/csv writes for the records of SaveCsv and of
    the export command. *)
From Verif Require Export FileModel.
Open Scope Z_scope.

Definition dquote_c : ascii := ascii_of_N 34.
Definition nl_c : ascii := ascii_of_N 10.
Definition cr_c : ascii := ascii_of_N 13.

(** unicode.IsSpace on ASCII, used by csv.Writer (pf/fileIO.go:192). *)
Definition space_c (c : ascii) : bool := let n := N_of_ascii c in (N.leb 9 n && N.leb n 13) || N.eqb n 32.
(** Characters because of which csv.Writer (pf/fileIO.go:192) quotes a field. *)
Definition special_c (c : ascii) : bool := Ascii.eqb c "," || Ascii.eqb c dquote_c || Ascii.eqb c nl_c || Ascii.eqb c cr_c.
(** fieldNeedsQuotes of csv.Writer (pf/fileIO.go:192).  Names in ASCII. *)
Definition needs_quotes (s : str) : bool :=
  match s with
  | [] => false
  | c :: _ => str_eqb s (lit "\.") || existsb special_c s || space_c c
  end.
(** A quote inside a quoted field is written twice (pf/fileIO.go:192). *)
Definition twice_quote (c : ascii) : str := if Ascii.eqb c dquote_c then [c; c] else [c].
(** csv.Writer.Write (pf/fileIO.go:195,208, cmd/export.go:173-186,246-270): one field. *)
Definition csv_field (s : str) : str := if needs_quotes s then dquote_c :: flat_map twice_quote s ++ [dquote_c] else s.
(** csv.Writer.Write (pf/fileIO.go:195,208): a record and its line break. *)
Definition csv_record (r : list str) : str := join_char "," (map csv_field r) ++ [nl_c].
(** pf/fileIO.go:192-208: the contents of the file. *)
Definition csv_text (rows : records) : str := concat (map csv_record rows).
