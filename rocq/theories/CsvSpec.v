(** A reader for CSV texts, after RFC 4180 and the documentation of csv.Reader: fields
    are separated by commas, records by line breaks, empty lines are skipped, a
    field in quotes may contain everything and a quote is written twice in it.  A
    carriage return before a line break is dropped.  All records must have the
    same number of fields. *)
From Verif Require Import CsvModel.

Inductive place := Begin | Plain | Quoted | Closed.
(** Drops carriage returns before line breaks. *)
Fixpoint drop_cr (s : str) : str :=
  match s with
  | [] => []
  | c :: s' => if Ascii.eqb c cr_c && match s' with d :: _ => Ascii.eqb d nl_c | [] => false end then drop_cr s' else c :: drop_cr s'
  end.
(** [cur] is what has been read of a field, [row] the fields of the record before. *)
Fixpoint read_fields (s : str) (p : place) (cur : str) (row : list str) : option (list (list str)) :=
  match s with
  | [] => match p with
          | Quoted => None
          | Begin => match row with [] => Some [] | _ => Some [row ++ [[]]] end
          | _ => Some [row ++ [cur]]
          end
  | c :: s' =>
      let next := read_fields s' Begin [] (row ++ [cur]) in
      let line := option_map (cons (row ++ [cur])) (read_fields s' Begin [] []) in
      match p with
      | Begin => if Ascii.eqb c dquote_c then read_fields s' Quoted [] row
                 else if Ascii.eqb c "," then next
                 else if Ascii.eqb c nl_c then match row with [] => read_fields s' Begin [] [] | _ => line end
                 else read_fields s' Plain [c] row
      | Plain => if Ascii.eqb c dquote_c then None
                 else if Ascii.eqb c "," then next else if Ascii.eqb c nl_c then line
                 else read_fields s' Plain (cur ++ [c]) row
      | Quoted => if Ascii.eqb c dquote_c then read_fields s' Closed cur row else read_fields s' Quoted (cur ++ [c]) row
      | Closed => if Ascii.eqb c dquote_c then read_fields s' Quoted (cur ++ [c]) row
                  else if Ascii.eqb c "," then next else if Ascii.eqb c nl_c then line
                  else None
      end
  end.
Definition same_width (rows : list (list str)) : bool :=
  match rows with [] => true | r :: _ => forallb (fun x => Nat.eqb (length x) (length r)) rows end.
Definition read_csv (s : str) : option (list (list str)) :=
  match read_fields (drop_cr s) Begin [] [] with
  | Some rows => if same_width rows then Some rows else None
  | None => None
  end.

(** Whether a carriage return stands before a line break; [after]: the character
    before [s] is a carriage return. *)
Fixpoint breaks (after : bool) (s : str) : bool :=
  match s with [] => false | c :: s' => (after && Ascii.eqb c nl_c) || breaks (Ascii.eqb c cr_c) s' end.
Definition no_crlf (s : str) : Prop := breaks false s = false.
