(** Model of the text processing of right-hand sides. *)
From Verif Require Export StrModel.

(** Result of a computation that may panic; [OutOfFuel] never happens for the
    fuel used (proved).
    Result of a function of pf/util.go or pf/rhsBuilder.go that may panic. *)
Inductive res (A : Type) := Ok (a : A) | Panic | OutOfFuel.
Arguments Ok {A} a. Arguments Panic {A}. Arguments OutOfFuel {A}.

(** pf/util.go:136-139, SubStringDelimiter.  The empty preceding delimiter is
    [None]; delimiters are single characters ("+" and "-" in all calls). *)
Definition piece : Type := str * option ascii.

(** pf/util.go:143-150, getFirstDelimiter; indexing an empty string panics. *)
Definition first_delim (value : str) (delims : list ascii) : res (option ascii) :=
  match value with
  | [] => Panic
  | c :: _ => Ok (find (Ascii.eqb c) delims)
  end.

(** pf/util.go:202-210, removeEmpty. *)
Definition remove_empty (l : list str) : list str :=
  filter (fun s => match s with [] => false | _ => true end) l.

(** pf/util.go:173-178: the first delimiter contained in the string, the first
    of the list by default. *)
Definition choose_delim (s : str) (delims : list ascii) : option ascii :=
  match find (contains_char s) delims with
  | Some d => Some d
  | None => hd_error delims
  end.

(** pf/util.go:167-197: the queue loop.  [splits[0]] panics on an empty slice. *)
Fixpoint split_loop (fuel : nat) (delims : list ascii) (queue acc : list piece) : res (list piece) :=
  match fuel with
  | O => OutOfFuel
  | S fuel' =>
      match queue with
      | [] => Ok acc
      | (s, d) :: queue' =>
          if contains_any s delims then
            match choose_delim s delims with
            | None => Panic
            | Some delim =>
                match remove_empty (split_char delim s) with
                | [] => Panic
                | s0 :: ss =>
                    split_loop fuel' delims
                      (queue' ++ (s0, d) :: map (fun x => (x, Some delim)) ss) acc
                end
            end
          else split_loop fuel' delims queue' (acc ++ [(s, d)])
      end
  end.

(** pf/util.go:154-199, SplitOnMany. *)
Definition split_on_many (value : str) (delims : list ascii) : res (list piece) :=
  match first_delim value delims with
  | Ok d => split_loop (2 * length value + 3) delims [(value, d)] []
  | _ => Panic
  end.

(** "+" of pf/rhsBuilder.go and pf/util.go. *)
Definition plus_c : ascii := "+".
(** "-" of pf/rhsBuilder.go and pf/util.go. *)
Definition minus_c : ascii := "-".
(** star of pf/util.go:297. *)
Definition star_c : ascii := "*".
(** "^" of pf/util.go:51,69. *)
Definition hat_c : ascii := "^".

(** pf/util.go:296-300, SortFactors. *)
Definition sort_factors (expr : str) : str := join_char star_c (sort_str (split_char star_c expr)).

(** pf/rhsBuilder.go:244-252, knownPrefixes. *)
Definition known_prefixes : list str := ["-"%string : str; "LAP^4"%string : str; "LAP^2"%string : str; "LAP"%string : str; "*"%string : str].

(** pf/rhsBuilder.go:259-272 (getKnownPrefixes) and 254-257, 274-287
    (removeKnownPrefixes, recursiveRemove): both scan the prefix table and
    restart it after every match.  Result: prefixes found, rest of the string.
    The fuel is one per restart, at most the length of the string. *)
Fixpoint strip_prefixes (fuel : nat) (s : str) : list str * str :=
  match fuel with
  | O => ([], s)
  | S fuel' =>
      match find (has_prefix s) known_prefixes with
      | None => ([], s)
      | Some p => let '(ps, r) := strip_prefixes fuel' (skipn (length p) s) in (p :: ps, r)
      end
  end.
Definition get_known_prefixes (s : str) : list str := fst (strip_prefixes (S (length s)) s).
Definition remove_known_prefixes (s : str) : str := snd (strip_prefixes (S (length s)) s).

(** pf/model.go:480-485, panicOnPrefixInName: names starting with a reserved
    prefix are rejected. *)
Definition name_ok (name : str) : bool := match get_known_prefixes name with [] => true | _ => false end.

(** pf/rhsBuilder.go:58-66, fieldNameFromLeibniz. *)
Definition field_name_from_leibniz (l : str) : res str :=
  if (length l <=? 3)%nat then Panic
  else if has_prefix l ("d"%string : str) && str_eqb (skipn (length l - 3) l) ("/dt"%string : str)
       then Ok (firstn (length l - 4) (skipn 1 l))
       else Panic.

(** pf/model.go:441-453: FindStringSubmatch of the regular expression
    d(.*?)/dt.  [lazy_upto] is the text before the first "/dt".  The leftmost
    match starts at the first 'd' that is followed by a "/dt". *)
Fixpoint lazy_upto (s : str) : option str :=
  if has_prefix s ("/dt"%string : str) then Some []
  else match s with
       | [] => None
       | x :: s' => match lazy_upto s' with Some t => Some (x :: t) | None => None end
       end.
Fixpoint leibniz_match (s : str) : option str :=
  match s with
  | [] => None
  | x :: s' => if Ascii.eqb x "d" then
                 match lazy_upto s' with Some t => Some t | None => leibniz_match s' end
               else leibniz_match s'
  end.

(** pf/model.go:441-453, EqNumber: first equation whose match is the name. *)
Fixpoint eq_number_from (i : Z) (eqs : list str) (name : str) : res Z :=
  match eqs with
  | [] => Panic
  | e :: eqs' => match leibniz_match e with
                 | Some n => if str_eqb n name then Ok i else eq_number_from (i + 1) eqs' name
                 | None => eq_number_from (i + 1) eqs' name
                 end
  end.
Definition eq_number (eqs : list str) (name : str) : res Z := eq_number_from 0 eqs name.

(** pf/model.go:158: the equation text stored by AddEquation. *)
Definition strip_spaces (eq : str) : str := delete_char " " eq.

(** pf/rhsBuilder.go:27-33: the two sides of an equation; exactly one '='. *)
Definition sides (eq : str) : res (str * str) :=
  match split_char "=" eq with [l; r] => Ok (l, r) | _ => Panic end.

(** ** Prefix functions applied to a term value *)
Section ConstructFunc.
  (** The Fourier amplitudes, their negation and the multiplication with the
      k-th power of the Laplacian symbol at a node (pf/diffOp.go:25-30). *)
  Variable V : Type.
  Variable neg : V -> V.
  Variable lap : nat -> V -> V.

  (** pf/rhsBuilder.go:205-241: effect of one prefix; unknown prefixes only
      write a log message. *)
  Definition apply_prefix (p : str) (v : V) : V :=
    if str_eqb p ("-"%string : str) then neg v
    else if str_eqb p ("LAP^4"%string : str) then lap 4 v
    else if str_eqb p ("LAP^2"%string : str) then lap 2 v
    else if str_eqb p ("LAP"%string : str) then lap 1 v
    else v.

  (** pf/rhsBuilder.go:199-242, constructFunc: prefixes[0] is wrapped first,
      i.e. innermost. *)
  Fixpoint construct_func (prefixes : list str) (v : V) : V :=
    match prefixes with
    | [] => v
    | p :: ps => construct_func ps (apply_prefix p v)
    end.

  (** PreceedingDelimiter (pf/util.go:138) as text. *)
  Definition delim_str (d : option ascii) : str := match d with Some c => [c] | None => [] end.

  (** pf/rhsBuilder.go:35-46: the value of a piece that names a registered
      term whose own value is [v]. *)
  Definition user_term_value (p : piece) (v : V) : V :=
    construct_func (get_known_prefixes (fst p) ++ [delim_str (snd p)]) v.
End ConstructFunc.
