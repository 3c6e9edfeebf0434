(** Go string functions used by gopf, on byte strings.
    A Go string is the list of its bytes; only ASCII text is considered. *)
From Coq Require Export Ascii String List ZArith QArith Lia Bool.
Export ListNotations.
Open Scope Z_scope.

(** Go strings as lists of bytes. *)
Definition str := list ascii.
(** A string literal. *)
Definition lit (s : string) : str := list_ascii_of_string s.
Coercion lit : string >-> str.

(** Comparison of strings with ==. *)
Definition str_eqb (a b : str) : bool :=
  if list_eq_dec ascii_dec a b then true else false.

(** strings.HasPrefix.
    As used in pf/rhsBuilder.go:265,280. *)
Fixpoint has_prefix (s p : str) {struct p} : bool :=
  match p, s with
  | [], _ => true
  | c :: p', x :: s' => Ascii.eqb c x && has_prefix s' p'
  | _ :: _, [] => false
  end.

(** strings.Contains.
    As used in pf/util.go:86,92 and pf/rhsBuilder.go:153. *)
Fixpoint contains (s sub : str) : bool :=
  has_prefix s sub || match s with [] => false | _ :: s' => contains s' sub end.

(** strings.Contains for a one-byte substring.
    As used in pf/util.go:178. *)
Definition contains_char (s : str) (c : ascii) : bool := existsb (Ascii.eqb c) s.

(** strings.ContainsAny.
    As used in pf/util.go:171. *)
Definition contains_any (s : str) (cs : list ascii) : bool :=
  existsb (contains_char s) cs.

(** strings.Split with a one-byte separator: never empty.
    As used in pf/model.go:166,173, pf/util.go:184,297 and pf/rhsBuilder.go:27. *)
Fixpoint split_char (c : ascii) (s : str) : list str :=
  match s with
  | [] => [[]]
  | x :: s' => if Ascii.eqb c x then [] :: split_char c s'
               else match split_char c s' with
                    | h :: t => (x :: h) :: t
                    | [] => [[x]]
                    end
  end.

(** strings.Join with a one-byte separator.
    As used in pf/util.go:299 and pfutil/grid.go:99. *)
Fixpoint join_char (c : ascii) (l : list str) : str :=
  match l with
  | [] => []
  | [x] => x
  | x :: l' => x ++ c :: join_char c l'
  end.

(** strings.Replace(s, old, "", -1) for non-empty [old]: non-overlapping
    occurrences from the left are deleted.  The fuel is the length of [s].
    As used in pf/util.go:88 and pf/rhsBuilder.go:47. *)
Fixpoint delete_all_fuel (n : nat) (s old : str) : str :=
  match n with
  | O => s
  | S n' => match s with
            | [] => []
            | x :: s' => if has_prefix s old then delete_all_fuel n' (skipn (length old) s) old
                         else x :: delete_all_fuel n' s' old
            end
  end.
(** As used in pf/util.go:88 and pf/rhsBuilder.go:47. *)
Definition delete_all (s old : str) : str := delete_all_fuel (length s) s old.

(** strings.Replace(s, " ", "", -1).
    As used in pf/model.go:158 and pf/rhsBuilder.go:110. *)
Definition delete_char (c : ascii) (s : str) : str := filter (fun x => negb (Ascii.eqb c x)) s.

(** Bytewise lexicographic order of strings, [a <= b].
    Order of sort.Strings in pf/util.go:298. *)
Fixpoint str_le (a b : str) : bool :=
  match a, b with
  | [], _ => true
  | _ :: _, [] => false
  | x :: a', y :: b' =>
      let nx := N_of_ascii x in let ny := N_of_ascii y in
      if (nx <? ny)%N then true else if (ny <? nx)%N then false else str_le a' b'
  end.

(** sort.Strings: the sorted permutation (insertion sort; the result of
    sorting by a total order does not depend on the algorithm).
    As used in pf/util.go:298. *)
Fixpoint insert_str (x : str) (l : list str) : list str :=
  match l with
  | [] => [x]
  | y :: l' => if str_le x y then x :: y :: l' else y :: insert_str x l'
  end.
(** As used in pf/util.go:298. *)
Fixpoint sort_str (l : list str) : list str :=
  match l with [] => [] | x :: l' => insert_str x (sort_str l') end.
