(** Model of the pieces of text a product of factors is taken apart into:
    factor names, powers, and the calculator of a derived field. *)
From Verif Require Export ParseModel Complex.
From Coq Require Export Qreals.
Open Scope Z_scope.

(** The class \d of pf/util.go:69 and pf/rhsBuilder.go:94. *)
Definition digit_c (c : ascii) : bool := ((48 <=? N_of_ascii c) && (N_of_ascii c <=? 57))%N.
(** The class [a-zA-Z] of pf/rhsBuilder.go:155. *)
Definition letter_c (c : ascii) : bool :=
  (((65 <=? N_of_ascii c) && (N_of_ascii c <=? 90)) || ((97 <=? N_of_ascii c) && (N_of_ascii c <=? 122)))%N.
(** "." of pf/util.go:69. *)
Definition dot_c : ascii := ".".

(** Greedy match of a class, for pf/util.go:45-69. *)
Fixpoint take_while (p : ascii -> bool) (s : str) : str :=
  match s with [] => [] | c :: s' => if p c then c :: take_while p s' else [] end.
(** The text after such a match. *)
Fixpoint drop_while (p : ascii -> bool) (s : str) : str :=
  match s with [] => [] | c :: s' => if p c then drop_while p s' else s end.

(** The factors of a term: FindAllStringSubmatch with the pattern "[^\*]*"
    (pf/util.go:46-47, pf/rhsBuilder.go:132-133).  The library reports every
    maximal run without '*', empty runs included, except an empty run that
    starts where the previous match ended; these are the pieces of
    strings.Split(s, "*"). *)
Definition factors (s : str) : list str := split_char star_c s.

(** FindString with the pattern "^[^\^]*" (pf/util.go:52, pf/rhsBuilder.go:138). *)
Definition name_no_pow (s : str) : str := take_while (fun c => negb (Ascii.eqb c hat_c)) s.

(** strconv.ParseFloat of a text of digits: exact value.
    strconv.ParseFloat of pf/util.go:75 and pf/rhsBuilder.go:99. *)
Definition digit_val (c : ascii) : Z := Z.of_N (N_of_ascii c) - 48.
(** strconv.ParseFloat of pf/util.go:75 and pf/rhsBuilder.go:99. *)
Fixpoint digits_val (acc : Z) (s : str) : Z :=
  match s with [] => acc | c :: s' => digits_val (10 * acc + digit_val c) s' end.

(** strconv.ParseFloat: the scale of the decimals. *)
Definition pow10 (n : nat) : positive := Nat.iter n (fun p => (10 * p)%positive) 1%positive.

(** strconv.ParseFloat of such a decimal text (exact rational; no rounding).
    strconv.ParseFloat of pf/util.go:75 and pf/rhsBuilder.go:99. *)
Definition dec_val (neg : bool) (ip fp : str) : Q :=
  let v := Qmake (digits_val (digits_val 0 ip) fp) (pow10 (length fp)) in
  if neg then Qopp v else v.

(** One attempt to match the pattern of pf/util.go:69 (a hat, an optional
    minus, digits, an optional point, optional digits) at the start of [s]. *)
Definition power_here (s : str) : option Q :=
  match s with
  | c :: s1 =>
      if Ascii.eqb c hat_c then
        let neg := match s1 with m :: _ => Ascii.eqb m minus_c | [] => false end in
        let s2 := if neg then skipn 1 s1 else s1 in
        let ip := take_while digit_c s2 in
        let rest := drop_while digit_c s2 in
        match ip with
        | [] => None
        | _ :: _ =>
            let fp := match rest with
                      | d :: r => if Ascii.eqb d dot_c then take_while digit_c r else []
                      | [] => []
                      end in
            Some (dec_val neg ip fp)
        end
      else None
  | [] => None
  end.

(** The leftmost match of that pattern.
    pf/util.go:69-73 and pf/rhsBuilder.go:94-98, FindStringSubmatch. *)
Fixpoint find_power (s : str) : option Q :=
  match power_here s with
  | Some q => Some q
  | None => match s with [] => None | _ :: s' => find_power s' end
  end.

(** pf/util.go:68-80, GetPower. *)
Definition get_power (s : str) : Q := match find_power s with Some q => q | None => 1%Q end.

(** pf/util.go:38-65, DerivedFieldCalcFromDesc: the value written at node [i].
    [fields] lists the fields with their values; the map of line 40-43 keeps
    the last field of a name.  A name that is not a field dereferences a nil
    pointer (None).  [cpow] is cmplx.Pow with a real exponent. *)
Section Calc.
  Variable cpow : C -> R -> C.
  Fixpoint field_value (fields : list (str * (nat -> C))) (name : str) : option (nat -> C) :=
    match fields with
    | [] => None
    | (n, v) :: fields' => match field_value fields' name with
                           | Some w => Some w
                           | None => if str_eqb n name then Some v else None
                           end
    end.
  Fixpoint calc_loop (fields : list (str * (nat -> C))) (fs : list str) (i : nat) (acc : C) : option C :=
    match fs with
    | [] => Some acc
    | f :: fs' => match field_value fields (name_no_pow f) with
                  | None => None
                  | Some v => calc_loop fields fs' i (Cmul acc (cpow (v i) (Q2R (get_power f))))
                  end
    end.
  Definition derived_calc (desc : str) (fields : list (str * (nat -> C))) (i : nat) : option C :=
    calc_loop fields (factors desc) i C1.
End Calc.
