(** Model of the construction of a right-hand side from its text. *)
From Verif Require Export TermModel SpectralModel.
Open Scope nat_scope.

(** The names known to a model (pf/model.go:116-127). *)
Record pmodel := {
  pm_fields : list str;
  pm_derived : list str;
  pm_scalars : list str;
  pm_implicit : list str;
  pm_explicit : list str;
  pm_mixed : list str
}.

(** Membership loops over names, as in pf/util.go:85-95. *)
Definition mem_str (n : str) (l : list str) : bool := existsb (fun x => str_eqb x n) l.

(** pf/model.go:198-208, AllFieldNames. *)
Definition all_field_names (m : pmodel) : list str := pm_fields m ++ pm_derived m.
(** pf/model.go:211-224, IsFieldName; 227-234, IsBrickName; 375-397. *)
Definition is_fname (m : pmodel) (n : str) : bool := mem_str n (all_field_names m).
Definition is_brick (m : pmodel) (n : str) : bool := mem_str n (all_field_names m) || mem_str n (pm_scalars m).
Definition is_user_term (m : pmodel) (n : str) : bool :=
  mem_str n (pm_implicit m) || mem_str n (pm_explicit m) || mem_str n (pm_mixed m).

(** ** Names used as regular expressions.
    Field names are used as patterns.  A name made of letters, digits and
    underscores is a literal.  The names of derived fields contain '*', '^' and
    '.', which are operators of the pattern language. *)
(** Patterns compiled in pf/rhsBuilder.go:70,82,90. *)
Inductive ritem := RLit (c : ascii) | RStar (c : ascii) | RAny | RAnyStar | RBegin.
(** regexp.MustCompile of pf/rhsBuilder.go:70,82,90. *)
Fixpoint compile (s : str) : list ritem :=
  match s with
  | [] => []
  | c :: s' =>
      match s' with
      | d :: s'' => if Ascii.eqb d star_c
                    then (if Ascii.eqb c dot_c then RAnyStar else RStar c) :: compile s''
                    else (if Ascii.eqb c dot_c then RAny else if Ascii.eqb c hat_c then RBegin else RLit c) :: compile s'
      | [] => [if Ascii.eqb c dot_c then RAny else if Ascii.eqb c hat_c then RBegin else RLit c]
      end
  end.
(** Matching of package regexp, for pf/rhsBuilder.go:70-90. *)
Fixpoint match_here (re : list ritem) (s : str) (start : bool) {struct re} : bool :=
  match re with
  | [] => true
  | RBegin :: re' => start && match_here re' s start
  | RLit c :: re' => match s with x :: s' => Ascii.eqb c x && match_here re' s' false | [] => false end
  | RAny :: re' => match s with x :: s' => match_here re' s' false | [] => false end
  | RStar c :: re' =>
      (fix go (s : str) (start : bool) : bool :=
         match_here re' s start || match s with x :: s' => Ascii.eqb c x && go s' false | [] => false end) s start
  | RAnyStar :: re' =>
      (fix go (s : str) (start : bool) : bool :=
         match_here re' s start || match s with x :: s' => go s' false | [] => false end) s start
  end.
(** MatchString of package regexp, for pf/rhsBuilder.go:70-90. *)
Fixpoint re_search (re : list ritem) (s : str) (start : bool) : bool :=
  match_here re s start || match s with [] => false | _ :: s' => re_search re s' false end.
(** regexp.MustCompile(pat) and its MatchString(s), for pf/rhsBuilder.go:70-90. *)
Definition re_hit (pat s : str) : bool := re_search (compile pat) s true.

(** The text after the leftmost occurrence of a literal (pf/rhsBuilder.go:90). *)
Fixpoint after_lit (s p : str) : option str :=
  if has_prefix s p then Some (skipn (length p) s)
  else match s with [] => None | _ :: s' => after_lit s' p end.

(** Number of non-overlapping occurrences (FindAllStringIndex of a literal).
    FindAllStringIndex of a literal in pf/rhsBuilder.go:70-90. *)
Fixpoint count_fuel (n : nat) (s p : str) : nat :=
  match n with
  | O => 0
  | S n' => match after_lit s p with None => 0 | Some r => S (count_fuel n' r p) end
  end.
(** FindAllStringIndex of a literal in pf/rhsBuilder.go:70-90. *)
Definition count_lit (s p : str) : nat := count_fuel (S (length s)) s p.

(** The class not-star of pf/rhsBuilder.go:132. *)
Definition not_star (c : ascii) : bool := negb (Ascii.eqb c star_c).
(** The character / of pf/rhsBuilder.go:90. *)
Definition slash_c : ascii := "/".

(** pf/rhsBuilder.go:87-88: FindString of the field name followed by
    "*[^/\*]*"; the first star applies to the last letter of the name.  The
    field name is a literal. *)
Definition with_powers (field term : str) : str :=
  match after_lit term (removelast field) with
  | None => []
  | Some r => removelast field ++ take_while (fun c => not_star c && negb (Ascii.eqb c slash_c)) r
  end.

(** pf/rhsBuilder.go:69-106, isBilinear.  The field of the left-hand side is a
    literal. *)
Definition near_one (q : Q) : bool := negb (Qle_bool (1 # 10000000000) (Qabs.Qabs (q - 1))).
Definition is_bilinear (term field : str) (names : list str) : bool :=
  if Nat.eqb (count_lit term field) 1 then
    if existsb (fun f => negb (str_eqb f field) && re_hit f term) names then false
    else match find_power (with_powers field term) with None => true | Some q => near_one q end
  else false.

(** pf/util.go:17-34, GetNonLinearFieldExpressions; [names] are names of
    fields, used as literals. *)
Fixpoint nonlinear_loop (pattern field : str) (names todo : list str) (expr : str) : str :=
  match todo with
  | [] => expr
  | n :: todo' =>
      if str_eqb n field && is_bilinear pattern field names then nonlinear_loop pattern field names todo' expr
      else nonlinear_loop pattern field names todo'
             match after_lit pattern n with
             | None => expr
             | Some r => match n ++ take_while not_star r with
                         | [] => expr
                         | res => expr ++ res ++ [star_c]
                         end
             end
  end.
Definition get_nonlinear (pattern field : str) (names : list str) : str :=
  let expr := nonlinear_loop pattern field names names [] in
  if Nat.ltb 1 (length expr) then removelast expr else expr.

(** pf/util.go:83-104, GetFieldName. *)
Fixpoint field_name_loop (term : str) (names todo : list str) (field : str) : str :=
  match todo with
  | [] => field
  | f :: todo' =>
      field_name_loop term names todo'
        (if contains term f
            && negb (existsb (contains (delete_all term f)) names)
            && Nat.ltb (length field) (length f)
         then f else field)
  end.
Definition get_field_name (term : str) (names : list str) : str := field_name_loop term names names [].

(** pf/model.go:165-195, UpdateDerivedFields: the names added (the loop from
    line 178). *)
Fixpoint derived_loop (m : pmodel) (field : str) (terms : list str) : pmodel :=
  match terms with
  | [] => m
  | t :: terms' =>
      let new := sort_factors (get_nonlinear t field (pm_fields m)) in
      derived_loop
        (if is_user_term m t then m
         else match new with
              | [] => m
              | _ => if is_fname m new then m
                     else {| pm_fields := pm_fields m; pm_derived := pm_derived m ++ [new];
                             pm_scalars := pm_scalars m; pm_implicit := pm_implicit m;
                             pm_explicit := pm_explicit m; pm_mixed := pm_mixed m |}
              end) field terms'
  end.
Definition bind {A B} (x : res A) (f : A -> res B) : res B :=
  match x with Ok a => f a | Panic => Panic | OutOfFuel => OutOfFuel end.
Definition pm_signs : list ascii := [plus_c; minus_c].

(** pf/model.go:157-195, AddEquation with UpdateDerivedFields. *)
Definition update_derived_fields (m : pmodel) (eq : str) : res pmodel :=
  match split_char "=" eq with
  | l :: r :: _ =>
      bind (split_on_many r pm_signs) (fun ps =>
      bind (field_name_from_leibniz l) (fun field => Ok (derived_loop m field (map fst ps))))
  | _ => Panic
  end.
Definition add_equation (m : pmodel) (eq : str) : res pmodel := update_derived_fields m (strip_spaces eq).
Fixpoint add_equations (m : pmodel) (eqs : list str) : res pmodel :=
  match eqs with [] => Ok m | e :: eqs' => bind (add_equation m e) (fun m' => add_equations m' eqs') end.

(** pf/rhsBuilder.go:109-122, ValidName; slicing a shorter name panics. *)
Definition lap_s : str := "LAP"%string.
Definition valid_name (m : pmodel) (name : str) : res bool :=
  let s := delete_char " " name in
  if str_eqb s [] || str_eqb s lap_s then Ok true
  else if Nat.ltb (length s) 3 then Panic
  else let s' := if str_eqb (firstn 3 s) lap_s then skipn 3 s else s in
       Ok (is_brick m s' || is_fname m s').

(** What ConcreteTerm (pf/rhsBuilder.go:125-190) extracts from the text of a term. *)
Record pterm := { pt_neg : bool; pt_bricks : list (str * Q); pt_field : str; pt_lap : option nat }.

(** pf/rhsBuilder.go:139-149: the loop over the factors. *)
Fixpoint brick_loop (m : pmodel) (fs : list str) (acc : list (str * Q)) : res (list (str * Q)) :=
  match fs with
  | [] => Ok acc
  | f :: fs' =>
      let name := name_no_pow f in
      if negb (is_fname m name) && is_brick m name
      then brick_loop m fs' (acc ++ [(name, get_power f)])
      else bind (valid_name m name) (fun ok => if ok then brick_loop m fs' acc else Panic)
  end.

(** pf/rhsBuilder.go:155-157: FindString of "LAP*[^a-zA-Z]*" (the star applies
    to the letter P) and int(GetPower(..)). *)
Definition lap_text (term : str) : str :=
  match after_lit term ("LA"%string : str) with
  | None => []
  | Some r => ("LA"%string : str) ++ take_while (Ascii.eqb "P") r
              ++ take_while (fun c => negb (letter_c c)) (drop_while (Ascii.eqb "P") r)
  end.
Definition int_of_Q (q : Q) : Z := Z.quot (Qnum q) (Zpos (Qden q)).

(** pf/rhsBuilder.go:125-190, ConcreteTerm: everything but the closure. *)
Definition concrete_term (m : pmodel) (p : piece) : res pterm :=
  let '(term, d) := p in
  bind (brick_loop m (factors term) []) (fun bricks =>
  Ok {| pt_neg := match d with Some c => Ascii.eqb c minus_c | None => false end;
        pt_bricks := bricks;
        pt_field := get_field_name (sort_factors term) (all_field_names m);
        pt_lap := if contains term lap_s then Some (Z.to_nat (int_of_Q (get_power (lap_text term)))) else None |}).

(** A built term: one given by its text, or a registered one with prefixes.
    An element of RHS.Terms or RHS.Denum (pf/rhsBuilder.go:19-22). *)
Inductive built :=
| BTerm (t : pterm)
| BImplicit (name : str) (p : piece)     (* ImplicitTerms[name].Construct *)
| BExplicit (name : str) (p : piece)     (* ExplicitTerms[name].Construct *)
| BLinear (name : str) (p : piece)       (* MixedTerms[name].ConstructLinear *)
| BNonLinear (name : str) (p : piece).   (* MixedTerms[name].ConstructNonLinear *)

(** pf/rhsBuilder.go:34-52: the loop of Build.  Result: Terms and Denum. *)
Fixpoint build_loop (m : pmodel) (field : str) (ps : list piece) (acc : list built * list built)
  : res (list built * list built) :=
  match ps with
  | [] => Ok acc
  | p :: ps' =>
      let name := remove_known_prefixes (fst p) in
      let '(terms, denum) := acc in
      if mem_str name (pm_implicit m) then build_loop m field ps' (terms, denum ++ [BImplicit name p])
      else if mem_str name (pm_explicit m) then build_loop m field ps' (terms ++ [BExplicit name p], denum)
      else if mem_str name (pm_mixed m) then
        build_loop m field ps' (terms ++ [BNonLinear name p], denum ++ [BLinear name p])
      else if is_bilinear (fst p) field (all_field_names m) then
        bind (concrete_term m (delete_all (fst p) field, snd p)) (fun t =>
        build_loop m field ps' (terms, denum ++ [BTerm t]))
      else
        bind (concrete_term m p) (fun t => build_loop m field ps' (terms ++ [BTerm t], denum))
  end.

(** pf/rhsBuilder.go:26-54, Build. *)
Definition build (m : pmodel) (eq : str) : res (list built * list built) :=
  bind (sides eq) (fun lr =>
  bind (field_name_from_leibniz (fst lr)) (fun field =>
  bind (split_on_many (snd lr) pm_signs) (fun ps => build_loop m field ps ([], [])))).

(** ** Evaluation at one node *)
Section Eval.
  Variable cpow : C -> R -> C.            (* cmplx.Pow with a real exponent *)
  Variable brick : str -> C.              (* m.Bricks[name].Get(i) *)
  Variable implicit explicit linear nonlinear : str -> C.  (* registered terms *)
  Variable freq : list R.                 (* freq(i) *)

  (** pf/rhsBuilder.go:158-189: the closures of ConcreteTerm. *)
  Fixpoint eval_bricks (bs : list (str * Q)) (acc : C) : C :=
    match bs with
    | [] => acc
    | (n, q) :: bs' => eval_bricks bs' (Cmul acc (cpow (brick n) (Q2R q)))
    end.
  Definition eval_pterm (t : pterm) : C :=
    let v := eval_bricks (pt_bricks t) (RtoC (if pt_neg t then -1 else 1)%R) in
    let v := match pt_field t with [] => v | _ => Cmul v (brick (pt_field t)) end in
    match pt_lap t with None => v | Some k => lap_eval freq k v end.

  (** The value of such an element at one node (pf/rhsBuilder.go:160-242). *)
  Definition eval_built (b : built) : C :=
    match b with
    | BTerm t => eval_pterm t
    | BImplicit n p => user_term_value C flip_sign (lap_eval freq) p (implicit n)
    | BExplicit n p => user_term_value C flip_sign (lap_eval freq) p (explicit n)
    | BLinear n p => user_term_value C flip_sign (lap_eval freq) p (linear n)
    | BNonLinear n p => user_term_value C flip_sign (lap_eval freq) p (nonlinear n)
    end.
End Eval.
