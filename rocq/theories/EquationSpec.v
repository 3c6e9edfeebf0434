(** The equation language: how an equation is written and what it means. *)
From Verif Require Export ParseSpec DerivedSpec EquationModel.
Open Scope nat_scope.

(** [a] occurs inside [s]. *)
Definition occurs (a s : str) : Prop := exists x y, s = x ++ a ++ y.

(** ** Names *)
Record lang := {
  l_fields : list str;       (* AddField *)
  l_functions : list str;    (* RegisterFunction, RegisterDerivedField *)
  l_scalars : list str;      (* AddScalar *)
  l_implicit : list str;     (* RegisterImplicitTerm *)
  l_explicit : list str;     (* RegisterExplicitTerm *)
  l_mixed : list str         (* RegisterMixedTerm *)
}.
Definition atoms (L : lang) : list str := l_fields L ++ l_functions L.
Definition user_terms (L : lang) : list str := l_implicit L ++ l_explicit L ++ l_mixed L.

Definition op_letter (c : ascii) : Prop := c = "L"%char \/ c = "A"%char \/ c = "P"%char.
Definition first_letter (n : str) : ascii := hd "L"%char n.

Record good_lang (L : lang) : Prop := {
  (** names are identifiers; those of fields and functions have at least three
      letters and do not start with L, A or P *)
  gl_ident : forall n, In n (atoms L ++ l_scalars L) -> ident n;
  gl_long : forall n, In n (atoms L) -> 3 <= length n /\ ~ op_letter (first_letter n);
  gl_nodup : NoDup (atoms L);
  (** no field or function name occurs inside another name *)
  gl_apart : forall a n, In a (atoms L) -> In n (atoms L ++ l_scalars L) -> n <> a -> ~ occurs a n;
  gl_scalar : forall a, In a (atoms L) -> ~ In a (l_scalars L);
  (** no name contains LA *)
  gl_noLA : forall n, In n (atoms L ++ l_scalars L) -> ~ occurs ("LA"%string : str) n;
  (** no constant contains a field name without its last letter *)
  gl_short : forall a n, In a (l_fields L) -> In n (l_scalars L) -> ~ occurs (removelast a) n;
  (** names of registered terms do not contain field names or signs *)
  gl_user : forall u, In u (user_terms L) ->
     bare_name u /\ plain [plus_c; minus_c] u /\ ~ In "="%char u /\ forall a, In a (l_fields L) -> ~ occurs a u
}.

(** ** Terms *)

(** The operator that may stand in front of a field: LAP or LAP^n. *)
Inductive oper := NoOp | OpLap | OpLapPow (ds : list nat).
Definition oper_text (o : oper) : str :=
  match o with
  | NoOp => []
  | OpLap => "LAP"%string
  | OpLapPow ds => ("LAP^"%string : str) ++ map digit_text ds
  end.
Definition oper_power (o : oper) : nat :=
  match o with NoOp => 0 | OpLap => 1 | OpLapPow ds => Z.to_nat (int_value ds) end.
Definition good_oper (o : oper) : Prop :=
  match o with OpLapPow ds => ds <> [] /\ Forall (fun d => d < 10) ds | _ => True end.

Record wfactor := { wf_op : oper; wf_fac : factor }.
Definition wf_name (w : wfactor) : str := fa_name (wf_fac w).
Definition wf_text (w : wfactor) : str := oper_text (wf_op w) ++ factor_text (wf_fac w).

(** A product, as written: constants and fields in any order. *)
Definition product_text (t : list wfactor) : str := join_char star_c (map wf_text t).

(** Alphabetical order. *)
Fixpoint alphabetical (l : list str) : Prop :=
  match l with [] => True | x :: l' => (forall y, In y l' -> str_le x y = true) /\ alphabetical l' end.

(** The products of the supported grammar.  [before], [fs] and [after] are the
    factors in alphabetical order of their text: the fields are neighbours, in
    alphabetical order also without the operator, and the operator stands in
    front of the first of them. *)
Record good_product (L : lang) (t : list wfactor) (before fs after : list wfactor) : Prop := {
  gp_perm : Permutation t (before ++ fs ++ after);
  gp_nonempty : t <> [];
  (** a product of constants only is not supported, see
      C18_constants_only_refuted *)
  gp_field : fs <> [];
  gp_sorted : alphabetical (map wf_text (before ++ fs ++ after));
  gp_sorted_fields : alphabetical (map (fun w => factor_text (wf_fac w)) fs);
  gp_factors : forall w, In w t -> good_factor (wf_fac w);
  gp_scalars : forall w, In w (before ++ after) -> In (wf_name w) (l_scalars L) /\ wf_op w = NoOp;
  gp_op : forall w rest, fs = w :: rest -> good_oper (wf_op w) /\ forall w', In w' rest -> wf_op w' = NoOp;
  gp_distinct : NoDup (map wf_name fs);
  (** either all are fields, with exponents different from 1, or there is one
      registered function without exponent *)
  gp_atoms : (forall w, In w fs -> In (wf_name w) (l_fields L)
                /\ match fa_exp (wf_fac w) with
                   | None => True
                   | Some e => (1 / 10000000000 <= Rabs (expo_value e - 1))%R
                   end)
             \/ (exists w, fs = [w] /\ In (wf_name w) (l_functions L) /\ fa_exp (wf_fac w) = None)
}.

(** An item of the sum: a product or a registered term with operators. *)
Inductive item := IProduct (t : list wfactor) | IUser (os : list op) (name : str).
Definition op_str (o : op) : str := match spelling o with Some p => p | None => [] end.
Definition item_text (it : item) : str :=
  match it with
  | IProduct t => product_text t
  | IUser os name => concat (map op_str os) ++ name
  end.
Definition good_item (L : lang) (it : item) : Prop :=
  match it with
  | IProduct t => (exists before fs after, good_product L t before fs after)
                  /\ ~ In (remove_known_prefixes (product_text t)) (user_terms L)
  | IUser os name => In name (user_terms L) /\ Forall (fun o => spelling o <> None /\ o <> Neg) os
  end.

(** An equation d<field>/dt = sum of signed items. *)
Record eqtext := { q_field : str; q_lead : option ascii; q_first : item; q_more : list (ascii * item) }.
Definition eq_rhs (e : eqtext) : str :=
  render {| lead := q_lead e; term0 := item_text (q_first e);
            more := map (fun si => (fst si, item_text (snd si))) (q_more e) |}.
Definition eq_text (e : eqtext) : str := equation (q_field e) (eq_rhs e).
Definition is_sign (c : ascii) : Prop := c = plus_c \/ c = minus_c.
Definition good_equation (L : lang) (e : eqtext) : Prop :=
  In (q_field e) (l_fields L)
  /\ (forall c, q_lead e = Some c -> is_sign c) /\ good_item L (q_first e)
  /\ Forall (fun si => is_sign (fst si) /\ good_item L (snd si)) (q_more e).
Definition signed_items (e : eqtext) : list (item * option ascii) :=
  (q_first e, q_lead e) :: map (fun si => (snd si, Some (fst si))) (q_more e).

(** ** Meaning *)
Section Meaning.
  Variable L : lang.
  Variable cpow : C -> R -> C.              (* powers *)
  Variable val : str -> nat -> C.           (* values of fields and functions in real space *)
  Variable ft : (nat -> C) -> C.            (* Fourier amplitude at the node considered *)
  Variable scal : str -> C.                 (* values of the constants *)
  Variable implicit explicit linear nonlinear : str -> C.   (* registered terms at the node *)
  Variable freq : list R.                   (* frequency of the node *)
  Variable y : C.                           (* amplitude of the field of the left-hand side *)

  Definition is_scalar_name (n : str) : bool := existsb (fun x => str_eqb x n) (l_scalars L).
  Definition scalar_factors (t : list wfactor) : list factor :=
    map wf_fac (filter (fun w => is_scalar_name (wf_name w)) t).
  Definition field_factors (t : list wfactor) : list factor :=
    map wf_fac (filter (fun w => negb (is_scalar_name (wf_name w))) t).

  (** Amplitude of a product of powers of fields; a single name without
      exponent stands for itself. *)
  Definition amplitude (fs : list factor) : C :=
    match fs with
    | [] => ft (fun _ => C1)
    | [f] => match fa_exp f with
             | None => ft (val (fa_name f))
             | Some _ => ft (fun j => product_value cpow (fun n => val n j) [f])
             end
    | _ => ft (fun j => product_value cpow (fun n => val n j) fs)
    end.

  Fixpoint total_power (t : list wfactor) : nat :=
    match t with [] => 0 | w :: t' => oper_power (wf_op w) + total_power t' end.

  (** The value of a product at the node. *)
  Definition product_meaning (t : list wfactor) : C :=
    Cmul (RtoC (lap_symbol freq ^ total_power t))
         (Cmul (product_value cpow scal (scalar_factors t)) (amplitude (field_factors t))).

  (** The contribution of a registered term, before sign and operators. *)
  Definition user_meaning (name : str) : C :=
    if mem_str name (l_implicit L) then Cmul (implicit name) y
    else if mem_str name (l_explicit L) then explicit name
    else Cadd (nonlinear name) (Cmul (linear name) y).

  Definition item_meaning (it : item) : C :=
    match it with
    | IProduct t => product_meaning t
    | IUser os name => Cmul (RtoC (lap_symbol freq ^ lap_power os)) (user_meaning name)
    end.

  Definition sign_value (d : option ascii) : R :=
    match d with Some c => if Ascii.eqb c minus_c then -1 else 1 | None => 1 end.

  Definition rhs_meaning (e : eqtext) : C :=
    Csum (map (fun p => Cmul (RtoC (sign_value (snd p))) (item_meaning (fst p))) (signed_items e)).
End Meaning.

(** The model as set up by AddField, AddScalar, RegisterFunction and the
    registration of terms, before any equation. *)
Definition start_model (L : lang) : pmodel :=
  {| pm_fields := l_fields L; pm_derived := l_functions L; pm_scalars := l_scalars L;
     pm_implicit := l_implicit L; pm_explicit := l_explicit L; pm_mixed := l_mixed L |}.

(** The bricks hold what their names say (for derived fields: C19). *)
Definition good_bricks (L : lang) (m : pmodel) (cpow : C -> R -> C) (val : str -> nat -> C)
    (ft : (nat -> C) -> C) (scal : str -> C) (brick : str -> C) : Prop :=
  (forall n, In n (l_scalars L) -> brick n = scal n)
  /\ (forall n, In n (atoms L) -> brick n = ft (val n))
  /\ (forall fs, fs <> [] -> Forall (fun f => good_factor f /\ In (fa_name f) (l_fields L)) fs ->
        In (product_of fs) (pm_derived m) ->
        brick (product_of fs) = ft (fun j => product_value cpow (fun n => val n j) fs)).
