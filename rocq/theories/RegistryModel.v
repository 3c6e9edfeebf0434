(** Model of the calls that set up a pf.Model: declaring names, registering
    terms, adding equations and sources, Init and Summarize.  Terms and sources
    are named by numbers.  log.Fatalf is a panic.  The values behind the names
    are the subject of DerivedModel.v (derived fields and bricks) and
    SetupModel.v (the check of implicit terms in Init), the text of the equations
    that of EquationModel.v; here the calls come in any order. *)
From Verif Require Import FileModel CliModel.
From Verif Require Export EquationModel.
Open Scope nat_scope.

(** pf/model.go:315-318 and 366-373: the three kinds of registered terms. *)
Inductive kind := KImplicit | KExplicit | KMixed.

(** A function of the right-hand side of an equation, with the number of the
    registered term it was constructed from.
    An element of RHS.Terms or RHS.Denum (pf/rhsBuilder.go:19-22). *)
Definition entry : Type := built * option nat.

(** pf/model.go:116-127, Model.  A map is a list with the newest entry first. *)
Record mstate := {
  ms_names : pmodel;
  ms_implicit : list (str * nat);
  ms_explicit : list (str * nat);
  ms_mixed : list (str * nat);
  ms_equations : list str;
  ms_sources : list (list nat);
  ms_rhs : list (list entry * list entry)
}.

(** pf/model.go:130-138, NewModel. *)
Definition new_mstate : mstate :=
  {| ms_names := {| pm_fields := []; pm_derived := []; pm_scalars := []; pm_implicit := []; pm_explicit := []; pm_mixed := [] |};
     ms_implicit := []; ms_explicit := []; ms_mixed := []; ms_equations := []; ms_sources := []; ms_rhs := [] |}.

(** The exported methods of pf/model.go:141-262 and 322-419 that build a model. *)
Inductive call :=
| CField (name : str)
| CScalar (name : str)
| CFunction (name : str)
| CTerm (k : kind) (name : str) (t : nat) (derived : list str)
| CEquation (text : str)
| CSource (eq : Z) (s : nat)
| CInit.

(** Record update, auxiliary. *)
Definition with_names (m : mstate) (p : pmodel) : mstate :=
  {| ms_names := p; ms_implicit := ms_implicit m; ms_explicit := ms_explicit m; ms_mixed := ms_mixed m;
     ms_equations := ms_equations m; ms_sources := ms_sources m; ms_rhs := ms_rhs m |}.

(** pf/model.go:480-485, panicOnPrefixInName. *)
Definition checked (name : str) (m : mstate) : res mstate := if name_ok name then Ok m else Panic.

(** pf/model.go:42-56 and 141-144, NewField and AddField. *)
Definition call_field (m : mstate) (name : str) : res mstate :=
  let p := ms_names m in
  checked name (with_names m
    {| pm_fields := pm_fields p ++ [name]; pm_derived := pm_derived p; pm_scalars := pm_scalars p;
       pm_implicit := pm_implicit p; pm_explicit := pm_explicit p; pm_mixed := pm_mixed p |}).

(** pf/model.go:92-98 and 147-149, NewScalar and AddScalar. *)
Definition call_scalar (m : mstate) (name : str) : res mstate :=
  let p := ms_names m in
  checked name (with_names m
    {| pm_fields := pm_fields p; pm_derived := pm_derived p; pm_scalars := pm_scalars p ++ [name];
       pm_implicit := pm_implicit p; pm_explicit := pm_explicit p; pm_mixed := pm_mixed p |}).

(** append to m.DerivedFields (pf/model.go:118), the name only. *)
Definition add_derived (p : pmodel) (name : str) : pmodel :=
  {| pm_fields := pm_fields p; pm_derived := pm_derived p ++ [name]; pm_scalars := pm_scalars p;
     pm_implicit := pm_implicit p; pm_explicit := pm_explicit p; pm_mixed := pm_mixed p |}.

(** pf/model.go:264-269, NumNodes, for fields with [nodes] nodes. *)
Definition num_nodes_of (m : mstate) (nodes : str -> nat) : res nat :=
  match pm_fields (ms_names m) with [] => Panic | f :: _ => Ok (nodes f) end.

(** pf/model.go:400-412, RegisterFunction, with RegisterDerivedField
    (415-418): the length of the first field is read. *)
Definition call_function (m : mstate) (name : str) : res mstate :=
  bind (checked name m) (fun m =>
  match pm_fields (ms_names m) with
  | [] => Panic
  | _ => Ok (with_names m (add_derived (ms_names m) name))
  end).

(** pf/model.go:336-345, registerDerivedFields: the names. *)
Fixpoint register_names (p : pmodel) (ds : list str) : pmodel :=
  match ds with
  | [] => p
  | d :: ds' => register_names (if is_fname p d then p else add_derived p d) ds'
  end.

(** pf/model.go:322-333, registerTerm, and 349-373, RegisterImplicitTerm,
    RegisterExplicitTerm and RegisterMixedTerm. *)
Definition add_term (k : kind) (name : str) (t : nat) (m : mstate) : mstate :=
  let p := ms_names m in
  {| ms_names :=
       {| pm_fields := pm_fields p; pm_derived := pm_derived p; pm_scalars := pm_scalars p;
          pm_implicit := match k with KImplicit => pm_implicit p ++ [name] | _ => pm_implicit p end;
          pm_explicit := match k with KExplicit => pm_explicit p ++ [name] | _ => pm_explicit p end;
          pm_mixed := match k with KMixed => pm_mixed p ++ [name] | _ => pm_mixed p end |};
     ms_implicit := match k with KImplicit => (name, t) :: ms_implicit m | _ => ms_implicit m end;
     ms_explicit := match k with KExplicit => (name, t) :: ms_explicit m | _ => ms_explicit m end;
     ms_mixed := match k with KMixed => (name, t) :: ms_mixed m | _ => ms_mixed m end;
     ms_equations := ms_equations m; ms_sources := ms_sources m; ms_rhs := ms_rhs m |}.
Definition call_term (m : mstate) (k : kind) (name : str) (t : nat) (ds : list str) : res mstate :=
  bind (checked name m) (fun m =>
  let m1 := add_term k name t m in Ok (with_names m1 (register_names (ms_names m1) ds))).

(** pf/model.go:376-397, IsImplicitTerm, IsExplicitTerm, IsMixedTerm and
    IsUserDefinedTerm: the keys of the maps ([pm_implicit] and so on list the
    same keys, see [is_user_term] in EquationModel.v). *)
Fixpoint find_term (l : list (str * nat)) (name : str) : option nat :=
  match l with [] => None | (n, t) :: l' => if str_eqb n name then Some t else find_term l' name end.
Definition is_kind (m : mstate) (k : kind) (name : str) : bool :=
  match find_term (match k with KImplicit => ms_implicit m | KExplicit => ms_explicit m | KMixed => ms_mixed m end) name with
  | Some _ => true | None => false
  end.

(** pf/model.go:157-162, AddEquation. *)
Definition call_equation (m : mstate) (text : str) : res mstate :=
  bind (add_equation (ms_names m) text) (fun p =>
  Ok {| ms_names := p; ms_implicit := ms_implicit m; ms_explicit := ms_explicit m; ms_mixed := ms_mixed m;
        ms_equations := ms_equations m ++ [strip_spaces text];
        ms_sources := ms_sources m ++ [[]]; ms_rhs := ms_rhs m |}).

(** pf/model.go:152-154, AddSource. *)
Fixpoint append_at (i : nat) (s : nat) (l : list (list nat)) : option (list (list nat)) :=
  match l, i with
  | [], _ => None
  | x :: l', O => Some ((x ++ [s]) :: l')
  | x :: l', S i' => match append_at i' s l' with Some r => Some (x :: r) | None => None end
  end.
Definition call_source (m : mstate) (eq : Z) (s : nat) : res mstate :=
  if (eq <? 0)%Z then Panic
  else match append_at (Z.to_nat eq) s (ms_sources m) with
       | None => Panic
       | Some l => Ok {| ms_names := ms_names m; ms_implicit := ms_implicit m; ms_explicit := ms_explicit m;
                         ms_mixed := ms_mixed m; ms_equations := ms_equations m; ms_sources := l; ms_rhs := ms_rhs m |}
       end.

(** pf/rhsBuilder.go:38-45: the term a built function is constructed from. *)
Definition resolve (m : mstate) (b : built) : entry :=
  (b, match b with
      | BTerm _ => None
      | BImplicit n _ => find_term (ms_implicit m) n
      | BExplicit n _ => find_term (ms_explicit m) n
      | BLinear n _ => find_term (ms_mixed m) n
      | BNonLinear n _ => find_term (ms_mixed m) n
      end).
Fixpoint build_all (m : mstate) (eqs : list str) : res (list (list entry * list entry)) :=
  match eqs with
  | [] => Ok []
  | e :: eqs' =>
      bind (build (ms_names m) e) (fun td =>
      bind (build_all m eqs') (fun r => Ok ((map (resolve m) (fst td), map (resolve m) (snd td)) :: r)))
  end.

(** pf/model.go:244-260, Init, without the update of the derived fields
    (DerivedModel.v) and the check of the implicit terms (SetupModel.v). *)
Definition call_init (m : mstate) : res mstate :=
  bind (build_all m (ms_equations m)) (fun r =>
  Ok {| ms_names := ms_names m; ms_implicit := ms_implicit m; ms_explicit := ms_explicit m; ms_mixed := ms_mixed m;
        ms_equations := ms_equations m; ms_sources := ms_sources m; ms_rhs := r |}).

(** One such call. *)
Definition run_call (m : mstate) (c : call) : res mstate :=
  match c with
  | CField n => call_field m n
  | CScalar n => call_scalar m n
  | CFunction n => call_function m n
  | CTerm k n t ds => call_term m k n t ds
  | CEquation text => call_equation m text
  | CSource eq s => call_source m eq s
  | CInit => call_init m
  end.
(** Not in the source: calls one after the other; a panic ends them. *)
Fixpoint run_calls (m : mstate) (cs : list call) : res mstate :=
  match cs with [] => Ok m | c :: cs' => bind (run_call m c) (fun m' => run_calls m' cs') end.

(** pf/model.go:283-294 and 310-313: the value of an entry at one node; [pure],
    [lin] and [nonlin] are the values of the functions returned by Construct,
    ConstructLinear and ConstructNonLinear of each registered term. *)
Section EntryValue.
  Variable cpow : C -> R -> C.
  Variable brick : str -> C.
  Variable pure lin nonlin : nat -> C.
  Variable freq : list R.
  Definition eval_entry (e : entry) : C :=
    let of (v : nat -> C) (_ : str) := match snd e with Some t => v t | None => C0 end in
    eval_built cpow brick (of pure) (of pure) (of lin) (of nonlin) freq (fst e).
End EntryValue.

(** pf/model.go:421-438, Summarize: the line of each equation; None stands for
    the notice that the model is not initialised. *)
Definition summary_line (i : nat) (text : str) (ne ni : nat) : str :=
  lit "| " ++ pad_left 2 (dec (Z.of_nat i)) ++ lit " | " ++ pad_right 70 text ++ lit " | "
  ++ pad_left 2 (dec (Z.of_nat ne)) ++ lit " | " ++ pad_left 2 (dec (Z.of_nat ni)) ++ lit " |".
Fixpoint summary_lines (i : nat) (eqs : list str) (rhs : list (list entry * list entry)) : list str :=
  match eqs, rhs with
  | e :: eqs', (t, d) :: rhs' => summary_line i e (length t) (length d) :: summary_lines (S i) eqs' rhs'
  | _, _ => []
  end.
Definition summarize (m : mstate) : option (list str) :=
  if Nat.eqb (length (ms_rhs m)) (length (ms_equations m)) then Some (summary_lines 0 (ms_equations m) (ms_rhs m)) else None.
