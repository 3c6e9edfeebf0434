(** Model of a simulation of a declared model: what the steppers of StepModel.v
    evaluate when the model was set up by the calls of RegistryModel.v.  A
    brick is found under its name; that the pointers behind the table of bricks
    do this when no term brings several derived fields is C19. *)
From Verif Require Import FileModel.
From Verif Require Export RegistryModel StepModel.
Open Scope nat_scope.

(** What the user supplies besides texts and names: cmplx.Pow with a real
    exponent, the values of the constants, the calculators of the registered
    functions (pf/model.go:64-68 and 400-412; simplified: they read the fields,
    not other derived fields), the functions returned by Construct,
    ConstructLinear and ConstructNonLinear of the registered terms
    (pf/model.go:11-38) and by the sources (pf/sourceTerm.go:24-29). *)
Record library := {
  lb_pow : C -> R -> C;
  lb_scalar : str -> C;
  lb_calc : str -> option (list data -> data);
  lb_pure : nat -> env -> R -> data;
  lb_linear : nat -> env -> R -> data;
  lb_nonlinear : nat -> env -> R -> data;
  lb_source : nat -> R -> data
}.

(** Look-up in the map m.Bricks (pf/model.go:119) filled in this order: the newest entry. *)
Fixpoint last_index (l : list str) (n : str) : option nat :=
  match l with
  | [] => None
  | x :: l' => match last_index l' n with
               | Some i => Some (S i)
               | None => if str_eqb x n then Some 0 else None
               end
  end.

(** pf/model.go:23-25, 71-73 and 106-108, the Get methods of the bricks, through
    the map of bricks (pf/model.go:119).  Names are not shared between
    fields, derived fields and constants here. *)
Definition brick_at (lib : library) (p : pmodel) (e : env) (k : nat) (name : str) : C :=
  match last_index (pm_derived p) name with
  | Some i => nth k (nth i (e_derived e) []) C0
  | None => match last_index (pm_fields p) name with
            | Some i => nth k (nth i (e_fields e) []) C0
            | None => lb_scalar lib name
            end
  end.

(** The calculator of a derived field: the one of a registered function, or the
    product of powers of fields its name spells (pf/util.go:38-66,
    DerivedFieldCalcFromDesc; a name that is not a field ends the program,
    which C19 excludes). *)
Definition calc_of (n : nat) (lib : library) (p : pmodel) (name : str) (e : env) : data :=
  match lb_calc lib name with
  | Some c => c (e_fields e)
  | None =>
      let table := combine (pm_fields p) (map (fun d j => nth j d C0) (e_fields e)) in
      map (fun j => match derived_calc (lb_pow lib) name table j with Some v => v | None => C0 end) (seq 0 n)
  end.

(** pf/model.go:283-294 and 310-313: one function of a right-hand side; every
    node of the slice is overwritten. *)
Definition entry_term (n : nat) (ft : transform) (lib : library) (p : pmodel) (en : entry) : term := fun e t _ =>
  map (fun k => eval_entry (lb_pow lib) (brick_at lib p e k)
                  (fun s => nth k (lb_pure lib s e t) C0) (fun s => nth k (lb_linear lib s e t) C0)
                  (fun s => nth k (lb_nonlinear lib s e t) C0) (tfreq ft k) en) (seq 0 n).

(** m.RHS and m.RHSModifier (pf/model.go:116-127) side by side. *)
Fixpoint equations_with (ts : list (list entry * list entry)) (ss : list (list nat)) (f : entry -> term) (g : nat -> source) : list eqn :=
  match ts with
  | [] => []
  | (t, d) :: ts' => {| q_terms := map f t; q_denum := map f d; q_sources := map g (hd [] ss) |} :: equations_with ts' (tl ss) f g
  end.

(** pf/model.go:116-127 after Init (244-260): equation number i belongs to
    field number i. *)
Definition simulation (n : nat) (ft : transform) (lib : library) (m : mstate) : pde :=
  {| p_calc := map (calc_of n lib (ms_names m)) (pm_derived (ms_names m));
     p_eqns := equations_with (ms_rhs m) (ms_sources m) (entry_term n ft lib (ms_names m)) (fun s t _ => lb_source lib s t);
     p_mods := [] |}.
