(** Model of the registration of derived fields and of the pointers kept in
    the table of bricks.  A slice is named by a number; [slices] gives its
    contents.  A cell is a variable holding a field value (name and slice); a
    brick is a pointer to a cell. *)
From Verif Require Export TermModel.
Open Scope nat_scope.

(** Contents of the slices Field.Data (pf/model.go:17-20): slice, then node. *)
Definition memory := nat -> nat -> C.

(** pf/model.go:64-68, DerivedField.  [df_calc mem i] is the value Calc writes
    at node [i] when the slices hold [mem]. *)
Record dfield := { df_name : str; df_slice : nat; df_calc : memory -> nat -> C }.

(** pf/model.go:116-127, the parts of Model that concern fields. *)
Record dmodel := {
  dm_fields : list (str * nat);         (* pf/model.go:117 *)
  dm_derived : list dfield;             (* pf/model.go:118 *)
  dm_bricks : list (str * nat);         (* pf/model.go:119, newest binding first *)
  dm_cells : nat -> str * nat;          (* the variables bricks point to *)
  dm_next : nat                         (* next unused cell *)
}.

(** pf/model.go:130-138, NewModel. *)
Definition new_dmodel : dmodel :=
  {| dm_fields := []; dm_derived := []; dm_bricks := []; dm_cells := fun _ => ([], 0); dm_next := 0 |}.

(** Assignment to a variable of type Field (pf/model.go:17). *)
Definition set_cell (cells : nat -> str * nat) (c : nat) (v : str * nat) : nat -> str * nat :=
  fun c' => if Nat.eqb c' c then v else cells c'.

(** pf/model.go:211-224, IsFieldName. *)
Definition is_field_name (m : dmodel) (name : str) : bool :=
  existsb (fun f => str_eqb (fst f) name) (dm_fields m)
  || existsb (fun d => str_eqb (df_name d) name) (dm_derived m).

(** pf/model.go:141-144, AddField: the parameter is a fresh variable. *)
Definition add_field (m : dmodel) (name : str) (slice : nat) : dmodel :=
  {| dm_fields := dm_fields m ++ [(name, slice)];
     dm_derived := dm_derived m;
     dm_bricks := (name, dm_next m) :: dm_bricks m;
     dm_cells := set_cell (dm_cells m) (dm_next m) (name, slice);
     dm_next := S (dm_next m) |}.

(** pf/model.go:415-418, RegisterDerivedField (used by RegisterFunction,
    400-412): the parameter is a fresh variable. *)
Definition register_derived (m : dmodel) (d : dfield) : dmodel :=
  {| dm_fields := dm_fields m;
     dm_derived := dm_derived m ++ [d];
     dm_bricks := (df_name d, dm_next m) :: dm_bricks m;
     dm_cells := set_cell (dm_cells m) (dm_next m) (df_name d, df_slice d);
     dm_next := S (dm_next m) |}.

(** pf/model.go:338-343: the loop body.  The loop variable [c] is one variable
    for the whole loop (go.mod declares Go 1.13). *)
Fixpoint derived_loop (c : nat) (m : dmodel) (ds : list dfield) : dmodel :=
  match ds with
  | [] => m
  | d :: ds' =>
      let m1 := {| dm_fields := dm_fields m; dm_derived := dm_derived m; dm_bricks := dm_bricks m;
                   dm_cells := set_cell (dm_cells m) c (df_name d, df_slice d);
                   dm_next := dm_next m |} in
      derived_loop c
        (if is_field_name m1 (df_name d) then m1
         else {| dm_fields := dm_fields m1;
                 dm_derived := dm_derived m1 ++ [d];
                 dm_bricks := (df_name d, c) :: dm_bricks m1;
                 dm_cells := dm_cells m1;
                 dm_next := dm_next m1 |}) ds'
  end.

(** pf/model.go:336-345, registerDerivedFields. *)
Definition register_derived_fields (m : dmodel) (ds : list dfield) : dmodel :=
  derived_loop (dm_next m)
    {| dm_fields := dm_fields m; dm_derived := dm_derived m; dm_bricks := dm_bricks m;
       dm_cells := dm_cells m; dm_next := S (dm_next m) |} ds.

(** pf/model.go:178-194: the derived fields an equation needs; the variable
    dField is declared inside the loop. *)
Fixpoint update_derived (m : dmodel) (ds : list dfield) : dmodel :=
  match ds with
  | [] => m
  | d :: ds' => update_derived (if is_field_name m (df_name d) then m else register_derived m d) ds'
  end.

(** The methods of pf/model.go:141-189 and 336-419 that register fields. *)
Inductive reg :=
| RField (name : str) (slice : nat)          (* AddField *)
| RDerived (d : dfield)                      (* RegisterDerivedField, RegisterFunction *)
| RTerm (ds : list dfield)                   (* Register*Term(name, term, ds) *)
| REquation (ds : list dfield).              (* AddEquation *)

(** One such call. *)
Definition run_reg (m : dmodel) (r : reg) : dmodel :=
  match r with
  | RField n s => add_field m n s
  | RDerived d => register_derived m d
  | RTerm ds => register_derived_fields m ds
  | REquation ds => update_derived m ds
  end.
(** Not in the source: calls one after the other. *)
Fixpoint run_regs (m : dmodel) (rs : list reg) : dmodel :=
  match rs with [] => m | r :: rs' => run_regs (run_reg m r) rs' end.

(** Map lookup.
    Look-up in m.Bricks (pf/model.go:119). *)
Fixpoint lookup (l : list (str * nat)) (name : str) : option nat :=
  match l with
  | [] => None
  | (n, c) :: l' => if str_eqb n name then Some c else lookup l' name
  end.

(** m.Bricks[name].Get(i): follow the pointer, index the slice
    (pf/model.go:23-25, 71-73). *)
Definition brick_slice (m : dmodel) (name : str) : option nat :=
  match lookup (dm_bricks m) name with Some c => Some (snd (dm_cells m c)) | None => None end.
Definition brick_get (m : dmodel) (mem : memory) (name : str) (i : nat) : option C :=
  match brick_slice m name with Some s => Some (mem s i) | None => None end.

(** pf/model.go:237-241, SyncDerivedFields (Update: 76-78). *)
Definition set_slice (mem : memory) (s : nat) (v : nat -> C) : memory :=
  fun s' => if Nat.eqb s' s then v else mem s'.
Fixpoint sync_loop (ds : list dfield) (mem : memory) : memory :=
  match ds with
  | [] => mem
  | d :: ds' => sync_loop ds' (set_slice mem (df_slice d) (df_calc d mem))
  end.
Definition sync_derived (m : dmodel) (mem : memory) : memory := sync_loop (dm_derived m) mem.
