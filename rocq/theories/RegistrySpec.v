(** Vocabulary for the statements about setting up a model by calls. *)
From Verif Require Export EquationSpec RegistryModel.
Open Scope nat_scope.

(** What the calls declare, in the order of the calls. *)
Definition fields_of (cs : list call) : list str := flat_map (fun c => match c with CField n => [n] | _ => [] end) cs.
Definition scalars_of (cs : list call) : list str := flat_map (fun c => match c with CScalar n => [n] | _ => [] end) cs.
Definition functions_of (cs : list call) : list str :=
  flat_map (fun c => match c with CFunction n => [n] | CTerm _ _ _ ds => ds | _ => [] end) cs.
Definition equations_of (cs : list call) : list str := flat_map (fun c => match c with CEquation e => [e] | _ => [] end) cs.
Definition terms_of (k : kind) (cs : list call) : list str :=
  flat_map (fun c => match c with
                     | CTerm KImplicit n _ _ => match k with KImplicit => [n] | _ => [] end
                     | CTerm KExplicit n _ _ => match k with KExplicit => [n] | _ => [] end
                     | CTerm KMixed n _ _ => match k with KMixed => [n] | _ => [] end
                     | _ => []
                     end) cs.
(** The sources added to equation [i]. *)
Definition sources_of (i : nat) (cs : list call) : list nat :=
  flat_map (fun c => match c with CSource e s => if (e =? Z.of_nat i)%Z then [s] else [] | _ => [] end) cs.

(** The names declared by the calls are those of the language [L]. *)
Definition declares (cs : list call) (L : lang) : Prop :=
  l_fields L = fields_of cs
  /\ forall n, (In n (l_scalars L) <-> In n (scalars_of cs)) /\ (In n (l_functions L) <-> In n (functions_of cs))
     /\ (In n (l_implicit L) <-> In n (terms_of KImplicit cs)) /\ (In n (l_explicit L) <-> In n (terms_of KExplicit cs))
     /\ (In n (l_mixed L) <-> In n (terms_of KMixed cs)).

(** Fields are declared before the calls that use them: the first equation and
    the first function. *)
Definition is_field_call (c : call) : Prop := match c with CField _ => True | _ => False end.
Definition needs_fields (c : call) : Prop := match c with CFunction _ | CEquation _ => True | _ => False end.
Definition fields_first (cs : list call) : Prop :=
  exists a b, cs = a ++ b /\ (forall c, In c a -> ~ needs_fields c) /\ (forall c, In c b -> ~ is_field_call c) /\ fields_of a <> [].

(** A source is added to an equation that was added before. *)
Definition sources_in_range (cs : list call) : Prop := forall before after eq s,
  cs = before ++ CSource eq s :: after -> (0 <= eq < Z.of_nat (length (equations_of before)))%Z.

(** Term [t] is the last one registered under this name and kind. *)
Definition registered (cs : list call) (k : kind) (name : str) (t : nat) : Prop :=
  exists before after ds, cs = before ++ CTerm k name t ds :: after /\ forall t' ds', ~ In (CTerm k name t' ds') after.

(** A line of a printed table with these texts in its columns. *)
Fixpoint row_of (cells : list str) (line : str) : Prop :=
  match cells with
  | [] => line = lit "|"
  | c :: cells' => exists i j rest, line = lit "|" ++ repeat " "%char i ++ c ++ repeat " "%char j ++ rest /\ row_of cells' rest
  end.
