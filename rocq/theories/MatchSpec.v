(** Vocabulary for the statements about simulations that are written
    differently but say the same. *)
From Verif Require Import FileModel.
From Verif Require Export SimSpec.
Open Scope nat_scope.

(** [rel i j]: field number [i] of the first simulation corresponds to field
    number [j] of the second. *)
Definition agree (rel : nat -> nat -> Prop) (fs fs' : list data) : Prop := forall i j, rel i j -> nth_error fs i = nth_error fs' j.

(** The kind under which a registered term is found. *)
Definition kind_of (L : lang) (name : str) : kind :=
  if mem_str name (l_implicit L) then KImplicit else if mem_str name (l_explicit L) then KExplicit else KMixed.

Section Match.
  Variable rel : nat -> nat -> Prop.
  Variables (L : lang) (cs : list call) (lib : library).
  Variables (L' : lang) (cs' : list call) (lib' : library).

  (** Two names stand for the same: for corresponding fields, or for functions
      that calculate the same from corresponding fields. *)
  Definition same_field (x x' : str) : Prop :=
    exists i j, rel i j /\ nth_error (l_fields L) i = Some x /\ nth_error (l_fields L') j = Some x'.
  Definition same_function (x x' : str) : Prop :=
    In x (l_functions L) /\ In x' (l_functions L') /\
    forall c c', lb_calc lib x = Some c -> lb_calc lib' x' = Some c' ->
    forall fs fs', length fs = length (l_fields L) -> length fs' = length (l_fields L') -> agree rel fs fs' -> c fs = c' fs'.
  Definition same_factor (f f' : factor) : Prop :=
    (same_field (fa_name f) (fa_name f') \/ same_function (fa_name f) (fa_name f'))
    /\ option_map expo_value (fa_exp f) = option_map expo_value (fa_exp f').

  (** Products with the same sign and constants together, the same Laplacians
      and the same fields in some order; registered terms with the same sign,
      operators and kind that do the same with corresponding fields. *)
  Definition same_term (p p' : item * option ascii) : Prop :=
    match fst p, fst p' with
    | IProduct t, IProduct t' =>
        Cmul (RtoC (sign_value (snd p))) (product_value (lb_pow lib) (lb_scalar lib) (scalar_factors L t))
        = Cmul (RtoC (sign_value (snd p'))) (product_value (lb_pow lib') (lb_scalar lib') (scalar_factors L' t'))
        /\ total_power t = total_power t'
        /\ exists fs, Permutation.Permutation (field_factors L' t') fs /\ Forall2 same_factor (field_factors L t) fs
    | IUser os x, IUser os' x' =>
        sign_value (snd p) = sign_value (snd p') /\ lap_power os = lap_power os' /\ kind_of L x = kind_of L' x'
        /\ forall s s', registered cs (kind_of L x) x s -> registered cs' (kind_of L' x') x' s' ->
           forall E E' t, length (e_fields E) = length (l_fields L) -> length (e_fields E') = length (l_fields L') -> agree rel (e_fields E) (e_fields E') ->
           match kind_of L x with
           | KMixed => lb_linear lib s E t = lb_linear lib' s' E' t /\ lb_nonlinear lib s E t = lb_nonlinear lib' s' E' t
           | _ => lb_pure lib s E t = lb_pure lib' s' E' t
           end
    | _, _ => False
    end.

  (** The same terms in some order. *)
  Definition same_equation (q q' : eqtext) : Prop :=
    exists l, Permutation.Permutation (signed_items q') l /\ Forall2 same_term (signed_items q) l.
End Match.

(** Corresponding fields have the same equations and sources. *)
Record corresponds (rel : nat -> nat -> Prop) (L : lang) (cs : list call) (es : list eqtext) (lib : library)
    (L' : lang) (cs' : list call) (es' : list eqtext) (lib' : library) : Prop := {
  co_range : forall i j, rel i j -> i < length (l_fields L) /\ j < length (l_fields L');
  co_function : forall i j j', rel i j -> rel i j' -> j = j';
  co_injective : forall i i' j, rel i j -> rel i' j -> i = i';
  co_pow : forall z x, lb_pow lib z x = lb_pow lib' z x;
  co_equation : forall i j q q', rel i j -> nth_error es i = Some q -> nth_error es' j = Some q' -> same_equation rel L cs lib L' cs' lib' q q';
  co_source : forall i j t k, rel i j -> source_sum cs lib t i k = source_sum cs' lib' t j k
}.

(** Corresponding fields come in the same order. *)
Definition keeps_order (rel : nat -> nat -> Prop) : Prop := forall i i' j j', rel i j -> rel i' j' -> i < i' -> j < j'.

(** The fields with these numbers, in one and the same simulation. *)
Definition within (S : nat -> Prop) : nat -> nat -> Prop := fun i j => i = j /\ S i.

(** The equation mentions only fields with numbers in [S], and functions and
    registered terms that depend only on these. *)
Definition mentions_only (S : nat -> Prop) (L : lang) (cs : list call) (lib : library) (q : eqtext) : Prop :=
  forall it d, In (it, d) (signed_items q) ->
  match it with
  | IProduct t => forall f, In f (field_factors L t) ->
      (exists i, S i /\ nth_error (l_fields L) i = Some (fa_name f))
      \/ (In (fa_name f) (l_functions L) /\ forall c, lb_calc lib (fa_name f) = Some c ->
          forall fs fs', length fs = length (l_fields L) -> length fs' = length (l_fields L) -> agree (within S) fs fs' -> c fs = c fs')
  | IUser _ x => forall s, registered cs (kind_of L x) x s ->
      forall E E' t, length (e_fields E) = length (l_fields L) -> length (e_fields E') = length (l_fields L) -> agree (within S) (e_fields E) (e_fields E') ->
      lb_pure lib s E t = lb_pure lib s E' t /\ lb_linear lib s E t = lb_linear lib s E' t /\ lb_nonlinear lib s E t = lb_nonlinear lib s E' t
  end.
Definition closed_set (S : nat -> Prop) (L : lang) (cs : list call) (es : list eqtext) (lib : library) : Prop :=
  (forall i, S i -> i < length (l_fields L)) /\ forall i q, S i -> nth_error es i = Some q -> mentions_only S L cs lib q.

(** Another name for every field, function, constant and registered term. *)
Definition rename_factor (f : str -> str) (a : factor) : factor := {| fa_name := f (fa_name a); fa_exp := fa_exp a |}.
Definition rename_item (f : str -> str) (it : item) : item :=
  match it with
  | IProduct t => IProduct (map (fun w => {| wf_op := wf_op w; wf_fac := rename_factor f (wf_fac w) |}) t)
  | IUser os x => IUser os (f x)
  end.
Definition rename_equation (f : str -> str) (q : eqtext) : eqtext :=
  {| q_field := f (q_field q); q_lead := q_lead q; q_first := rename_item f (q_first q);
     q_more := map (fun si => (fst si, rename_item f (snd si))) (q_more q) |}.

(** The second simulation is the first one with other names. *)
Record renamed (f : str -> str) (L : lang) (cs : list call) (es : list eqtext) (lib : library)
    (L' : lang) (cs' : list call) (es' : list eqtext) (lib' : library) : Prop := {
  rn_fields : l_fields L' = map f (l_fields L);
  rn_equations : es' = map (rename_equation f) es;
  rn_scalar : forall x, In x (atoms L ++ l_scalars L) -> (In x (l_scalars L) <-> In (f x) (l_scalars L'));
  rn_function : forall x, In x (l_functions L) -> In (f x) (l_functions L') /\ forall c c', lb_calc lib x = Some c -> lb_calc lib' (f x) = Some c' -> forall fs, c fs = c' fs;
  rn_value : forall x, In x (l_scalars L) -> lb_scalar lib x = lb_scalar lib' (f x);
  rn_pow : forall z x, lb_pow lib z x = lb_pow lib' z x;
  rn_kind : forall x, In x (user_terms L) -> kind_of L x = kind_of L' (f x);
  rn_term : forall k x s s', registered cs k x s -> registered cs' k (f x) s' -> forall E E' t, e_fields E = e_fields E' ->
    lb_pure lib s E t = lb_pure lib' s' E' t /\ lb_linear lib s E t = lb_linear lib' s' E' t /\ lb_nonlinear lib s E t = lb_nonlinear lib' s' E' t;
  rn_source : forall i t k, source_sum cs lib t i k = source_sum cs' lib' t i k
}.
