(** Vocabulary for the statements about real fields staying real. *)
From Verif Require Export DftSpec.
Open Scope R_scope.

(** The amplitude at ConjugateNode(k) is the conjugate of the amplitude at k. *)
Definition hermitian (dom : list Z) (X : data) : Prop :=
  forall k m, (k < nodes dom)%nat -> conjugate_node dom (Z.of_nat k) = Some m ->
  nth (Z.to_nat m) X C0 = Cconj (nth k X C0).

(** All fields have one value per node and are real. *)
Definition real_fields (dom : list Z) (fs : list data) : Prop :=
  Forall (fun d => length d = nodes dom /\ real_field d) fs.
Definition hermitian_fields (dom : list Z) (fs : list data) : Prop :=
  Forall (fun d => length d = nodes dom /\ hermitian dom d) fs.

(** [nf] fields and [nd] derived fields. *)
Definition sized (nf nd : nat) (e : env) : Prop := length (e_fields e) = nf /\ length (e_derived e) = nd.

(** A term of a model with [nf] fields and [nd] derived fields that, given
    amplitudes of real fields, fills its slice with amplitudes of a real field. *)
Definition real_term (dom : list Z) (nf nd : nat) (f : term) : Prop :=
  forall e t tmp, sized nf nd e -> hermitian_fields dom (e_fields e) -> hermitian_fields dom (e_derived e) ->
    length tmp = nodes dom -> hermitian dom tmp ->
    length (f e t tmp) = nodes dom /\ hermitian dom (f e t tmp).

(** A model whose ingredients are real: the [i]-th derived field is real when
    the fields and the derived fields before it are. *)
Record real_model (dom : list Z) (nf : nat) (p : pde) : Prop := {
  rm_calc : forall i c e, nth_error (p_calc p) i = Some c -> sized nf (length (p_calc p)) e -> real_fields dom (e_fields e) ->
    real_fields dom (firstn i (e_derived e)) -> length (c e) = nodes dom /\ real_field (c e);
  rm_terms : forall q f, In q (p_eqns p) -> In f (q_terms q) \/ In f (q_denum q) -> real_term dom nf (length (p_calc p)) f;
  rm_sources : forall q s t tmp, In q (p_eqns p) -> In s (q_sources q) -> length tmp = nodes dom ->
    hermitian dom tmp -> length (s t tmp) = nodes dom /\ hermitian dom (s t tmp);
  rm_mods : forall m d, In m (p_mods p) -> length d = nodes dom -> hermitian dom d ->
    length (snd m d) = nodes dom /\ hermitian dom (snd m d)
}.
