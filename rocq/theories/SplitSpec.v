(** Vocabulary for the statements about which terms of an equation are treated
    implicitly, and about models that are written differently. *)
From Verif Require Import FileModel.
From Verif Require Export SimSpec.
Open Scope nat_scope.

(** The product is linear in [field] and contains no other field. *)
Definition linear_in (L : lang) (field : str) (t : list wfactor) : bool :=
  match field_factors L t with
  | [f] => match fa_exp f with None => str_eqb (fa_name f) field | Some _ => false end
  | _ => false
  end.

Section Parts.
  Variable L : lang.
  Variable cpow : C -> R -> C.
  Variable scal : str -> C.
  Variable implicit explicit linear nonlinear : str -> C.   (* registered terms at the node *)
  Variable freq : list R.
  Variable amp : list wfactor -> C.         (* amplitude of the fields of a product *)
  Variable field : str.                     (* left-hand side *)

  Definition coefficient (t : list wfactor) : C :=
    Cmul (RtoC (lap_symbol freq ^ total_power t)) (product_value cpow scal (scalar_factors L t)).

  (** What an item contributes to the coefficient of the field of the left-hand
      side in the implicit part ... *)
  Definition implicit_item (it : item) : C :=
    match it with
    | IProduct t => if linear_in L field t then coefficient t else C0
    | IUser os name =>
        Cmul (RtoC (lap_symbol freq ^ lap_power os))
             (if mem_str name (l_implicit L) then implicit name else if mem_str name (l_explicit L) then C0 else linear name)
    end.
  (** ... and to the explicit part. *)
  Definition explicit_item (it : item) : C :=
    match it with
    | IProduct t => if linear_in L field t then C0 else Cmul (coefficient t) (amp t)
    | IUser os name =>
        Cmul (RtoC (lap_symbol freq ^ lap_power os))
             (if mem_str name (l_implicit L) then C0 else if mem_str name (l_explicit L) then explicit name else nonlinear name)
    end.
  Definition sum_signed (f : item -> C) (l : list (item * option ascii)) : C :=
    Csum (map (fun p => Cmul (RtoC (sign_value (snd p))) (f (fst p))) l).
End Parts.

(** The amplitude of the fields of a product when a name alone has the amplitude
    [lone name] and powers and products are formed in real space. *)
Definition shown_amplitude (L : lang) (cpow : C -> R -> C) (val : str -> nat -> C) (ft : (nat -> C) -> C) (lone : str -> C) (t : list wfactor) : C :=
  match field_factors L t with
  | [f] => match fa_exp f with None => lone (fa_name f) | Some _ => amplitude cpow val ft [f] end
  | fs => amplitude cpow val ft fs
  end.

(** [X] is the explicit part and [A] the coefficient of the implicit part of
    equation [q] at node [k] as written, when products and powers are formed
    from the real values [fields] and a field that stands alone has the
    amplitudes in [seen]; [E] is what registered terms see. *)
Definition split_written (L : lang) (cs : list call) (n : nat) (ft : transform) (lib : library) (fields seen : list data) (E : env) (t : R)
    (q : eqtext) (k : nat) (X A : C) : Prop :=
  exists val lone implicit explicit linear nonlinear, values L lib fields val
  /\ (forall j name d, nth_error (l_fields L) j = Some name -> nth_error seen j = Some d -> lone name = nth k d C0)
  /\ (forall name, In name (l_functions L) -> lone name = amplitude_at n ft k (val name))
  /\ (forall name s, registered cs KImplicit name s -> implicit name = nth k (lb_pure lib s E t) C0)
  /\ (forall name s, registered cs KExplicit name s -> explicit name = nth k (lb_pure lib s E t) C0)
  /\ (forall name s, registered cs KMixed name s ->
        linear name = nth k (lb_linear lib s E t) C0 /\ nonlinear name = nth k (lb_nonlinear lib s E t) C0)
  /\ X = sum_signed (explicit_item L (lb_pow lib) (lb_scalar lib) explicit nonlinear (tfreq ft k)
           (shown_amplitude L (lb_pow lib) val (amplitude_at n ft k) lone) (q_field q)) (signed_items q)
  /\ A = sum_signed (implicit_item L (lb_pow lib) (lb_scalar lib) implicit linear (tfreq ft k) (q_field q)) (signed_items q).
