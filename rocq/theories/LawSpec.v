(** Vocabulary for the statements about conserved amounts. *)
From Verif Require Import FileModel.
From Verif Require Export SplitSpec.
Open Scope nat_scope.

(** The items of an equation that change the total of its field are the
    products without Laplacian. *)
Definition rate_item (L : lang) (cpow : C -> R -> C) (scal : str -> C) (val : str -> nat -> C) (sum : (nat -> C) -> C) (it : item) : C :=
  match it with
  | IProduct t =>
      if total_power t =? 0 then Cmul (product_value cpow scal (scalar_factors L t)) (amplitude cpow val sum (field_factors L t)) else C0
  | IUser _ _ => C0
  end.

(** The rate at which the total of the field of equation [q] changes when fields
    and functions have the values [val]; [sum] adds the values at all nodes. *)
Definition rate (L : lang) (cpow : C -> R -> C) (scal : str -> C) (val : str -> nat -> C) (sum : (nat -> C) -> C) (q : eqtext) : C :=
  sum_signed (rate_item L cpow scal val sum) (signed_items q).

Definition sum_nodes (n : nat) (x : nat -> C) : C := Csum (map x (seq 0 n)).

(** No product without Laplacian is linear in the field of the left-hand side,
    and registered terms carry a Laplacian. *)
Definition not_implicit (L : lang) (q : eqtext) : Prop :=
  Forall (fun x => match fst x with
                   | IProduct t => 0 < total_power t \/ linear_in L (q_field q) t = false
                   | IUser os _ => 0 < lap_power os
                   end) (signed_items q).

(** The product consists of one field, apart from constants. *)
Definition lone_field (L : lang) (t : list wfactor) : bool :=
  match field_factors L t with
  | [f] => match fa_exp f with None => mem_str (fa_name f) (l_fields L) | Some _ => false end
  | _ => false
  end.

(** No product without Laplacian consists of one field, and registered terms
    carry a Laplacian. *)
Definition no_lone_field (L : lang) (q : eqtext) : Prop :=
  Forall (fun x => match fst x with
                   | IProduct t => 0 < total_power t \/ lone_field L t = false
                   | IUser os _ => 0 < lap_power os
                   end) (signed_items q).

(** A weighted sum over some of the fields. *)
Definition weighted (ws : list (nat * C)) (f : nat -> C) : C := Csum (map (fun x => Cmul (snd x) (f (fst x))) ws).

(** The weighted total of the fields. *)
Definition amount (ws : list (nat * C)) (fields : list data) : C := weighted ws (fun i => Csum (nth i fields [])).

(** The weighted rates cancel, whatever the values of the fields are. *)
Definition rates_cancel (L : lang) (lib : library) (n : nat) (es : list eqtext) (ws : list (nat * C)) : Prop :=
  forall val, weighted ws (fun i => match nth_error es i with Some q => rate L (lb_pow lib) (lb_scalar lib) val (sum_nodes n) q | None => C0 end) = C0.

(** What the sources add in [steps] steps. *)
Fixpoint supplied (cs : list call) (lib : library) (dt : R) (ws : list (nat * C)) (steps step : nat) : C :=
  match steps with
  | O => C0
  | S steps' => Cadd (Cmul (RtoC dt) (weighted ws (fun i => source_sum cs lib (time_of dt step) i 0))) (supplied cs lib dt ws steps' (S step))
  end.
