(** Vocabulary for the statements about models whose equations are linear. *)
From Verif Require Import FileModel.
From Verif Require Vec.
From Verif Require Export SimSpec.
Open Scope nat_scope.

(** The item is a product of constants and one factor that is not a constant:
    the field of the equation, without exponent. *)
Definition linear_item (L : lang) (field : str) (it : item) : Prop :=
  exists t, it = IProduct t /\ field_factors L t = [{| fa_name := field; fa_exp := None |}].

Definition linear_equation (L : lang) (q : eqtext) : Prop :=
  Forall (fun p => linear_item L (q_field q) (fst p)) (signed_items q).

(** No registered terms and no sources. *)
Definition plain_call (c : call) : Prop := match c with CTerm _ _ _ _ | CSource _ _ => False | _ => True end.

(** The declared equations are linear, number i belongs to field number i. *)
Record linear_model (L : lang) (cs : list call) (es : list eqtext) : Prop := {
  lm_declared : declared L cs es;
  lm_plain : Forall plain_call cs;
  lm_linear : Forall (linear_equation L) es;
  lm_order : map q_field es = l_fields L
}.

(** What the product in front of the field is at a node of the Fourier domain:
    the powers of minus the squared wave number times the constants. *)
Definition item_symbol (L : lang) (lib : library) (freq : list R) (it : item) : C :=
  match it with
  | IProduct t => Cmul (RtoC (lap_symbol freq ^ total_power t)) (product_value (lb_pow lib) (lb_scalar lib) (scalar_factors L t))
  | IUser _ _ => C0
  end.
Definition symbol (L : lang) (lib : library) (freq : list R) (q : eqtext) : C :=
  Csum (map (fun p => Cmul (RtoC (sign_value (snd p))) (item_symbol L lib freq (fst p))) (signed_items q)).

(** Amplitude number [k] of field number [i]. *)
Definition mode (ft : transform) (e : env) (i k : nat) : C := nth k (fft ft (nth i (e_fields e) [])) C0.

(** Sum of the squares of a field over the nodes. *)
Definition energy (d : data) : R := Vec.rsum (length d) (fun j => Cnorm2 (nth j d C0)).
