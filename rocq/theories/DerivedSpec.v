(** What derived fields are expected to be, independently of the pointers and
    of the text processing. *)
From Verif Require Export DerivedModel.

(** ** Products of powers of names, as a user writes them *)

(** Names: a letter followed by letters, digits and underscores. *)
Definition name_char (c : ascii) : bool := letter_c c || digit_c c || Ascii.eqb c "_".
Definition ident (n : str) : Prop :=
  match n with c :: _ => letter_c c = true /\ forallb name_char n = true | [] => False end.

(** An exponent: decimal digits, optionally a point and more digits. *)
Record expo := { ex_int : list nat; ex_frac : option (list nat) }.
Definition digit_text (d : nat) : ascii := ascii_of_nat (48 + d).
Definition expo_text (e : expo) : str :=
  map digit_text (ex_int e) ++ match ex_frac e with
                               | None => []
                               | Some f => dot_c :: map digit_text f
                               end.
Definition good_expo (e : expo) : Prop :=
  ex_int e <> [] /\ Forall (fun d => d < 10)%nat (ex_int e)
  /\ match ex_frac e with None => True | Some f => Forall (fun d => d < 10)%nat f end.

(** Its value, digit by digit. *)
Fixpoint int_value (ds : list nat) : Z :=
  match ds with [] => 0 | d :: ds' => Z.of_nat d * 10 ^ Z.of_nat (length ds') + int_value ds' end.
Definition expo_value (e : expo) : R :=
  match ex_frac e with
  | None => IZR (int_value (ex_int e))
  | Some f => IZR (int_value (ex_int e)) + IZR (int_value f) / 10 ^ length f
  end.

(** A factor of a product: a name, optionally with an exponent. *)
Record factor := { fa_name : str; fa_exp : option expo }.
Definition factor_text (f : factor) : str :=
  fa_name f ++ match fa_exp f with None => [] | Some e => hat_c :: expo_text e end.
Definition good_factor (f : factor) : Prop :=
  ident (fa_name f) /\ match fa_exp f with None => True | Some e => good_expo e end.
Definition factor_power (f : factor) : R :=
  match fa_exp f with None => 1%R | Some e => expo_value e end.
Definition product_of (fs : list factor) : str := join_char star_c (map factor_text fs).

(** The number a product denotes when each name has the value [val name]. *)
Section Value.
  Variable cpow : C -> R -> C.
  Fixpoint product_value (val : str -> C) (fs : list factor) : C :=
    match fs with
    | [] => C1
    | f :: fs' => Cmul (cpow (val (fa_name f)) (factor_power f)) (product_value val fs')
    end.
End Value.

(** ** Registration *)

(** The names a call introduces. *)
Definition reg_names (r : reg) : list str :=
  match r with
  | RField n _ => [n]
  | RDerived d => [df_name d]
  | RTerm ds => map df_name ds
  | REquation ds => map df_name ds
  end.

(** AddField and RegisterDerivedField are called with new names. *)
Definition new_name (m : dmodel) (r : reg) : Prop :=
  match r with
  | RField n _ => is_field_name m n = false
  | RDerived d => is_field_name m (df_name d) = false
  | RTerm _ => True
  | REquation _ => True
  end.
Fixpoint new_names (m : dmodel) (rs : list reg) : Prop :=
  match rs with [] => True | r :: rs' => new_name m r /\ new_names (run_reg m r) rs' end.

(** No term brings more than one derived field. *)
Definition at_most_one (r : reg) : Prop :=
  match r with RTerm ds => (length ds <= 1)%nat | _ => True end.

(** Every field and derived field is found under its own name, with its own
    data. *)
Definition reads_own_data (m : dmodel) : Prop :=
  (forall n s, In (n, s) (dm_fields m) -> brick_slice m n = Some s)
  /\ (forall d, In d (dm_derived m) -> brick_slice m (df_name d) = Some (df_slice d)).

(** The values a calculator writes depend only on the slices in [keep]. *)
Definition depends_only_on (keep : nat -> Prop) (calc : memory -> nat -> C) : Prop :=
  forall mem mem', (forall s i, keep s -> mem s i = mem' s i) -> forall i, calc mem i = calc mem' i.
