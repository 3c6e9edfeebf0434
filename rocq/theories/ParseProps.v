(** Properties C14-C17: the text of right-hand sides. *)
From Verif Require Import SpectralModel ParseModel ParseSpec ParseProofs OperatorProofs.
Open Scope Z_scope.

(** C14. Splitting on any list of one-character separators gives the written
    terms, each with its own sign (the order of the result is not fixed). *)
Theorem C14_split_gives_signed_terms : forall (seps : list ascii) (s : sum_text),
  well_formed seps s ->
  exists pieces, split_on_many (render s) seps = Ok pieces /\ Permutation pieces (signed_terms s).
Proof. exact split_on_many_terms. Qed.
Print Assumptions C14_split_gives_signed_terms.

(** Two adjacent signs are outside the grammar, and the code silently drops the
    second one: a+-b is read as a+b. *)
Theorem C14_adjacent_signs_refuted :
  split_on_many ("a+-b"%string : str) ["+"; "-"]%char =
  split_on_many ("a+b"%string : str) ["+"; "-"]%char /\
  split_on_many ("a+b"%string : str) ["+"; "-"]%char = Ok [(("a"%string : str), None); (("b"%string : str), Some "+"%char)].
Proof. split; reflexivity. Qed.
Print Assumptions C14_adjacent_signs_refuted.

(** A text consisting of separators only, or an empty one, makes it panic. *)
Theorem C14_empty_sum_panics : forall seps,
  split_on_many [] seps = Panic /\ forall c n, In c seps -> split_on_many (repeat c (S n)) seps = Panic.
Proof. exact split_only_separators. Qed.
Print Assumptions C14_empty_sum_panics.

Example C14_nonvacuous :
  let s := {| lead := Some "-"%char; term0 := ("m1*conc"%string : str);
              more := [("+"%char, ("LAPeta"%string : str)); ("-"%char, ("src"%string : str))] |} in
  well_formed ["+"; "-"]%char s /\ render s = ("-m1*conc+LAPeta-src"%string : str).
Proof.
  split; [|reflexivity]. split; [intros c [= <-]; cbn; tauto|]. split.
  - split; [discriminate|]. intros c [<-|[<-|[]]]; cbn; intuition discriminate.
  - repeat constructor; try discriminate; cbn; try tauto; intros c [<-|[<-|[]]]; cbn; intuition discriminate.
Qed.

(** C15. *)
Theorem C15_canonical_text : forall l l' : list str,
  l <> [] -> l' <> [] ->
  Forall (fun t => ~ In "*"%char t) l -> Forall (fun t => ~ In "*"%char t) l' ->
  (sort_factors (product_text l) = sort_factors (product_text l') <-> Permutation l l').
Proof. exact sort_factors_iff. Qed.
Print Assumptions C15_canonical_text.

Theorem C15_same_factors_sorted : forall l : list str,
  l <> [] -> Forall (fun t => ~ In "*"%char t) l ->
  exists l', sort_factors (product_text l) = product_text l' /\ Permutation l' l /\
             forall i j a b, (i < j)%nat -> nth_error l' i = Some a -> nth_error l' j = Some b -> str_le a b = true.
Proof. exact sort_factors_sorted_perm. Qed.
Print Assumptions C15_same_factors_sorted.

(** The order used is a total order. *)
Theorem C15_order_is_total : forall a b c : str,
  (str_le a b = true \/ str_le b a = true) /\
  (str_le a b = true -> str_le b a = true -> a = b) /\
  (str_le a b = true -> str_le b c = true -> str_le a c = true).
Proof. exact str_le_order. Qed.
Print Assumptions C15_order_is_total.

Example C15_nonvacuous : sort_factors (product_text [("eta"%string : str); ("conc"%string : str)]) = ("conc*eta"%string : str).
Proof. reflexivity. Qed.

(** C16. Operators written in front of a name are recovered exactly ... *)
Theorem C16_operators_recovered : forall (os : list op) (text : list str) (name : str),
  spelled os text -> bare_name name ->
  get_known_prefixes (concat text ++ name) = text /\ remove_known_prefixes (concat text ++ name) = name.
Proof. exact operators_recovered. Qed.
Print Assumptions C16_operators_recovered.

(** ... and the value of the named term is multiplied by the sign and by
    (-4 pi^2 |f|^2)^k for the total power k written. *)
Theorem C16_operators_multiply : forall (f : list R) (os : list op) (text : list str) (name : str) (d : option ascii) (v : C),
  spelled os text -> bare_name name ->
  d = None \/ d = Some "+"%char \/ d = Some "-"%char ->
  user_term_value C flip_sign (lap_eval f) (concat text ++ name, d) v =
  Cmul (RtoC (sign_factor d * (-1) ^ minus_count os * (- (4 * PI * PI * norm_sq f)) ^ lap_power os)) v.
Proof. exact user_term_value_spec. Qed.
Print Assumptions C16_operators_multiply.

(** Registration rejects exactly the names that begin with an operator. *)
Theorem C16_names_with_operators_rejected : forall name : str,
  name_ok name = true <-> forall o p, spelling o = Some p -> ~ starts_with name p.
Proof. exact name_ok_spec. Qed.
Print Assumptions C16_names_with_operators_rejected.

(** Only the powers 1, 2 and 4 are known: LAP^3 x is read as LAP of "^3x". *)
Theorem C16_third_power_refuted :
  get_known_prefixes ("LAP^3conc"%string : str) = [("LAP"%string : str)] /\
  remove_known_prefixes ("LAP^3conc"%string : str) = ("^3conc"%string : str).
Proof. split; reflexivity. Qed.
Print Assumptions C16_third_power_refuted.

Example C16_nonvacuous : spelled [Lap 2; Times] [("LAP^2"%string : str); ("*"%string : str)] /\ bare_name ("myterm"%string : str) /\
  concat [("LAP^2"%string : str); ("*"%string : str)] ++ ("myterm"%string : str) = ("LAP^2*myterm"%string : str).
Proof.
  split; [cbn; auto|]. split; [|reflexivity]. split; [|intros (r & E); discriminate].
  intros o p Ho (r & E). destruct o as [|k|]; cbn in Ho; [injection Ho as <-; discriminate| |injection Ho as <-; discriminate].
  destruct k as [|[|[|[|[|k]]]]]; try discriminate; injection Ho as <-; discriminate.
Qed.

(** C17. *)
Theorem C17_builder_reads_left_side : forall lhs name : str,
  field_name_from_leibniz lhs = Ok name <-> lhs = derivative_of name.
Proof. exact derivative_roundtrip. Qed.
Print Assumptions C17_builder_reads_left_side.

Theorem C17_sides_of_equation : forall name rhs : str,
  ~ In "="%char name -> ~ In "="%char rhs ->
  sides (equation name rhs) = Ok (derivative_of name, rhs).
Proof. exact sides_equation. Qed.
Print Assumptions C17_sides_of_equation.

(** EqNumber finds the first equation for the field and panics if there is none. *)
Theorem C17_eq_number_finds_equation : forall (eqs : list (str * str)) (name : str),
  Forall (fun e => dt_free (fst e)) eqs ->
  match eq_number (map (fun e => equation (fst e) (snd e)) eqs) name with
  | Ok i => exists k, i = Z.of_nat k /\ option_map fst (nth_error eqs k) = Some name /\
            forall j e, (j < k)%nat -> nth_error eqs j = Some e -> fst e <> name
  | Panic => ~ In name (map fst eqs)
  | OutOfFuel => False
  end.
Proof. exact eq_number_first. Qed.
Print Assumptions C17_eq_number_finds_equation.

Example C17_nonvacuous : dt_free ("conc"%string : str) /\
  eq_number [equation ("eta"%string : str) ("conc"%string : str); equation ("conc"%string : str) ("eta^2"%string : str)] ("conc"%string : str) = Ok 1.
Proof.
  split; [|reflexivity]. intros a b.
  do 7 (destruct a as [|? a]; [cbn; intros [=]|]). cbn. intros [=].
Qed.
