From Verif Require Import SpectralModel ParseModel ParseSpec ParseProofs.
Open Scope R_scope.

Lemma apply_op f o p v : spelling o = Some p ->
  apply_prefix C flip_sign (lap_eval f) p v =
  Cmul (RtoC ((-1) ^ minus_count [o] * lap_symbol f ^ lap_power [o])) v.
Proof.
  intros Ho. destruct o as [|k|]; cbn in Ho.
  - injection Ho as <-. unfold apply_prefix. cbn [lit list_ascii_of_string str_eqb].
    replace (str_eqb ["-"%char] ["-"%char]) with true by reflexivity.
    cbn [minus_count lap_power pow]. unfold flip_sign. rewrite RtoC_mul. 
    replace (-1 * 1) with (-1) by ring. change (RtoC 1) with C1. ring.
  - destruct k as [|[|[|[|[|k]]]]]; try discriminate; injection Ho as <-; unfold apply_prefix; cbn [str_eqb];
      cbv [str_eqb list_eq_dec]; cbn -[lap_eval minus_count lap_power pow]; rewrite lap_eval_symbol;
      cbn [minus_count lap_power Nat.add]; f_equal; f_equal; ring.
  - injection Ho as <-. unfold apply_prefix. cbn [minus_count lap_power pow].
    cbv [str_eqb]. cbn -[Cmul RtoC]. replace (1 * 1) with 1 by ring. change (RtoC 1) with C1. ring.
Qed.

Lemma construct_func_ops f os text v : spelled os text ->
  construct_func C flip_sign (lap_eval f) text v =
  Cmul (RtoC ((-1) ^ minus_count os * lap_symbol f ^ lap_power os)) v.
Proof.
  revert text v. induction os as [|o os IH]; intros [|p text] v; cbn [spelled]; try tauto.
  - intros _. cbn. replace (1 * 1) with 1 by ring. change (RtoC 1) with C1. ring.
  - intros [Ho H]. cbn [construct_func]. rewrite (IH _ _ H), (apply_op f o p v Ho).
    assert (E : (-1) ^ minus_count (o :: os) * lap_symbol f ^ lap_power (o :: os) =
                ((-1) ^ minus_count [o] * lap_symbol f ^ lap_power [o]) * ((-1) ^ minus_count os * lap_symbol f ^ lap_power os)).
    { destruct o as [|k|]; cbn [minus_count lap_power].
      - cbn [pow]. ring.
      - rewrite Nat.add_0_r, pow_add. cbn [pow]. ring.
      - cbn [pow]. ring. }
    rewrite E, !RtoC_mul. ring.
Qed.

Lemma construct_func_app V neg lap ps qs v :
  construct_func V neg lap (ps ++ qs) v = construct_func V neg lap qs (construct_func V neg lap ps v).
Proof. revert v. induction ps as [|p ps IH]; intros v; cbn; [reflexivity|]. apply IH. Qed.

(** Sign in front of a term. *)
Definition sign_factor (d : option ascii) : R :=
  match d with Some c => if Ascii.eqb c "-" then -1 else 1 | None => 1 end.

Lemma user_term_value_spec f os text name d v : spelled os text -> bare_name name ->
  d = None \/ d = Some "+"%char \/ d = Some "-"%char ->
  user_term_value C flip_sign (lap_eval f) (concat text ++ name, d) v =
  Cmul (RtoC (sign_factor d * (-1) ^ minus_count os * lap_symbol f ^ lap_power os)) v.
Proof.
  intros Hs Hn Hd. unfold user_term_value. cbn [fst snd].
  destruct (operators_recovered os text name Hs Hn) as [-> _].
  rewrite construct_func_app, (construct_func_ops f os text v Hs).
  rewrite Rmult_assoc, (RtoC_mul (sign_factor d)).
  set (w := RtoC (_ * _)).
  destruct Hd as [->|[->| ->]]; cbn [delim_str construct_func sign_factor]; unfold apply_prefix; cbv [str_eqb];
    cbn -[Cmul RtoC]; change (RtoC 1) with C1; try ring. unfold flip_sign. ring.
Qed.
