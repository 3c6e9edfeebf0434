From Verif Require Import ListAux ParseProofs OperatorProofs EquationModel EquationSpec DerivedProofs TextProofs EquationProofs EquationProofs2 EquationProofs3.
From Coq Require Import Lra Qreals FunctionalExtensionality.
Open Scope nat_scope.

Lemma mem_str_In n l : mem_str n l = true <-> In n l.
Proof.
  unfold mem_str. rewrite existsb_exists. split.
  - intros (x & Hx & E). apply str_eqb_eq in E. subst. exact Hx.
  - intros H. exists n. split; [exact H|apply str_eqb_refl].
Qed.
Lemma mem_str_notIn n l : mem_str n l = false <-> ~ In n l.
Proof. rewrite <- mem_str_In. destruct (mem_str n l); intuition congruence. Qed.

Lemma delete_char_none c s : ~ In c s -> delete_char c s = s.
Proof.
  intros H. unfold delete_char. apply filter_all. apply forallb_forall. intros x Hx. apply negb_true_iff.
  apply not_true_is_false. intros E. apply Ascii.eqb_eq in E. subst. contradiction.
Qed.

Lemma mem_str_same n l l' : (forall x, In x l <-> In x l') -> mem_str n l = mem_str n l'.
Proof.
  intros H. destruct (mem_str n l') eqn:E; [apply mem_str_In, H, mem_str_In, E|].
  apply mem_str_notIn. rewrite H. apply mem_str_notIn, E.
Qed.

Record minv (L : lang) (m : pmodel) : Prop := {
  mi_fields : pm_fields m = l_fields L;
  mi_scalars : forall n, In n (pm_scalars m) <-> In n (l_scalars L);
  mi_implicit : forall n, In n (pm_implicit m) <-> In n (l_implicit L);
  mi_explicit : forall n, In n (pm_explicit m) <-> In n (l_explicit L);
  mi_mixed : forall n, In n (pm_mixed m) <-> In n (l_mixed L);
  mi_functions : incl (l_functions L) (pm_derived m);
  mi_derived : Forall (name_like L) (pm_derived m)
}.

Section Concrete.
  Variable L : lang.
  Hypothesis HL : good_lang L.
  Variable m : pmodel.
  Hypothesis HM : minv L m.

  Lemma names_like : Forall (name_like L) (all_field_names m).
  Proof.
    unfold all_field_names. rewrite (mi_fields L m HM). apply Forall_app. split; [|exact (mi_derived L m HM)].
    apply Forall_forall. intros n Hn. left. apply in_or_app. left. exact Hn.
  Qed.

  Lemma atom_fname a : In a (atoms L) -> is_fname m a = true.
  Proof.
    intros H. apply mem_str_In. unfold all_field_names. rewrite (mi_fields L m HM). apply in_app_or in H. apply in_or_app.
    destruct H as [H|H]; [left; exact H|right; apply (mi_functions L m HM), H].
  Qed.

  Lemma scalar_fname s : In s (l_scalars L) -> is_fname m s = false.
  Proof.
    intros Hs. apply mem_str_notIn. intros Hin.
    assert (Hn := names_like). rewrite Forall_forall in Hn. specialize (Hn s Hin).
    destruct (name_like_ends L s Hn) as (a & r & _ & _ & _ & Ha & E & _).
    destruct (list_eq_dec ascii_dec s a) as [->|Hne].
    - exact (gl_scalar L HL a Ha Hs).
    - apply (gl_apart L HL a s Ha); [apply in_or_app; right; exact Hs|exact Hne|]. exists [], r. exact E.
  Qed.

  Lemma scalar_brick s : In s (l_scalars L) -> is_brick m s = true.
  Proof. intros Hs. unfold is_brick. apply orb_true_iff. right. apply mem_str_In, (mi_scalars L m HM), Hs. Qed.

  Lemma atom_brick a : In a (atoms L) -> is_brick m a = true.
  Proof. intros H. unfold is_brick. change (mem_str a (all_field_names m)) with (is_fname m a). rewrite (atom_fname a H). reflexivity. Qed.

  (** Factors the loop of ConcreteTerm passes over. *)
  Definition silent (s : str) : Prop :=
    negb (is_fname m (name_no_pow s)) && is_brick m (name_no_pow s) = false
    /\ valid_name m (name_no_pow s) = Ok true.

  Lemma not_scalar_no_brick n : ~ In n (l_scalars L) -> negb (is_fname m n) && is_brick m n = false.
  Proof.
    intros H. unfold is_brick. rewrite (mem_str_same _ _ _ (mi_scalars L m HM)). apply mem_str_notIn in H. rewrite H, orb_false_r.
    unfold is_fname. destruct (mem_str n (all_field_names m)); reflexivity.
  Qed.

  Lemma no_LA_scalar (s : str) : In s (l_scalars L) -> ~ occurs ("LA"%string : str) s.
  Proof. intros H. apply (gl_noLA L HL). apply in_or_app. right. exact H. Qed.

  Lemma atom_no_space a : In a (atoms L) -> ~ In " "%char a.
  Proof.
    intros H Hin. assert (Hi := ident_chars a (gl_ident L HL a (atom_known L a H))). rewrite forallb_forall in Hi.
    specialize (Hi _ Hin). vm_compute in Hi. discriminate.
  Qed.

  Lemma valid_atom a : In a (atoms L) -> valid_name m a = Ok true.
  Proof.
    intros Ha. unfold valid_name. rewrite delete_char_none by (apply atom_no_space, Ha).
    destruct (gl_long L HL a Ha) as [Hlen Hop].
    assert (E1 : str_eqb a [] = false) by (apply str_eqb_neq; intros ->; cbn in Hlen; lia).
    assert (E3 : str_eqb (firstn 3 a) lap_s = false).
    { apply str_eqb_neq. intros E. destruct a as [|c a]; [discriminate|]. injection E as Ec _. apply Hop. left. exact Ec. }
    assert (E2 : str_eqb a lap_s = false).
    { apply str_eqb_neq. intros ->. apply Hop. left. reflexivity. }
    rewrite E1, E2. cbn [orb]. destruct (Nat.ltb_spec (length a) 3); [lia|]. rewrite E3.
    rewrite (atom_brick a Ha). reflexivity.
  Qed.

  Lemma valid_lap_atom a : In a (atoms L) -> valid_name m (lap_s ++ a) = Ok true.
  Proof.
    intros Ha. unfold valid_name.
    assert (Hsp : ~ In " "%char (lap_s ++ a)).
    { intros H. apply in_app_or in H. destruct H as [H|H]; [cbn in H; intuition discriminate|exact (atom_no_space a Ha H)]. }
    rewrite delete_char_none by exact Hsp. assert (Hne := atom_nonempty L HL a Ha).
    assert (E1 : str_eqb (lap_s ++ a) [] = false) by (apply str_eqb_neq; discriminate).
    assert (E2 : str_eqb (lap_s ++ a) lap_s = false).
    { apply str_eqb_neq. intros E. apply (f_equal (@length ascii)) in E. rewrite app_length in E. destruct a; [congruence|cbn in E; lia]. }
    rewrite E1, E2. cbn [orb]. destruct (Nat.ltb_spec (length (lap_s ++ a)) 3) as [H|_]; [cbn in H; lia|].
    replace (firstn 3 (lap_s ++ a)) with lap_s by reflexivity. rewrite str_eqb_refl.
    replace (skipn 3 (lap_s ++ a)) with a by reflexivity. rewrite (atom_brick a Ha). reflexivity.
  Qed.

  Lemma name_no_pow_stop (a b : str) : ~ In hat_c a -> match b with [] => True | c :: _ => c = hat_c end ->
    name_no_pow (a ++ b) = a.
  Proof.
    intros Ha Hb. unfold name_no_pow. apply take_while_app.
    - apply forallb_forall. intros x Hx. apply negb_true_iff. apply not_true_is_false. intros E. apply Ascii.eqb_eq in E. subst. contradiction.
    - destruct b as [|c b]; [exact I|]. subst. reflexivity.
  Qed.

  Lemma lap_not_scalar r : ~ In (lap_s ++ r) (l_scalars L).
  Proof. intros H. apply (no_LA_scalar _ H). exists [], ("P"%char :: r). reflexivity. Qed.

  Lemma oper_silent o : good_oper o -> silent (oper_text o).
  Proof.
    intros Ho. destruct o as [| |ds]; cbn [oper_text].
    - unfold silent. cbn [name_no_pow take_while]. split; [|reflexivity].
      apply not_scalar_no_brick. intros H. assert (Hi := gl_ident L HL [] ltac:(apply in_or_app; right; exact H)). exact Hi.
    - unfold silent. change (name_no_pow ("LAP"%string : str)) with lap_s. split; [|reflexivity].
      apply not_scalar_no_brick. rewrite <- (app_nil_r lap_s). apply lap_not_scalar.
    - unfold silent. assert (E : name_no_pow (("LAP^"%string : str) ++ map digit_text ds) = lap_s).
      { change (("LAP^"%string : str) ++ map digit_text ds) with (lap_s ++ (hat_c :: map digit_text ds)).
        apply name_no_pow_stop; [cbn; intuition discriminate|reflexivity]. }
      rewrite E. split; [|reflexivity]. apply not_scalar_no_brick. rewrite <- (app_nil_r lap_s). apply lap_not_scalar.
  Qed.

  Lemma field_silent w : okw L w -> In (wf_name w) (atoms L) -> silent (wf_text w).
  Proof.
    intros (Hf & Ho & _ & _) Ha. assert (Hh := known_no_hat L HL _ (atom_known L _ Ha)).
    assert (Hexp : match exp_text (wf_fac w) with [] => True | c :: _ => c = hat_c end).
    { unfold exp_text. destruct (fa_exp (wf_fac w)); [reflexivity|exact I]. }
    unfold wf_text. rewrite factor_text_eq. change (fa_name (wf_fac w)) with (wf_name w).
    destruct (wf_op w) as [| |ds] eqn:Eo; cbn [oper_text].
    - cbn [app]. unfold silent. rewrite name_no_pow_stop by assumption.
      split; [apply not_scalar_no_brick, (gl_scalar L HL), Ha|apply valid_atom, Ha].
    - unfold silent. change ("LAP"%string : str) with lap_s. rewrite app_assoc. rewrite name_no_pow_stop.
      + split; [apply not_scalar_no_brick, lap_not_scalar|apply valid_lap_atom, Ha].
      + intros H. apply in_app_or in H. destruct H as [H|H]; [cbn in H; intuition discriminate|exact (Hh H)].
      + exact Hexp.
    - assert (E : name_no_pow (((("LAP^"%string : str) ++ map digit_text ds)) ++ wf_name w ++ exp_text (wf_fac w)) = lap_s).
      { change ("LAP^"%string : str) with (lap_s ++ [hat_c]). rewrite <- !app_assoc. cbn [app].
        apply name_no_pow_stop; [cbn; intuition discriminate|reflexivity]. }
      unfold silent. rewrite E. split; [|reflexivity]. apply not_scalar_no_brick. rewrite <- (app_nil_r lap_s). apply lap_not_scalar.
  Qed.

  (** The loop: constants (left) are collected, other factors (right) skipped. *)
  Definition elem_text (e : factor + str) : str := match e with inl f => factor_text f | inr s => s end.
  Definition good_elem (e : factor + str) : Prop :=
    match e with inl f => good_factor f /\ In (fa_name f) (l_scalars L) | inr s => silent s end.
  Fixpoint consts (es : list (factor + str)) : list factor :=
    match es with [] => [] | inl f :: es' => f :: consts es' | inr _ :: es' => consts es' end.
  Definition const_brick (f : factor) : str * Q := (fa_name f, get_power (factor_text f)).

  Lemma brick_loop_spec : forall es acc, Forall good_elem es ->
    brick_loop m (map elem_text es) acc = Ok (acc ++ map const_brick (consts es)).
  Proof.
    induction es as [|e es IH]; intros acc H; [cbn; rewrite app_nil_r; reflexivity|].
    inversion H as [|? ? He Hes]; subst. destruct e as [f|s]; cbn [map elem_text brick_loop consts].
    - destruct He as [Hf Hs]. rewrite factor_name_no_pow by exact Hf. rewrite (scalar_fname _ Hs), (scalar_brick _ Hs). cbn [negb andb].
      rewrite IH by exact Hes. cbn [map]. rewrite <- app_assoc. reflexivity.
    - destruct He as [H1 H2]. rewrite H1, H2. cbn [bind]. apply IH, Hes.
  Qed.

  (** ** The Laplacian *)
  Definition starts_ok (rest : str) : Prop :=
    rest = [] \/ (exists c r, rest = c :: r /\ letter_c c = true /\ c <> "P"%char)
    \/ (exists c r, rest = star_c :: c :: r /\ letter_c c = true).

  Lemma take_letters rest : starts_ok rest ->
    take_while (fun c => negb (letter_c c)) rest = [] \/ take_while (fun c => negb (letter_c c)) rest = [star_c].
  Proof.
    intros [->|[(c & r & -> & Hc & _)|(c & r & -> & Hc)]]; cbn [take_while].
    - left. reflexivity.
    - rewrite Hc. left. reflexivity.
    - replace (letter_c star_c) with false by reflexivity. cbn [negb]. rewrite Hc. right. reflexivity.
  Qed.

  Lemma int_of_dec ds : Forall (fun d => d < 10) ds -> int_of_Q (dec_val false (map digit_text ds) []) = int_value ds.
  Proof.
    intros H. unfold int_of_Q, dec_val. cbn [digits_val length pow10 Nat.iter Qnum Qden].
    rewrite digits_val_spec by exact H. rewrite Z.mul_0_l, Z.add_0_l. apply Z.quot_1_r.
  Qed.

  Lemma lap_power_spec l1 o rest : o <> NoOp -> good_oper o -> starts_ok rest ->
    (forall s, In s l1 -> ~ occurs ("LA"%string : str) s) ->
    Z.to_nat (int_of_Q (get_power (lap_text (lead_text l1 ++ oper_text o ++ rest)))) = oper_power o.
  Proof.
    intros Hne Ho Hr Hl1.
    assert (E : exists tl, oper_text o ++ rest = ("LA"%string : str) ++ ("P"%char :: tl) /\
       tl = match o with OpLapPow ds => hat_c :: map digit_text ds ++ rest | _ => rest end).
    { destruct o as [| |ds]; [congruence| |]; eexists; split; reflexivity. }
    destruct E as (tl & E & Etl). rewrite E. unfold lap_text. rewrite after_lit_first.
    2:{ intros x' y' Ex.
        destruct (occ_lead l1 _ x' ("LA"%string : str) y' ltac:(discriminate) ltac:(cbn; intuition discriminate) Hl1 Ex) as (x2 & -> & _).
        rewrite app_length. lia. }
    cbn [take_while drop_while]. replace (Ascii.eqb "P" "P") with true by reflexivity.
    assert (HP : take_while (Ascii.eqb "P") tl = [] /\ drop_while (Ascii.eqb "P") tl = tl).
    { rewrite Etl. destruct o as [| |ds]; [congruence| |split; reflexivity].
      destruct Hr as [->|[(c & r & -> & Hc & Hcp)|(c & r & -> & Hc)]]; [split; reflexivity| |split; reflexivity].
      cbn [take_while drop_while]. destruct (Ascii.eqb_spec "P" c) as [Ec|Ec]; [congruence|split; reflexivity]. }
    destruct HP as [-> ->].
    assert (Hlet := take_letters rest Hr).
    destruct o as [| |ds]; [congruence| |].
    - subst tl. unfold get_power.
      destruct Hlet as [-> | ->]; reflexivity.
    - subst tl. destruct Ho as [Hds Hdig].
      assert (Et : take_while (fun c => negb (letter_c c)) (hat_c :: map digit_text ds ++ rest)
              = hat_c :: map digit_text ds ++ take_while (fun c => negb (letter_c c)) rest).
      { cbn [take_while]. replace (letter_c hat_c) with false by reflexivity. cbn [negb]. f_equal.
        clear -Hdig. induction Hdig as [|d ds Hd _ IH]; [reflexivity|]. cbn [map app take_while].
        destruct (digit_text_facts d Hd) as (_ & _ & -> & _). cbn [negb]. f_equal. exact IH. }
      rewrite Et. clear Et.
      assert (Hst : stops (take_while (fun c => negb (letter_c c)) rest)).
      { destruct Hlet as [-> | ->]; [exact I|split; reflexivity]. }
      unfold get_power.
      match goal with |- context [find_power ?x] =>
        change x with (lap_s ++ (hat_c :: map digit_text ds ++ take_while (fun c => negb (letter_c c)) rest)) end.
      rewrite (find_power_skip lap_s) by reflexivity.
      assert (Hp := power_here_expo {| ex_int := ds; ex_frac := None |} _ (conj Hds (conj Hdig I)) Hst).
      unfold expo_text in Hp. cbn [ex_int ex_frac frac_digits] in Hp. rewrite app_nil_r in Hp.
      cbn [find_power]. rewrite Hp. unfold frac_digits. cbn [ex_frac map]. rewrite int_of_dec by exact Hdig. reflexivity.
  Qed.
End Concrete.
