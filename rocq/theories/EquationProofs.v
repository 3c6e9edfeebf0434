From Verif Require Import ListAux ParseProofs OperatorProofs EquationModel EquationSpec DerivedProofs TextProofs.
From Coq Require Import Lra.
Open Scope nat_scope.

Definition exp_text (f : factor) : str := match fa_exp f with None => [] | Some e => hat_c :: expo_text e end.
Lemma factor_text_eq f : factor_text f = fa_name f ++ exp_text f.
Proof. reflexivity. Qed.

Lemma letter_not_digit c : letter_c c = true -> digit_c c = false.
Proof.
  unfold letter_c, digit_c. intros H. apply not_true_is_false. intros H'.
  rewrite orb_true_iff, !andb_true_iff in H. rewrite andb_true_iff in H'.
  rewrite !N.leb_le in *. lia.
Qed.

Lemma letter_not_expo c e : letter_c c = true -> good_expo e -> ~ In c (expo_text e).
Proof.
  intros Hc He Hin. destruct (expo_chars e c He Hin) as [H| ->].
  - rewrite letter_not_digit in H by exact Hc. discriminate.
  - vm_compute in Hc. discriminate.
Qed.

Lemma letter_not_exp_text c f : letter_c c = true -> good_factor f -> ~ In c (exp_text f).
Proof.
  intros Hc [_ He]. unfold exp_text. destruct (fa_exp f) as [e|]; [|intros []].
  intros [<-|Hin]; [vm_compute in Hc; discriminate|]. exact (letter_not_expo c e Hc He Hin).
Qed.

Lemma digits_chars ds c : Forall (fun d => d < 10) ds -> In c (map digit_text ds) -> digit_c c = true.
Proof. intros H Hin. assert (Ha := digits_all ds H). rewrite forallb_forall in Ha. apply Ha, Hin. Qed.

Lemma star_not_exp f : good_factor f -> ~ In star_c (exp_text f).
Proof. intros Hf Hin. apply (factor_text_no_star f Hf). rewrite factor_text_eq. apply in_or_app. right. exact Hin. Qed.

Lemma oper_chars o c : good_oper o -> In c (oper_text o) -> op_letter c \/ c = hat_c \/ digit_c c = true.
Proof.
  intros Ho. destruct o as [| |ds]; cbn [oper_text].
  - intros [].
  - cbn. unfold op_letter. intuition.
  - intros Hin. apply in_app_or in Hin. destruct Hin as [Hin|Hin].
    + cbn in Hin. unfold op_letter, hat_c. intuition.
    + right. right. destruct Ho as [_ Ho]. exact (digits_chars ds c Ho Hin).
Qed.

Lemma star_not_oper o : good_oper o -> ~ In star_c (oper_text o).
Proof.
  intros Ho Hin. destruct (oper_chars o star_c Ho Hin) as [[E|[E|E]]|[E|E]]; try discriminate.
Qed.

Section Lang.
  Variable L : lang.
  Hypothesis HL : good_lang L.

  Definition known (n : str) : Prop := In n (atoms L ++ l_scalars L).
  (** A factor as it may stand in a product. *)
  Definition okw (w : wfactor) : Prop :=
    good_factor (wf_fac w) /\ good_oper (wf_op w) /\ known (wf_name w)
    /\ (wf_op w <> NoOp -> In (wf_name w) (atoms L)).

  Lemma atom_known a : In a (atoms L) -> known a.
  Proof. intros H. apply in_or_app. left. exact H. Qed.

  Lemma atom_first a : In a (atoms L) -> exists c a', a = c :: a' /\ letter_c c = true /\ ~ op_letter c.
  Proof.
    intros H. assert (Hi := gl_ident L HL a (atom_known a H)). assert (Hl := gl_long L HL a H).
    destruct a as [|c a']; [destruct Hi|]. exists c, a'. destruct Hi as [Hc _]. destruct Hl as [_ Hop].
    auto.
  Qed.

  Lemma atom_nonempty a : In a (atoms L) -> a <> [].
  Proof. intros H. destruct (atom_first a H) as (c & a' & -> & _). discriminate. Qed.

  Lemma known_no_star n : known n -> ~ In star_c n.
  Proof.
    intros H Hin. assert (Hi := ident_chars n (gl_ident L HL n H)). rewrite forallb_forall in Hi.
    specialize (Hi _ Hin). vm_compute in Hi. discriminate.
  Qed.
  Lemma known_no_hat n : known n -> ~ In hat_c n.
  Proof.
    intros H Hin. assert (Hi := ident_chars n (gl_ident L HL n H)). rewrite forallb_forall in Hi.
    specialize (Hi _ Hin). vm_compute in Hi. discriminate.
  Qed.

  Lemma first_not_oper a o : In a (atoms L) -> good_oper o -> forall c a', a = c :: a' -> ~ In c (oper_text o).
  Proof.
    intros Ha Ho c a' E Hin. destruct (atom_first a Ha) as (c' & a'' & E' & Hl & Hop).
    rewrite E in E'. injection E' as <- <-.
    destruct (oper_chars o c Ho Hin) as [H|[-> |H]].
    - exact (Hop H).
    - vm_compute in Hl. discriminate.
    - rewrite letter_not_digit in H by exact Hl. discriminate.
  Qed.

  (** A field name occurs in a factor only as the name of that factor. *)
  Lemma factor_occ w a x y : okw w -> In a (atoms L) -> wf_text w = x ++ a ++ y ->
    wf_name w = a /\ x = oper_text (wf_op w) /\ y = exp_text (wf_fac w).
  Proof.
    intros (Hf & Ho & Hk & _) Ha E. destruct (atom_first a Ha) as (c & a' & Ea & Hl & Hop).
    unfold wf_text in E. rewrite Ea in E.
    destruct (occ_skip (oper_text (wf_op w)) (factor_text (wf_fac w)) x c a' y
                (first_not_oper a (wf_op w) Ha Ho c a' Ea) E) as (x' & Ex & E1).
    rewrite <- Ea in E1. rewrite factor_text_eq in E1.
    assert (Hin : exists y', wf_name w = x' ++ a ++ y' /\ y = y' ++ exp_text (wf_fac w)).
    { unfold exp_text in *. destruct (fa_exp (wf_fac w)) as [e|] eqn:Ee.
      - symmetry in E1. destruct (occ_split hat_c x' a y _ _ (known_no_hat a (atom_known a Ha)) E1) as [(y' & E2 & E3)|(x'' & E2 & E3)].
        + exists y'. auto.
        + exfalso. destruct Hf as [_ Hfe]. rewrite Ee in Hfe.
          assert (E4 : expo_text e ++ [] = x'' ++ (c :: a') ++ y) by (rewrite app_nil_r, <- Ea; exact E3).
          destruct (occ_skip _ _ _ _ _ _ (letter_not_expo c e Hl Hfe) E4) as (z & _ & E5).
          destruct z; discriminate.
      - rewrite app_nil_r in *. exists y. rewrite app_nil_r. auto. }
    destruct Hin as (y' & E2 & E3).
    assert (En : wf_name w = a).
    { destruct (list_eq_dec ascii_dec (wf_name w) a) as [H|H]; [exact H|].
      exfalso. apply (gl_apart L HL a (wf_name w) Ha Hk H). exists x', y'. exact E2. }
    split; [exact En|]. rewrite En in E2.
    assert (Hlen : length x' + length y' = 0).
    { apply (f_equal (@length ascii)) in E2. rewrite !app_length in E2. lia. }
    destruct x'; [|cbn in Hlen; lia]. destruct y'; [|cbn in Hlen; lia].
    rewrite app_nil_r in Ex. split; [exact Ex|exact E3].
  Qed.

  Lemma atom_not_in_oper a o : In a (atoms L) -> good_oper o -> ~ occurs a (oper_text o).
  Proof.
    intros Ha Ho (x & y & E). destruct (atom_first a Ha) as (c & a' & Ea & _).
    rewrite <- (app_nil_r (oper_text o)), Ea in E.
    destruct (occ_skip _ _ _ _ _ _ (first_not_oper a o Ha Ho c a' Ea) E) as (z & _ & E2). destruct z; discriminate.
  Qed.

  (** ** Products *)
  Definition texts (ws : list wfactor) : list str := map wf_text ws.

  Lemma product_occ ws a x y : Forall okw ws -> ws <> [] -> In a (atoms L) -> product_text ws = x ++ a ++ y ->
    exists w1 w w2, ws = w1 ++ w :: w2 /\ wf_name w = a
      /\ x = lead_text (texts w1) ++ oper_text (wf_op w) /\ y = exp_text (wf_fac w) ++ tail_text (texts w2).
  Proof.
    intros Hok Hne Ha E. unfold product_text in E.
    destruct (occ_join (map wf_text ws) x a y) as (l1 & s & l2 & x' & y' & El & Es & Ex & Ey).
    - destruct ws; [congruence|discriminate].
    - apply known_no_star, atom_known, Ha.
    - exact E.
    - apply map_eq_app in El. destruct El as (w1 & r & Ews & E1 & E2).
      destruct r as [|w w2]; [discriminate|]. cbn [map] in E2. injection E2 as E3 E4.
      assert (Hw : okw w). { rewrite Forall_forall in Hok. apply Hok. rewrite Ews. apply in_or_app. right. left. reflexivity. }
      rewrite Es in E3. destruct (factor_occ w a x' y' Hw Ha E3) as (Hn & Hx & Hy).
      exists w1, w, w2. unfold texts. rewrite E1, E4, <- Hx, <- Hy. auto.
  Qed.

  Lemma text_mid w1 w w2 : product_text (w1 ++ w :: w2)
    = lead_text (texts w1) ++ oper_text (wf_op w) ++ wf_name w ++ exp_text (wf_fac w) ++ tail_text (texts w2).
  Proof.
    unfold product_text. rewrite map_app. cbn [map]. rewrite join_mid. unfold wf_text, texts.
    rewrite factor_text_eq, <- !app_assoc. reflexivity.
  Qed.

  (** Scalars contain no field name. *)
  Lemma scalar_no_atom w a : okw w -> In (wf_name w) (l_scalars L) -> In a (atoms L) -> ~ occurs a (wf_text w).
  Proof.
    intros Hw Hs Ha (x & y & E). destruct (factor_occ w a x y Hw Ha E) as (En & _).
    apply (gl_scalar L HL a Ha). rewrite <- En. exact Hs.
  Qed.

  (** *** The name looked up for a product *)

  (** The arrangement of the sorted product. *)
  Variables before fs after : list wfactor.
  Hypothesis Hbok : Forall okw before.
  Hypothesis Hfok : Forall okw fs.
  Hypothesis Haok : Forall okw after.
  Hypothesis Hbs : forall w, In w (before ++ after) -> In (wf_name w) (l_scalars L).
  Hypothesis Hfs : fs <> [].
  Hypothesis Hfa : forall w, In w fs -> In (wf_name w) (atoms L).
  Hypothesis Hop : forall w, In w (tl fs) -> wf_op w = NoOp.

  Definition op0 : oper := match fs with w :: _ => wf_op w | [] => NoOp end.
  Definition pre : str := lead_text (texts before) ++ oper_text op0.
  Definition post : str := tail_text (texts after).
  Definition dname : str := product_of (map wf_fac fs).

  Lemma op0_good : good_oper op0.
  Proof. unfold op0. destruct fs as [|w r]; [exact I|]. inversion Hfok; subst. apply H1. Qed.

  Lemma tail_texts_facs r : (forall w, In w r -> wf_op w = NoOp) ->
    tail_text (texts r) = tail_text (map factor_text (map wf_fac r)).
  Proof.
    induction r as [|w r IH]; intros H; [reflexivity|]. unfold texts in *. cbn [map tail_text flat_map].
    unfold wf_text at 1. rewrite (H w (or_introl eq_refl)). cbn [oper_text app]. f_equal.
    f_equal. apply IH. intros; apply H; right; assumption.
  Qed.

  Lemma tail_text_app l1 l2 : tail_text (l1 ++ l2) = tail_text l1 ++ tail_text l2.
  Proof. unfold tail_text. apply flat_map_app. Qed.
  Lemma lead_text_app l1 l2 : lead_text (l1 ++ l2) = lead_text l1 ++ lead_text l2.
  Proof. unfold lead_text. apply flat_map_app. Qed.

  Lemma sorted_text : product_text (before ++ fs ++ after) = pre ++ dname ++ post.
  Proof.
    unfold pre, dname, post, op0, product_of in *. clear Hfok Hfa. destruct fs as [|w r]; [congruence|].
    cbn [app]. rewrite text_mid. cbn [map]. rewrite join_cons. rewrite factor_text_eq.
    cbn [tl] in Hop. unfold texts at 2. rewrite map_app, tail_text_app. fold (texts r). rewrite (tail_texts_facs r Hop).
    unfold texts. rewrite <- !app_assoc. reflexivity.
  Qed.

  (** Names of fields and products of field powers. *)
  Definition name_like (f : str) : Prop :=
    In f (atoms L) \/ exists gs, gs <> [] /\ Forall (fun g => good_factor g /\ In (fa_name g) (l_fields L)) gs /\ f = product_of gs.

  (** Such a name starts with an atom and ends with an atom and an exponent. *)
  Lemma name_like_ends f : name_like f ->
    exists a r b q e, In a (atoms L) /\ f = a ++ r /\ In b (atoms L) /\ f = q ++ b ++ e /\ ~ In star_c e.
  Proof.
    intros [Ha|(gs & Hne & Hg & ->)].
    - exists f, [], f, [], []. cbn [app]. rewrite app_nil_r. repeat split; auto.
    - assert (Hat : forall g, In g gs -> In (fa_name g) (atoms L)).
      { intros g Hin. rewrite Forall_forall in Hg. apply in_or_app. left. apply Hg, Hin. }
      destruct gs as [|g gs]; [congruence|].
      destruct (exists_last Hne) as (gs' & gl & El).
      exists (fa_name g), (exp_text g ++ tail_text (map factor_text gs)), (fa_name gl),
        (lead_text (map factor_text gs')), (exp_text gl).
      split; [apply Hat; left; reflexivity|]. split.
      { unfold product_of. cbn [map]. rewrite join_cons, factor_text_eq, <- app_assoc. reflexivity. }
      split; [apply Hat; rewrite El; apply in_or_app; right; left; reflexivity|]. split.
      { rewrite El. unfold product_of. rewrite map_app. cbn [map]. rewrite join_mid. cbn [tail_text flat_map].
        rewrite factor_text_eq, app_nil_r. reflexivity. }
      apply star_not_exp. rewrite Forall_forall in Hg. apply Hg. rewrite El. apply in_or_app. right. left. reflexivity.
  Qed.

  Lemma name_like_nonempty f : name_like f -> f <> [].
  Proof.
    intros H. destruct (name_like_ends f H) as (a & r & _ & _ & _ & Ha & -> & _).
    destruct (atom_first a Ha) as (c & a' & -> & _). discriminate.
  Qed.

  Lemma all_ok : Forall okw (before ++ fs ++ after).
  Proof. apply Forall_app. split; [exact Hbok|]. apply Forall_app. split; assumption. Qed.

  Lemma all_nonempty : before ++ fs ++ after <> [].
  Proof. destruct before; [|discriminate]. destruct fs; [congruence|discriminate]. Qed.

  (** Where an atom can be found in the sorted product. *)
  Lemma atom_position a x y : In a (atoms L) -> pre ++ dname ++ post = x ++ a ++ y ->
    length pre <= length x
    /\ exists e2 rest, y = e2 ++ rest ++ post /\ (rest ++ post = [] \/ exists z, rest ++ post = star_c :: z)
       /\ ~ In star_c e2.
  Proof.
    intros Ha E. rewrite <- sorted_text in E.
    destruct (product_occ _ a x y all_ok all_nonempty Ha E) as (w1 & w & w2 & Ews & En & Ex & Ey).
    assert (Hns : ~ In (wf_name w) (l_scalars L)) by (rewrite En; apply (gl_scalar L HL a Ha)).
    assert (Hwok : okw w). { assert (H := all_ok). rewrite Forall_forall in H. apply H. rewrite Ews. apply in_or_app. right. left. reflexivity. }
    (* w is one of the fields *)
    destruct (app_app_cases before (fs ++ after) w1 (w :: w2) Ews) as [(l & Eb & El)|(l & Ew1 & El)].
    { destruct l as [|w' l].
      - cbn in El. rewrite app_nil_r in Eb.
        destruct fs as [|f0 fr] eqn:Efs; [congruence|]. cbn [app] in El. injection El as Ew Er.
        unfold pre, post, op0. subst w1 w. rewrite Efs. split.
        + rewrite Ex. reflexivity.
        + exists (exp_text (wf_fac f0)), (tail_text (texts fr)).
          rewrite Ey, Er. unfold texts. rewrite map_app, tail_text_app. split; [reflexivity|]. split.
          * destruct fr; [|right; eexists; reflexivity]. destruct after; [left; reflexivity|right; eexists; reflexivity].
          * apply star_not_exp, Hwok.
      - injection El as Ew _. exfalso. apply Hns. apply Hbs. apply in_or_app. left. rewrite Eb. apply in_or_app. right. left. exact (eq_sym Ew). }
    destruct (app_app_cases fs after l (w :: w2) El) as [(k & Ef & Ek)|(k & Elk & Ek)].
    - destruct k as [|w' k].
      + exfalso. apply Hns. apply Hbs. apply in_or_app. right. cbn in Ek. rewrite <- Ek. left. reflexivity.
      + injection Ek as Ew Ek. subst w'. split.
        * rewrite Ex, Ew1. unfold pre, texts. rewrite map_app, lead_text_app, !app_length.
          unfold op0. rewrite Ef. destruct l as [|f0 fl]; cbn [app].
          -- cbn. lia.
          -- cbn [map lead_text flat_map]. rewrite !app_length. assert (Hwl : length (wf_text f0) = length (oper_text (wf_op f0)) + length (factor_text (wf_fac f0))) by apply app_length. lia.
        * exists (exp_text (wf_fac w)), (tail_text (texts k)). unfold post.
          rewrite Ey, Ek. unfold texts. rewrite map_app, tail_text_app. split; [reflexivity|]. split.
          -- destruct k; [|right; eexists; reflexivity]. destruct after; [left; reflexivity|right; eexists; reflexivity].
          -- apply star_not_exp, Hwok.
    - exfalso. apply Hns. apply Hbs. apply in_or_app. right. rewrite Ek. apply in_or_app. right. left. reflexivity.
  Qed.

  Lemma name_position f x y : name_like f -> pre ++ dname ++ post = x ++ f ++ y ->
    length pre <= length x /\ length post <= length y.
  Proof.
    intros Hf E. destruct (name_like_ends f Hf) as (a & r & b & q & e & Ha & Ef & Hb & Ef2 & He). split.
    - rewrite Ef, <- app_assoc in E. destruct (atom_position a _ _ Ha E) as [H _]. exact H.
    - rewrite Ef2 in E. rewrite <- !app_assoc in E. rewrite (app_assoc x q) in E.
      destruct (atom_position b _ _ Hb E) as [_ (e2 & rest & Ey & Hrest & He2)].
      (* e ++ y = e2 ++ rest ++ post *)
      destruct (app_app_cases e y e2 (rest ++ post) Ey) as [(l & -> & El)|(l & -> & ->)].
      + destruct l as [|h l].
        * cbn in El. rewrite <- El, app_length. lia.
        * destruct Hrest as [Hr|(z & Hr)]; rewrite Hr in El; [discriminate|]. injection El as <- _.
          exfalso. apply He. apply in_or_app. right. left. reflexivity.
      + rewrite !app_length. lia.
  Qed.

  Lemma without_dname : pre ++ post = join_char star_c (texts before ++ oper_text op0 :: texts after).
  Proof. unfold pre, post. rewrite join_mid, <- app_assoc. reflexivity. Qed.

  Lemma no_atom_outside a : In a (atoms L) -> ~ occurs a (pre ++ post).
  Proof.
    intros Ha H. rewrite without_dname in H. apply occurs_join in H.
    - destruct H as (s & Hin & Hs). apply in_app_or in Hin. destruct Hin as [Hin|[<-|Hin]].
      + apply in_map_iff in Hin. destruct Hin as (w & <- & Hw). revert Hs.
        apply scalar_no_atom; [rewrite Forall_forall in Hbok; apply Hbok, Hw|apply Hbs, in_or_app; left; exact Hw|exact Ha].
      + exact (atom_not_in_oper a op0 Ha op0_good Hs).
      + apply in_map_iff in Hin. destruct Hin as (w & <- & Hw). revert Hs.
        apply scalar_no_atom; [rewrite Forall_forall in Haok; apply Haok, Hw|apply Hbs, in_or_app; right; exact Hw|exact Ha].
    - destruct (texts before); discriminate.
    - apply atom_nonempty, Ha.
    - apply known_no_star, atom_known, Ha.
  Qed.

  Lemma no_name_outside f : name_like f -> ~ occurs f (pre ++ post).
  Proof.
    intros Hf (x & y & E). destruct (name_like_ends f Hf) as (a & r & _ & _ & _ & Ha & -> & _).
    apply (no_atom_outside a Ha). exists x, (r ++ y). rewrite E, <- app_assoc. reflexivity.
  Qed.

  Lemma occurs_app_r (a s t : str) : occurs a t -> occurs a (s ++ t).
  Proof. intros (x & y & ->). exists (s ++ x), y. rewrite <- app_assoc. reflexivity. Qed.
  Lemma occurs_app_l (a s t : str) : occurs a s -> occurs a (s ++ t).
  Proof. intros (x & y & ->). exists x, (y ++ t). rewrite <- !app_assoc. reflexivity. Qed.

  Lemma delete_dname : name_like dname -> delete_all (pre ++ dname ++ post) dname = pre ++ post.
  Proof.
    intros Hd. apply delete_once.
    - apply name_like_nonempty, Hd.
    - intros x y E. apply (name_position dname x y Hd E).
    - intros H. apply (no_name_outside dname Hd). apply occurs_app_r, H.
  Qed.

  Lemma field_name_loop_spec names : Forall name_like names -> name_like dname ->
    forall todo cur, incl todo names ->
    (cur = dname \/ (length cur < length dname /\ In dname todo)) ->
    field_name_loop (pre ++ dname ++ post) names todo cur = dname.
  Proof.
    intros Hn Hd. induction todo as [|f todo IH]; intros cur Hincl Hcur.
    - destruct Hcur as [->|[_ []]]. reflexivity.
    - cbn [field_name_loop]. apply IH; [intros z Hz; apply Hincl; right; exact Hz|].
      assert (Hf : name_like f) by (rewrite Forall_forall in Hn; apply Hn, Hincl; left; reflexivity).
      assert (Hle : contains (pre ++ dname ++ post) f = true -> length f <= length dname /\ (length f = length dname -> f = dname)).
      { intros Hc. apply contains_true in Hc. destruct Hc as (x & y & E).
        destruct (name_position f x y Hf E) as [H1 H2].
        assert (Hlen := f_equal (@length ascii) E). rewrite !app_length in Hlen. split; [lia|].
        intros Heq. assert (Hx : length x = length pre) by lia.
        destruct (app_app_cases _ _ _ _ E) as [(l & E1 & E2)|(l & E1 & E2)].
        - rewrite E1, app_length in Hx. destruct l; [|cbn in Hx; lia]. cbn in E2.
          symmetry in E2. destruct (app_app_cases _ _ _ _ E2) as [(k & E3 & E4)|(k & E3 & E4)].
          + rewrite E3, app_length in Heq. destruct k; [rewrite app_nil_r in E3; congruence|cbn in Heq; lia].
          + rewrite E3, app_length in Heq. destruct k; [rewrite app_nil_r in E3; congruence|cbn in Heq; lia].
        - rewrite E1, app_length in Hx. destruct l; [|cbn in Hx; lia]. cbn in E2.
          destruct (app_app_cases _ _ _ _ E2) as [(k & E3 & E4)|(k & E3 & E4)].
          + rewrite E3, app_length in Heq. destruct k; [rewrite app_nil_r in E3; congruence|cbn in Heq; lia].
          + rewrite E3, app_length in Heq. destruct k; [rewrite app_nil_r in E3; congruence|cbn in Heq; lia]. }
      destruct (contains (pre ++ dname ++ post) f) eqn:Ec; cbn [andb].
      2:{ destruct Hcur as [->|[Hlt Hin]]; [left; reflexivity|].
          destruct Hin as [->|Hin]; [|right; auto]. exfalso. apply contains_false in Ec. apply Ec.
          exists pre, post. reflexivity. }
      destruct (Hle eq_refl) as [Hle1 Heq].
      destruct (list_eq_dec ascii_dec f dname) as [->|Hne].
      + assert (Hok : existsb (contains (delete_all (pre ++ dname ++ post) dname)) names = false).
        { rewrite (delete_dname Hd). apply not_true_is_false. intros H. apply existsb_exists in H. destruct H as (g & Hg & Hc).
          apply contains_true in Hc. rewrite Forall_forall in Hn. exact (no_name_outside g (Hn g Hg) Hc). }
        rewrite Hok. cbn [negb andb]. destruct Hcur as [->|[Hlt _]].
        * rewrite Nat.ltb_irrefl. left. reflexivity.
        * apply Nat.ltb_lt in Hlt. rewrite Hlt. left. reflexivity.
      + assert (Hlf : length f < length dname) by (destruct (Nat.eq_dec (length f) (length dname)) as [E|E]; [exfalso; apply Hne, Heq, E|lia]).
        destruct Hcur as [->|[Hlt Hin]].
        * destruct (Nat.ltb (length dname) (length f)) eqn:E; [apply Nat.ltb_lt in E; lia|]. rewrite andb_false_r. left. reflexivity.
        * right. split; [destruct (_ && _); assumption|]. destruct Hin as [->|Hin]; [congruence|exact Hin].
  Qed.

  Lemma get_field_name_spec names : Forall name_like names -> In dname names ->
    get_field_name (pre ++ dname ++ post) names = dname.
  Proof.
    intros Hn Hin. assert (Hd : name_like dname) by (rewrite Forall_forall in Hn; apply Hn, Hin).
    apply field_name_loop_spec; try assumption; [apply incl_refl|].
    right. split; [|exact Hin]. assert (H := name_like_nonempty dname Hd). destruct dname; [congruence|cbn; lia].
  Qed.
End Lang.
