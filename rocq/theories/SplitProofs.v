From Verif Require Import ListAux FileModel ParseProofs OperatorProofs DerivedProofs TextProofs EquationProofs EquationProofs2 EquationProofs3 EquationProofs4 EquationProofs5 EquationProofs6 EquationProofs7 EquationProofs8.
From Verif Require Import LinearSpec LinearProofs.
From Coq Require Import Lia Permutation.
Open Scope nat_scope.

(** ** Names of derived fields as patterns *)
Lemma compile_app : forall n (u v : str), length u <= n -> (forall c v', v = c :: v' -> c <> star_c) -> compile (u ++ v) = compile u ++ compile v.
Proof.
  induction n as [|n IH]; intros u v Hn Hv.
  - destruct u; [reflexivity|cbn in Hn; lia].
  - destruct u as [|c u]; [reflexivity|]. destruct u as [|d u].
    + cbn [app compile]. destruct v as [|d v]; [reflexivity|].
      assert (Hd : Ascii.eqb d star_c = false) by (destruct (Ascii.eqb_spec d star_c) as [->|]; [exfalso; exact (Hv _ _ eq_refl eq_refl)|reflexivity]).
      rewrite Hd. reflexivity.
    + change ((c :: d :: u) ++ v) with (c :: d :: (u ++ v)).
      change (compile (c :: d :: u ++ v)) with (if Ascii.eqb d star_c then (if Ascii.eqb c dot_c then RAnyStar else RStar c) :: compile (u ++ v)
        else (if Ascii.eqb c dot_c then RAny else if Ascii.eqb c hat_c then RBegin else RLit c) :: compile ((d :: u) ++ v)).
      change (compile (c :: d :: u)) with (if Ascii.eqb d star_c then (if Ascii.eqb c dot_c then RAnyStar else RStar c) :: compile u
        else (if Ascii.eqb c dot_c then RAny else if Ascii.eqb c hat_c then RBegin else RLit c) :: compile (d :: u)).
      cbn [length] in Hn. destruct (Ascii.eqb d star_c).
      * rewrite (IH u v) by (assumption || lia). reflexivity.
      * rewrite (IH (d :: u) v) by (assumption || (cbn [length]; lia)). reflexivity.
Qed.

Lemma match_suffix A B : forall s b, match_here (A ++ B) s b = true -> exists x s' b', s = x ++ s' /\ match_here B s' b' = true.
Proof.
  induction A as [|r A IH]; intros s b H; [exists [], s, b; split; [reflexivity|exact H]|]. cbn [app] in H. destruct r as [c|c| | |].
  - destruct s as [|x s]; [discriminate|]. cbn [match_here] in H. apply andb_true_iff in H. destruct H as [_ H].
    destruct (IH s false H) as (x' & s' & b' & -> & H'). exists (x :: x'), s', b'. split; [reflexivity|exact H'].
  - revert b H. induction s as [|x s IHs]; intros b H; cbn [match_here] in H; apply orb_true_iff in H; destruct H as [H|H].
    + exact (IH _ _ H).
    + discriminate.
    + exact (IH _ _ H).
    + apply andb_true_iff in H. destruct H as [_ H]. destruct (IHs false H) as (x' & s' & b' & -> & H'). exists (x :: x'), s', b'. split; [reflexivity|exact H'].
  - destruct s as [|x s]; [discriminate|]. cbn [match_here] in H.
    destruct (IH s false H) as (x' & s' & b' & -> & H'). exists (x :: x'), s', b'. split; [reflexivity|exact H'].
  - revert b H. induction s as [|x s IHs]; intros b H; cbn [match_here] in H; apply orb_true_iff in H; destruct H as [H|H].
    + exact (IH _ _ H).
    + discriminate.
    + exact (IH _ _ H).
    + destruct (IHs false H) as (x' & s' & b' & -> & H'). exists (x :: x'), s', b'. split; [reflexivity|exact H'].
  - cbn [match_here] in H. apply andb_true_iff in H. destruct H as [_ H]. exact (IH _ _ H).
Qed.
Lemma search_suffix re : forall s b, re_search re s b = true -> exists x s' b', s = x ++ s' /\ match_here re s' b' = true.
Proof.
  induction s as [|c s IH]; intros b H; cbn [re_search] in H; apply orb_true_iff in H; destruct H as [H|H].
  - exists [], [], b. split; [reflexivity|exact H].
  - discriminate.
  - exists [], (c :: s), b. split; [reflexivity|exact H].
  - destruct (IH false H) as (x & s' & b' & -> & H'). exists (c :: x), s', b'. split; [reflexivity|exact H'].
Qed.
Lemma match_lits_app a B : forall s b, match_here (map RLit a ++ B) s b = true -> exists s' b', s = a ++ s' /\ match_here B s' b' = true.
Proof.
  induction a as [|c a IH]; intros s b H; [exists s, b; split; [reflexivity|exact H]|]. cbn [map app match_here] in H.
  destruct s as [|x s]; [discriminate|]. apply andb_true_iff in H. destruct H as [Hc H]. apply Ascii.eqb_eq in Hc. subst x.
  destruct (IH s false H) as (s' & b' & -> & H'). exists s', b'. split; [reflexivity|exact H'].
Qed.
Lemma match_star_app c B : forall s b, match_here (RStar c :: B) s b = true -> exists k s' b', s = repeat c k ++ s' /\ match_here B s' b' = true.
Proof.
  induction s as [|x s IHs]; intros b H; cbn [match_here] in H; apply orb_true_iff in H; destruct H as [H|H].
  - exists 0, [], b. split; [reflexivity|exact H].
  - discriminate.
  - exists 0, (x :: s), b. split; [reflexivity|exact H].
  - apply andb_true_iff in H. destruct H as [Hc H]. apply Ascii.eqb_eq in Hc. subst x.
    destruct (IHs false H) as (k & s' & b' & -> & H'). exists (S k), s', b'. split; [reflexivity|exact H'].
Qed.

(** An anchor behind a letter never matches. *)
Lemma anchor_dead re : In RBegin re -> forall s, match_here re s false = false.
Proof.
  induction re as [|r re IH]; intros Hin s; [destruct Hin|]. destruct r as [c|c| | |].
  1-4: assert (Hin' : In RBegin re) by (destruct Hin as [Hin|Hin]; [discriminate|exact Hin]); specialize (IH Hin').
  - destruct s as [|x s]; [reflexivity|]. cbn [match_here]. rewrite IH. apply andb_false_r.
  - induction s as [|x s IHs]; cbn [match_here]; rewrite IH; [reflexivity|]. cbn [orb]. cbn [match_here] in IHs. rewrite IHs. apply andb_false_r.
  - destruct s as [|x s]; [reflexivity|]. cbn [match_here]. apply IH.
  - induction s as [|x s IHs]; cbn [match_here]; rewrite IH; [reflexivity|]. cbn [orb]. exact IHs.
  - reflexivity.
Qed.
Lemma anchor_hit c re s : In RBegin re -> re_search (RLit c :: re) s true = false.
Proof.
  intros Hin. assert (G : forall b s, match_here (RLit c :: re) s b = false).
  { intros b [|x s0]; [reflexivity|]. cbn [match_here]. rewrite (anchor_dead re Hin). apply andb_false_r. }
  generalize true. induction s as [|x s IH]; intros b; cbn [re_search]; rewrite G; [reflexivity|]. cbn [orb]. apply IH.
Qed.

(** Text after the last separator. *)
Lemma suffix_after {A} (x z u : list A) c v : x ++ z = u ++ c :: v -> ~ In c z -> exists x', v = x' ++ z.
Proof.
  revert u. induction x as [|y x IH]; intros u E Hc.
  - cbn [app] in E. exfalso. apply Hc. rewrite E. apply in_or_app. right. left. reflexivity.
  - destruct u as [|y' u]; cbn [app] in E.
    + injection E as _ E. exists x. symmetry. exact E.
    + injection E as _ E. exact (IH u E Hc).
Qed.

Section Lang.
  Variable L : lang.
  Hypothesis HL : good_lang L.

  Lemma ident_chars' n c : ident n -> In c n -> name_char c = true.
  Proof. intros H Hc. assert (HF := ident_chars n H). rewrite forallb_forall in HF. apply HF, Hc. Qed.
  Lemma name_not c : name_char c = true -> c <> star_c /\ c <> hat_c /\ c <> dot_c.
  Proof. intros H. repeat split; intros ->; vm_compute in H; discriminate. Qed.

  (** The product of two fields does not occur next to an operator. *)
  Lemma before_field l1 o x (z : str) : x ++ z = lead_text l1 ++ oper_text o -> good_oper o -> z <> [] ->
    letter_c (first_letter z) = true -> ~ op_letter (first_letter z) -> (forall c, In c z -> name_char c = true) -> False.
  Proof.
    intros E Ho Hz Hl Hop Hn. assert (Hs : ~ In star_c z) by (intros H; exact (proj1 (name_not star_c (Hn _ H)) eq_refl)).
    assert (Hh : ~ In hat_c z) by (intros H; exact (proj1 (proj2 (name_not hat_c (Hn _ H))) eq_refl)).
    assert (G : exists x', oper_text o = x' ++ z).
    { destruct l1 as [|s l1]; [exists x; symmetry; exact E|].
      assert (Hlead : exists u, lead_text (s :: l1) = u ++ [star_c]).
      { clear. revert s. induction l1 as [|t l1 IH]; intros s; [exists s; cbn; rewrite app_nil_r; reflexivity|].
        destruct (IH t) as (u & Eu). exists (s ++ star_c :: u). change (lead_text (s :: t :: l1)) with ((s ++ [star_c]) ++ lead_text (t :: l1)). rewrite Eu, <- !app_assoc. reflexivity. }
      destruct Hlead as (u & Eu). rewrite Eu, <- app_assoc in E. cbn [app] in E. exact (suffix_after x z u star_c _ E Hs). }
    destruct G as (x' & Ex). destruct z as [|c z]; [congruence|]. cbn [first_letter hd] in *.
    destruct o as [| |ds]; cbn [oper_text] in Ex.
    - destruct x'; discriminate Ex.
    - apply Hop. assert (Hin : In c ("LAP"%string : str)) by (rewrite Ex; apply in_or_app; right; left; reflexivity).
      cbn in Hin. unfold op_letter. destruct Hin as [<-|[<-|[<-|[]]]]; auto.
    - change (("LAP^"%string : str) ++ map digit_text ds) with (("LAP"%string : str) ++ hat_c :: map digit_text ds) in Ex.
      destruct (suffix_after x' (c :: z) _ _ _ (eq_sym Ex) Hh) as (x2 & E2).
      assert (Hin : In c (map digit_text ds)) by (rewrite E2; apply in_or_app; right; left; reflexivity).
      apply in_map_iff in Hin. destruct Hin as (d & <- & Hd). destruct Ho as [_ Hds]. rewrite Forall_forall in Hds.
      destruct (digit_text_facts d (Hds d Hd)) as (_ & _ & Hlt & _). congruence.
  Qed.

  (** The pattern made of a name that carries an exponent has an anchor that is
      not at its beginning. *)
  Lemma power_pattern gs g : In g gs -> Forall (fun g => good_factor g /\ In (fa_name g) (l_fields L)) gs -> fa_exp g <> None ->
    exists c re, compile (product_of gs) = RLit c :: re /\ In RBegin re.
  Proof.
    intros Hin HF He. destruct (in_split _ _ Hin) as (l1 & l2 & Egs).
    assert (Hg : good_factor g) by (rewrite Forall_forall in HF; apply HF, Hin).
    assert (E : exists u d v, product_of gs = u ++ hat_c :: d :: v /\ d <> star_c).
    { rewrite Egs. unfold product_of. rewrite map_app. cbn [map]. rewrite join_mid. unfold factor_text at 2.
      destruct (fa_exp g) as [e|] eqn:Ee; [|congruence]. destruct Hg as [_ Hg]. rewrite Ee in Hg. destruct Hg as (Hne & Hd & _).
      unfold expo_text. destruct (ex_int e) as [|d ds]; [congruence|]. inversion Hd as [|? ? Hd1 _]; subst.
      exists (lead_text (map factor_text l1) ++ fa_name g), (digit_text d),
        (map digit_text ds ++ match ex_frac e with None => [] | Some f => dot_c :: map digit_text f end ++ tail_text (map factor_text l2)).
      split; [cbn [map app]; rewrite <- !app_assoc; cbn [app]; rewrite <- !app_assoc; reflexivity|].
      destruct (digit_text_facts d Hd1) as (_ & _ & _ & _ & _ & Hs & _). intros E. rewrite E in Hs. vm_compute in Hs. discriminate. }
    destruct E as (u & d & v & E & Hd).
    assert (HB : In RBegin (compile (product_of gs))).
    { rewrite E, (compile_app (length u)); [|lia|intros c v' Ec; injection Ec as <- _; vm_compute; discriminate].
      apply in_or_app. right. cbn [compile]. destruct (Ascii.eqb_spec d star_c) as [->|_]; [congruence|]. cbn. left. reflexivity. }
    assert (Hf : exists c1 c2 r, product_of gs = c1 :: c2 :: r /\ name_char c1 = true /\ name_char c2 = true).
    { destruct gs as [|g0 gs0]; [destruct Hin|]. unfold product_of. cbn [map]. rewrite join_cons. inversion HF as [|? ? [Hg0 Hn0] _]; subst.
      assert (Hat : In (fa_name g0) (atoms L)) by (apply in_or_app; left; exact Hn0).
      destruct (gl_long L HL _ Hat) as [Hl _]. assert (Hc := ident_chars' (fa_name g0)). destruct Hg0 as [Hid _].
      unfold factor_text. destruct (fa_name g0) as [|c1 [|c2 n0]]; [cbn in Hl; lia|cbn in Hl; lia|].
      exists c1, c2. eexists. split; [cbn [app]; reflexivity|]. split; apply Hc; cbn; tauto. }
    destruct Hf as (c1 & c2 & r & Ef & H1 & H2). rewrite Ef in *.
    assert (Hc : compile (c1 :: c2 :: r) = RLit c1 :: compile (c2 :: r)).
    { change (compile ([c1] ++ (c2 :: r)) = RLit c1 :: compile (c2 :: r)). rewrite (compile_app 1); [|cbn; lia|intros c v' Ec; injection Ec as <- _; apply (name_not c2 H2)].
      destruct (name_not c1 H1) as (_ & Hh & Hdt). cbn [compile app].
      destruct (Ascii.eqb_spec c1 dot_c) as [->|_]; [congruence|]. destruct (Ascii.eqb_spec c1 hat_c) as [->|_]; [congruence|]. reflexivity. }
    rewrite Hc in *. exists c1, (compile (c2 :: r)). split; [reflexivity|]. destruct HB as [HB|HB]; [discriminate|exact HB].
  Qed.

  (** A product of names without exponents, as a pattern, matches only text that
      ends with the last two names, the first of them without its last letter. *)
  Lemma pair_pattern gs n1 n2 s : ident n1 -> ident n2 -> 2 <= length n1 ->
    re_hit (lead_text gs ++ n1 ++ star_c :: n2) s = true ->
    exists x k y, s = x ++ (removelast n1 ++ repeat (last n1 star_c) k) ++ n2 ++ y.
  Proof.
    intros I1 I2 Hl H. unfold re_hit in H.
    assert (Hne : n1 <> []) by (intros E; rewrite E in Hl; cbn in Hl; lia).
    assert (E1 : n1 = removelast n1 ++ [last n1 star_c]) by exact (app_removelast_last star_c Hne).
    set (a := removelast n1) in *. set (c := last n1 star_c) in *.
    assert (Ha : forallb name_char a = true).
    { assert (X := ident_chars n1 I1). rewrite E1, forallb_app in X. apply andb_true_iff in X. apply X. }
    assert (Hc : name_char c = true) by (apply (ident_chars' n1 c I1); rewrite E1; apply in_or_app; right; left; reflexivity).
    destruct (name_not c Hc) as (Hcs & Hch & Hcd).
    assert (Hlit : forall u, forallb name_char u = true -> compile u = map RLit u).
    { intros u Hu. clear -Hu. induction u as [|x u IH]; [reflexivity|]. cbn [forallb] in Hu. apply andb_true_iff in Hu. destruct Hu as [Hx Hu].
      change (x :: u) with ([x] ++ u). rewrite (compile_app 1); [|cbn; lia|].
      - rewrite (IH Hu). destruct (name_not x Hx) as (_ & Hh & Hd). cbn [compile app map].
        destruct (Ascii.eqb_spec x dot_c) as [->|_]; [congruence|]. destruct (Ascii.eqb_spec x hat_c) as [->|_]; [congruence|]. reflexivity.
      - intros y v Ey. rewrite Ey in Hu. cbn [forallb] in Hu. apply andb_true_iff in Hu. apply (name_not y (proj1 Hu)). }
    assert (EC : compile (lead_text gs ++ n1 ++ star_c :: n2) = compile (lead_text gs) ++ map RLit a ++ RStar c :: map RLit n2).
    { rewrite E1, <- app_assoc. cbn [app].
      assert (Hna : a <> []) by (intros E; rewrite E1, E in Hl; cbn in Hl; lia).
      rewrite (compile_app (length (lead_text gs))); [|lia|].
      - f_equal. rewrite (compile_app (length a)); [|lia|intros z v Ez; injection Ez as <- _; exact Hcs]. rewrite (Hlit a Ha). f_equal.
        change (c :: star_c :: n2) with ([c; star_c] ++ n2). rewrite (compile_app 2); [|cbn; lia|].
        + rewrite (Hlit n2 (ident_chars n2 I2)). cbn [compile]. rewrite Ascii.eqb_refl. destruct (Ascii.eqb_spec c dot_c) as [E|_]; [congruence|]. reflexivity.
        + intros z v Ez. apply (name_not z). apply (ident_chars' n2 z I2). rewrite Ez. left. reflexivity.
      - intros z v Ez. destruct a as [|a0 a']; [congruence|]. cbn [app] in Ez. injection Ez as <- _. cbn [forallb] in Ha. apply andb_true_iff in Ha. apply (name_not a0 (proj1 Ha)). }
    rewrite EC in H. destruct (search_suffix _ _ _ H) as (x1 & s1 & b1 & -> & M1).
    destruct (match_suffix _ _ _ _ M1) as (x2 & s2 & b2 & -> & M2).
    destruct (match_lits_app _ _ _ _ M2) as (s3 & b3 & -> & M3). destruct (match_star_app _ _ _ _ M3) as (k & s4 & b4 & -> & M4).
    assert (M5 : match_here (map RLit n2 ++ []) s4 b4 = true) by (rewrite app_nil_r; exact M4).
    destruct (match_lits_app _ _ _ _ M5) as (s5 & b5 & -> & _). exists (x1 ++ x2), k, s5. rewrite <- !app_assoc. reflexivity.
  Qed.
End Lang.

(** ** Linear products are recognised whatever derived fields exist *)
Section Product.
  Variable L : lang.
  Hypothesis HL : good_lang L.
  Variables t before fs after : list wfactor.
  Hypothesis GP : good_product L t before fs after.
  Variable field : str.
  Hypothesis Hfield : In field (l_fields L).
  Hypothesis Hlin : field_factors L t = [{| fa_name := field; fa_exp := None |}].

  Lemma linear_no_hit f : name_like L f -> f <> field -> re_hit f (product_text t) = false.
  Proof.
    intros Hf Hne. apply not_true_is_false. intros H.
    assert (Hok := t_all L t before fs after GP). assert (Hnt := gp_nonempty _ _ _ _ _ GP).
    destruct (linear_fs L HL t before fs after GP field Hlin) as (w & Efs & En & Ee).
    assert (Hat : In field (atoms L)) by (apply in_or_app; left; exact Hfield).
    assert (Honly : forall a x y, In a (atoms L) -> product_text t = x ++ a ++ y -> a = field
       /\ exists w1 w0, In w0 t /\ x = lead_text (texts w1) ++ oper_text (wf_op w0)).
    { intros a x y Ha E. destruct (product_occ L HL t a x y Hok Hnt Ha E) as (v1 & v & v2 & Ev & Env & Ex & _).
      assert (Hv : In v fs).
      { apply (not_scalar_in_fs L t before fs after GP); [rewrite Ev; apply in_mid|]. rewrite Env. apply (gl_scalar L HL _ Ha). }
      rewrite Efs in Hv. destruct Hv as [<-|[]]. split; [congruence|]. exists v1, w. split; [rewrite Ev; apply in_mid|exact Ex]. }
    assert (Hatom : forall a, In a (atoms L) -> re_hit a (product_text t) = true -> a = field).
    { intros a Ha H2. rewrite re_hit_ident in H2 by (apply (gl_ident L HL), in_or_app; left; exact Ha).
      apply contains_true in H2. destruct H2 as (x & y & E). apply (Honly a x y Ha E). }
    destruct Hf as [Ha|(gs & Hgs & HF & Ef)].
    - apply Hne, Hatom; assumption.
    - destruct (existsb (fun g => match fa_exp g with None => false | Some _ => true end) gs) eqn:Hex.
      + apply existsb_exists in Hex. destruct Hex as (g & Hin & Hg).
        destruct (power_pattern L HL gs g Hin HF) as (c & re & Ec & HB); [destruct (fa_exp g); [discriminate|discriminate Hg]|].
        unfold re_hit in H. rewrite Ef, Ec, (anchor_hit c re _ HB) in H. discriminate.
      + assert (Hno : forall g, In g gs -> fa_exp g = None).
        { intros g Hin. destruct (fa_exp g) eqn:E; [|reflexivity]. exfalso.
          assert (X : existsb (fun g => match fa_exp g with None => false | Some _ => true end) gs = true) by (apply existsb_exists; exists g; rewrite E; auto). congruence. }
        destruct (exists_last Hgs) as (gs1 & g2 & E2).
        assert (Hg2 : In g2 gs) by (rewrite E2; apply in_or_app; right; left; reflexivity).
        assert (Tx : forall g, In g gs -> factor_text g = fa_name g) by (intros g Hin; unfold factor_text; rewrite (Hno g Hin), app_nil_r; reflexivity).
        rewrite Forall_forall in HF. destruct (HF g2 Hg2) as [[I2 _] F2].
        destruct gs1 as [|g0 gs1'].
        * apply Hne. rewrite Ef, E2. unfold product_of. cbn [app map join_char]. rewrite Tx by exact Hg2.
          apply Hatom; [apply in_or_app; left; exact F2|]. rewrite Ef, E2 in H. unfold product_of in H. cbn [app map join_char] in H. rewrite Tx in H by exact Hg2. exact H.
        * destruct (exists_last (l := g0 :: gs1') ltac:(discriminate)) as (gs2 & g1 & E1).
          assert (Egs : gs = gs2 ++ g1 :: [g2]) by (rewrite E2, E1, <- app_assoc; reflexivity).
          assert (Hg1 : In g1 gs) by (rewrite Egs; apply in_mid). destruct (HF g1 Hg1) as [[I1 _] F1].
          assert (A1 : In (fa_name g1) (atoms L)) by (apply in_or_app; left; exact F1).
          destruct (gl_long L HL _ A1) as [Hlen Hop].
          assert (Et : f = lead_text (map factor_text gs2) ++ fa_name g1 ++ star_c :: fa_name g2).
          { rewrite Ef, Egs. unfold product_of. rewrite map_app. cbn [map]. rewrite join_mid, !Tx by assumption. cbn [tail_text flat_map]. rewrite app_nil_r. reflexivity. }
          rewrite Et in H. destruct (pair_pattern _ _ _ _ I1 I2 ltac:(lia) H) as (x & k & y & E).
          rewrite app_assoc in E. destruct (Honly _ _ _ ltac:(apply in_or_app; left; exact F2) E) as (_ & w1 & w0 & Hw0 & Ex).
          assert (Hfl : removelast (fa_name g1) <> [] /\ first_letter (removelast (fa_name g1)) = first_letter (fa_name g1) /\ forall c, In c (removelast (fa_name g1)) -> In c (fa_name g1)).
          { destruct (fa_name g1) as [|c1 [|c2 n]]; [cbn in Hlen; lia|cbn in Hlen; lia|]. split; [discriminate|]. split; [reflexivity|].
            intros c Hc. rewrite (app_removelast_last star_c (l := c1 :: c2 :: n)) by discriminate. apply in_or_app. left. exact Hc. }
          destruct Hfl as (R1 & R2 & R3).
          assert (Hfz : first_letter (removelast (fa_name g1) ++ repeat (last (fa_name g1) star_c) k) = first_letter (fa_name g1)).
          { rewrite <- R2. destruct (removelast (fa_name g1)); [congruence|reflexivity]. }
          apply (before_field (texts w1) (wf_op w0) x (removelast (fa_name g1) ++ repeat (last (fa_name g1) star_c) k) Ex).
          -- rewrite Forall_forall in Hok. apply (Hok w0 Hw0).
          -- destruct (removelast (fa_name g1)); [congruence|discriminate].
          -- rewrite Hfz. clear -I1. unfold ident in I1. unfold first_letter. destruct (fa_name g1); [destruct I1|]. apply I1.
          -- rewrite Hfz. exact Hop.
          -- intros c Hc. apply (ident_chars' _ c I1). apply in_app_or in Hc. destruct Hc as [Hc|Hc]; [apply R3, Hc|].
             apply repeat_spec in Hc. subst c. assert (Hn1 : fa_name g1 <> []) by (intros E0; rewrite E0 in Hlen; cbn in Hlen; lia).
             rewrite (app_removelast_last star_c Hn1) at 2. apply in_or_app. right. left. reflexivity.
  Qed.

  Lemma linear_bilinear_all names : Forall (name_like L) names -> is_bilinear (product_text t) field names = true.
  Proof.
    intros HF. assert (H0 := linear_bilinear L HL t before fs after GP field Hfield Hlin [] ltac:(intros ? [])).
    unfold is_bilinear in *.
    assert (Hex : existsb (fun f => negb (str_eqb f field) && re_hit f (product_text t)) names = false).
    { apply not_true_is_false. intros H. apply existsb_exists in H. destruct H as (f & Hf & H). apply andb_true_iff in H. destruct H as [H1 H2].
      rewrite Forall_forall in HF. rewrite linear_no_hit in H2; [discriminate|exact (HF f Hf)|]. intros ->. rewrite str_eqb_refl in H1. discriminate. }
    rewrite Hex. exact H0.
  Qed.
End Product.
