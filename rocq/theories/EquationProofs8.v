From Verif Require Import ListAux ParseProofs OperatorProofs EquationModel EquationSpec DerivedProofs TextProofs EquationProofs EquationProofs2 EquationProofs3 EquationProofs4 EquationProofs5 EquationProofs6 EquationProofs7.
From Coq Require Import Lra Qreals FunctionalExtensionality.
Open Scope nat_scope.

Lemma Csum_perm l l' : Permutation l l' -> Csum l = Csum l'.
Proof. induction 1; cbn [Csum]; [reflexivity|congruence|ring|congruence]. Qed.

Section Lang.
  Variable L : lang.
  Hypothesis HL : good_lang L.

  Lemma field_no_eq a : In a (l_fields L) -> ~ In "="%char a.
  Proof.
    intros H Hin. assert (Hi := ident_chars a (gl_ident L HL a (atom_known L a ltac:(apply in_or_app; left; exact H)))).
    rewrite forallb_forall in Hi. specialize (Hi _ Hin). vm_compute in Hi. discriminate.
  Qed.

  Section Eq.
    Variable e : eqtext.
    Hypothesis HE : good_equation L e.

    Definition e_sum : sum_text :=
      {| lead := q_lead e; term0 := item_text (q_first e);
         more := map (fun si => (fst si, item_text (snd si))) (q_more e) |}.

    Lemma e_well_formed : well_formed pm_signs e_sum.
    Proof.
      destruct HE as (_ & Hl & Hf & Hm). split; [|split].
      - intros c Hc. destruct (Hl c Hc) as [->| ->]; cbn; auto.
      - apply (item_plain L HL), Hf.
      - cbn [e_sum more]. apply Forall_forall. intros st Hst. apply in_map_iff in Hst. destruct Hst as (si & <- & Hsi).
        rewrite Forall_forall in Hm. destruct (Hm si Hsi) as [Hs Hg]. split; [destruct Hs as [->| ->]; cbn; auto|apply (item_plain L HL), Hg].
    Qed.

    Lemma e_signed : signed_terms e_sum = map piece_of (signed_items e).
    Proof. unfold signed_terms, signed_items, e_sum. cbn [term0 lead more map piece_of fst snd]. f_equal. rewrite !map_map. reflexivity. Qed.

    Lemma e_no_eq : ~ In "="%char (eq_rhs e).
    Proof.
      destruct HE as (_ & Hl & Hf & Hm). unfold eq_rhs, render. cbn [lead term0 more]. intros Hin.
      apply in_app_or in Hin. destruct Hin as [Hin|Hin].
      - destruct (q_lead e) as [c|]; [|destruct Hin]. destruct Hin as [Ec|[]]. destruct (Hl _ eq_refl) as [E|E]; rewrite E in Ec; discriminate.
      - apply in_app_or in Hin. destruct Hin as [Hin|Hin]; [exact (proj2 (item_plain L HL _ Hf) Hin)|].
        apply in_flat_map in Hin. destruct Hin as (st & Hst & Hin). apply in_map_iff in Hst. destruct Hst as (si & <- & Hsi).
        rewrite Forall_forall in Hm. destruct (Hm si Hsi) as [Hs Hg]. cbn [fst snd] in Hin. destruct Hin as [E|Hin].
        + destruct Hs as [Hs|Hs]; rewrite Hs in E; discriminate.
        + exact (proj2 (item_plain L HL _ Hg) Hin).
    Qed.

    Lemma e_split : exists items, split_on_many (eq_rhs e) pm_signs = Ok (map piece_of items) /\ Permutation items (signed_items e).
    Proof.
      destruct (split_on_many_terms pm_signs e_sum e_well_formed) as (ps & E & Hp).
      rewrite e_signed in Hp. destruct (Permutation_map_inv _ _ Hp) as (items & -> & Hp').
      exists items. split; [exact E|apply Permutation_sym, Hp'].
    Qed.

    Lemma items_good items : Permutation items (signed_items e) ->
      Forall (good_item L) (map fst items) /\ Forall (fun p => snd p = None \/ snd p = Some plus_c \/ snd p = Some minus_c) items.
    Proof.
      intros Hp.
      assert (Hall : forall p, In p (signed_items e) -> good_item L (fst p) /\ (snd p = None \/ snd p = Some plus_c \/ snd p = Some minus_c)).
      { destruct HE as (_ & Hl & Hf & Hm). intros p [<-|Hin]; cbn [fst snd].
        - split; [exact Hf|]. destruct (q_lead e) as [c|]; [|auto]. destruct (Hl c eq_refl) as [->| ->]; auto.
        - apply in_map_iff in Hin. destruct Hin as (si & <- & Hsi). rewrite Forall_forall in Hm. destruct (Hm si Hsi) as [Hs Hg].
          cbn [fst snd]. split; [exact Hg|]. destruct Hs as [->| ->]; auto. }
      split; apply Forall_forall.
      - intros it Hit. apply in_map_iff in Hit. destruct Hit as (p & <- & Hin). apply Hall, (Permutation_in _ Hp), Hin.
      - intros p Hin. apply Hall, (Permutation_in _ Hp), Hin.
    Qed.

    Lemma e_field : In (q_field e) (l_fields L).
    Proof. apply HE. Qed.

    Lemma e_sides : sides (eq_text e) = Ok (derivative_of (q_field e), eq_rhs e).
    Proof. apply sides_equation; [apply field_no_eq, e_field|exact e_no_eq]. Qed.

    Lemma e_leibniz : field_name_from_leibniz (derivative_of (q_field e)) = Ok (q_field e).
    Proof. apply derivative_roundtrip. reflexivity. Qed.

    Definition e_items : list item := q_first e :: map snd (q_more e).

    Lemma update_spec m : minv L m -> exists m', update_derived_fields m (eq_text e) = Ok m' /\ minv L m'
      /\ incl (all_field_names m) (all_field_names m') /\ Forall (fun p => cov L m' (fst p)) (signed_items e).
    Proof.
      intros HM. destruct e_split as (items & Es & Hp). destruct (items_good items Hp) as [Hg _].
      destruct (derived_loop_spec L HL (q_field e) e_field (map fst items) m HM Hg) as (HM' & Hi & Hc).
      eexists. split; [|split; [exact HM'|split; [exact Hi|]]].
      - unfold update_derived_fields. assert (Hs := e_sides). unfold sides in Hs.
        destruct (split_char "=" (eq_text e)) as [|l [|r [|]]]; try discriminate. injection Hs as -> ->.
        rewrite Es. cbn [bind]. rewrite e_leibniz. cbn [bind]. rewrite !map_map. reflexivity.
      - apply Forall_forall. intros p Hin. apply (Permutation_in _ (Permutation_sym Hp)) in Hin.
        rewrite Forall_forall in Hc. apply Hc. apply in_map, Hin.
    Qed.
  End Eq.

  Definition all_cov (m : pmodel) (e : eqtext) : Prop := Forall (fun p => cov L m (fst p)) (signed_items e).

  Lemma all_cov_mono m m' e : incl (all_field_names m) (all_field_names m') -> all_cov m e -> all_cov m' e.
  Proof. intros Hi. apply Forall_impl. intros p. apply cov_mono, Hi. Qed.

  Lemma add_equations_spec texts es : Forall2 (fun s e => strip_spaces s = eq_text e) texts es ->
    Forall (good_equation L) es -> forall m, minv L m ->
    exists m', add_equations m texts = Ok m' /\ minv L m' /\ incl (all_field_names m) (all_field_names m')
      /\ Forall (all_cov m') es.
  Proof.
    induction 1 as [|s e texts es Hs _ IH]; intros Hg m HM.
    - exists m. split; [reflexivity|]. split; [exact HM|]. split; [apply incl_refl|constructor].
    - inversion Hg as [|? ? He Hes]; subst. cbn [add_equations]. unfold add_equation. rewrite Hs.
      destruct (update_spec e He m HM) as (m1 & E1 & HM1 & Hi1 & Hc1). rewrite E1. cbn [bind].
      destruct (IH Hes m1 HM1) as (m2 & E2 & HM2 & Hi2 & Hc2). exists m2. split; [exact E2|]. split; [exact HM2|].
      split; [eapply incl_tran; eassumption|]. constructor; [|exact Hc2]. eapply all_cov_mono; eassumption.
  Qed.

  Lemma start_inv : minv L (start_model L).
  Proof.
    constructor; try reflexivity; cbn [start_model pm_derived].
    - apply incl_refl.
    - apply Forall_forall. intros n Hn. left. apply in_or_app. right. exact Hn.
  Qed.

  (** ** Building the right-hand side *)
  Definition value_ok (m : pmodel) (field : str) (items : list (item * option ascii)) (acc r : list built * list built) : Prop :=
    forall cpow val ft scal brick implicit explicit linear nonlinear freq,
      good_bricks L m cpow val ft scal brick ->
      let ev := eval_built cpow brick implicit explicit linear nonlinear freq in
      Cadd (Csum (map ev (fst r))) (Cmul (Csum (map ev (snd r))) (brick field))
      = Cadd (Cadd (Csum (map ev (fst acc))) (Cmul (Csum (map ev (snd acc))) (brick field)))
             (Csum (map (fun p => Cmul (RtoC (sign_value (snd p)))
                (item_meaning L cpow val ft scal implicit explicit linear nonlinear freq (brick field) (fst p))) items)).

  Lemma sign_factor_value d : sign_factor d = sign_value d.
  Proof. destruct d; reflexivity. Qed.

  Lemma user_value freq os name d v : In name (user_terms L) -> Forall (fun o => spelling o <> None /\ o <> Neg) os ->
    (d = None \/ d = Some plus_c \/ d = Some minus_c) ->
    user_term_value C flip_sign (lap_eval freq) (concat (map op_str os) ++ name, d) v
    = Cmul (RtoC (sign_value d)) (Cmul (RtoC (lap_symbol freq ^ lap_power os)) v).
  Proof.
    intros Hn Ho Hd. destruct (user_spelled os Ho) as [Hs Hm]. destruct (gl_user L HL name Hn) as (Hb & _).
    rewrite (user_term_value_spec freq os (map op_str os) name d v Hs Hb Hd), Hm, sign_factor_value.
    cbn [pow]. rewrite Rmult_1_r, RtoC_mul. ring.
  Qed.

  Lemma build_loop_spec m field : minv L m -> In field (l_fields L) ->
    forall items acc, Forall (good_item L) (map fst items) ->
      Forall (fun p => snd p = None \/ snd p = Some plus_c \/ snd p = Some minus_c) items ->
      Forall (fun p => cov L m (fst p)) items ->
      exists r, build_loop m field (map piece_of items) acc = Ok r /\ value_ok m field items acc r.
  Proof.
    intros HM Hfield. induction items as [|[it d] items IH]; intros acc Hg Hd Hc.
    { exists acc. split; [reflexivity|]. intros until 1. cbn [map Csum]. ring. }
    cbn [map fst] in Hg. inversion Hg as [|? ? Hit Hits]; subst. inversion Hd as [|? ? Hd1 Hds]; subst. inversion Hc as [|? ? Hc1 Hcs]; subst.
    cbn [fst snd] in *. cbn [map piece_of build_loop fst snd]. destruct acc as [terms denum].
    assert (Happ : forall tt dd, (forall cpow val ft scal brick implicit explicit linear nonlinear freq,
        good_bricks L m cpow val ft scal brick ->
        let ev := eval_built cpow brick implicit explicit linear nonlinear freq in
        Cadd (Csum (map ev tt)) (Cmul (Csum (map ev dd)) (brick field)) =
        Cmul (RtoC (sign_value d)) (item_meaning L cpow val ft scal implicit explicit linear nonlinear freq (brick field) it)) ->
      exists r, build_loop m field (map piece_of items) (terms ++ tt, denum ++ dd) = Ok r /\ value_ok m field ((it, d) :: items) (terms, denum) r).
    { intros tt dd Hv. destruct (IH (terms ++ tt, denum ++ dd) Hits Hds Hcs) as (r & E & Hr). exists r. split; [exact E|].
      intros cpow val ft scal brick implicit explicit linear nonlinear freq GB ev.
      specialize (Hr cpow val ft scal brick implicit explicit linear nonlinear freq GB). cbv zeta in Hr.
      specialize (Hv cpow val ft scal brick implicit explicit linear nonlinear freq GB). cbv zeta in Hv. fold ev in Hr, Hv.
      rewrite Hr. cbn [fst snd map Csum]. rewrite <- Hv, !map_app, !Csum_app. ring. }
    destruct it as [t|os name]; cbn [item_text good_item] in *.
    - destruct Hit as [(before & fs & after & GP) Hnu].
      assert (Hn1 : mem_str (remove_known_prefixes (product_text t)) (pm_implicit m) = false).
      { apply mem_str_notIn. rewrite (mi_implicit L m HM). intros H. apply Hnu. unfold user_terms. rewrite !in_app_iff. auto. }
      assert (Hn2 : mem_str (remove_known_prefixes (product_text t)) (pm_explicit m) = false).
      { apply mem_str_notIn. rewrite (mi_explicit L m HM). intros H. apply Hnu. unfold user_terms. rewrite !in_app_iff. auto. }
      assert (Hn3 : mem_str (remove_known_prefixes (product_text t)) (pm_mixed m) = false).
      { apply mem_str_notIn. rewrite (mi_mixed L m HM). intros H. apply Hnu. unfold user_terms. rewrite !in_app_iff. auto. }
      rewrite Hn1, Hn2, Hn3. destruct (is_bilinear (product_text t) field (all_field_names m)) eqn:Eb.
      + assert (Hincl : incl (l_fields L) (all_field_names m)).
        { unfold all_field_names. rewrite (mi_fields L m HM). apply incl_appl, incl_refl. }
        destruct (bilinear_shape L HL t before fs after GP field _ Hfield Hincl Eb) as (w1 & w & w2 & Et & Efs & En & Ee).
        destruct (concrete_bilinear L HL m HM t before fs after GP field Hfield w1 w2 w Et Efs En Ee d) as (p & Ep & Hp).
        rewrite Ep. cbn [bind]. destruct (Happ [] [BTerm p]) as (r & E & Hr).
        * intros cpow val ft scal brick implicit explicit linear nonlinear freq GB. cbv zeta. cbn [map Csum eval_built item_meaning].
          rewrite <- (Hp cpow val ft scal brick freq GB). ring.
        * rewrite app_nil_r in E. exists r. split; assumption.
      + destruct (concrete_explicit L HL m HM t before fs after GP d (Hc1 before fs after GP)) as (p & Ep & Hp).
        change (piece_of (IProduct t, d)) with (product_text t, d). rewrite Ep. cbn [bind]. destruct (Happ [BTerm p] []) as (r & E & Hr).
        * intros cpow val ft scal brick implicit explicit linear nonlinear freq GB. cbv zeta. cbn [map Csum eval_built item_meaning].
          rewrite <- (Hp cpow val ft scal brick freq GB). ring.
        * rewrite app_nil_r in E. exists r. split; assumption.
    - destruct Hit as [Hn Ho]. destruct (user_spelled os Ho) as [Hs _]. destruct (gl_user L HL name Hn) as (Hb & _).
      destruct (operators_recovered os (map op_str os) name Hs Hb) as [_ Er]. rewrite Er.
      assert (Hcase : forall (b1 b2 : bool), mem_str name (l_implicit L) = b1 -> mem_str name (l_explicit L) = b2 -> True) by auto.
      rewrite (mem_str_same _ _ _ (mi_implicit L m HM)), (mem_str_same _ _ _ (mi_explicit L m HM)), (mem_str_same _ _ _ (mi_mixed L m HM)).
      destruct (mem_str name (l_implicit L)) eqn:E1.
      { destruct (Happ [] [BImplicit name (concat (map op_str os) ++ name, d)]) as (r & E & Hr).
        - intros cpow val ft scal brick implicit explicit linear nonlinear freq GB. cbv zeta. cbn [map Csum eval_built item_meaning].
          rewrite user_value by assumption. unfold user_meaning. rewrite E1. ring.
        - rewrite app_nil_r in E. exists r. split; assumption. }
      destruct (mem_str name (l_explicit L)) eqn:E2.
      { destruct (Happ [BExplicit name (concat (map op_str os) ++ name, d)] []) as (r & E & Hr).
        - intros cpow val ft scal brick implicit explicit linear nonlinear freq GB. cbv zeta. cbn [map Csum eval_built item_meaning].
          rewrite user_value by assumption. unfold user_meaning. rewrite E1, E2. ring.
        - rewrite app_nil_r in E. exists r. split; assumption. }
      assert (E3 : mem_str name (l_mixed L) = true).
      { apply mem_str_In. apply mem_str_notIn in E1, E2. unfold user_terms in Hn. rewrite !in_app_iff in Hn. tauto. }
      rewrite E3.
      apply (Happ [BNonLinear name (concat (map op_str os) ++ name, d)] [BLinear name (concat (map op_str os) ++ name, d)]).
      intros cpow val ft scal brick implicit explicit linear nonlinear freq GB. cbv zeta. cbn [map Csum eval_built item_meaning].
      rewrite !user_value by assumption. unfold user_meaning. rewrite E1, E2. ring.
  Qed.

  Lemma build_spec m e : minv L m -> good_equation L e -> all_cov m e ->
    exists terms denum, build m (eq_text e) = Ok (terms, denum) /\
      forall cpow val ft scal brick implicit explicit linear nonlinear freq,
        good_bricks L m cpow val ft scal brick ->
        let ev := eval_built cpow brick implicit explicit linear nonlinear freq in
        Cadd (Csum (map ev terms)) (Cmul (Csum (map ev denum)) (brick (q_field e)))
        = rhs_meaning L cpow val ft scal implicit explicit linear nonlinear freq (brick (q_field e)) e.
  Proof.
    intros HM HE Hc. destruct (e_split e HE) as (items & Es & Hp). destruct (items_good e HE items Hp) as [Hg Hd].
    assert (Hc' : Forall (fun p => cov L m (fst p)) items).
    { apply Forall_forall. intros p Hin. unfold all_cov in Hc. rewrite Forall_forall in Hc. apply Hc, (Permutation_in _ Hp), Hin. }
    destruct (build_loop_spec m (q_field e) HM (e_field e HE) items ([], []) Hg Hd Hc') as ([terms denum] & E & Hv).
    exists terms, denum. split.
    - unfold build. rewrite (e_sides e HE). cbn [bind fst snd]. rewrite e_leibniz. cbn [bind]. rewrite Es. cbn [bind]. exact E.
    - intros cpow val ft scal brick implicit explicit linear nonlinear freq GB ev.
      specialize (Hv cpow val ft scal brick implicit explicit linear nonlinear freq GB). cbv zeta in Hv. fold ev in Hv. cbn [fst snd] in Hv.
      rewrite Hv. cbn [map Csum]. unfold rhs_meaning. rewrite (Csum_perm _ _ (Permutation_map _ Hp)). ring.
  Qed.

  Theorem parsed_rhs texts es : Forall2 (fun s e => strip_spaces s = eq_text e) texts es ->
    Forall (good_equation L) es ->
    exists m, add_equations (start_model L) texts = Ok m /\
      Forall (fun e => exists terms denum, build m (eq_text e) = Ok (terms, denum) /\
        forall cpow val ft scal brick implicit explicit linear nonlinear freq,
          good_bricks L m cpow val ft scal brick ->
          let ev := eval_built cpow brick implicit explicit linear nonlinear freq in
          Cadd (Csum (map ev terms)) (Cmul (Csum (map ev denum)) (brick (q_field e)))
          = rhs_meaning L cpow val ft scal implicit explicit linear nonlinear freq (brick (q_field e)) e) es.
  Proof.
    intros Ht Hg. destruct (add_equations_spec texts es Ht Hg (start_model L) start_inv) as (m & Em & HM & _ & Hc).
    exists m. split; [exact Em|]. apply Forall_forall. intros e He. rewrite Forall_forall in Hg, Hc.
    apply build_spec; [exact HM|apply Hg, He|apply Hc, He].
  Qed.
End Lang.

(** Bricks that hold what their names say exist: those computed by the
    calculators of derived fields. *)
Definition calc_bricks (L : lang) (cpow : C -> R -> C) (val : str -> nat -> C) (ft : (nat -> C) -> C)
    (scal : str -> C) (n : str) : C :=
  if mem_str n (l_scalars L) then scal n
  else if mem_str n (atoms L) then ft (val n)
  else ft (fun j => match derived_calc cpow n (map (fun f => (f, val f)) (l_fields L)) j with Some v => v | None => C0 end).

Lemma field_value_map (val : str -> nat -> C) l n : In n l -> field_value (map (fun f => (f, val f)) l) n = Some (val n).
Proof.
  induction l as [|x l IH]; intros H; [destruct H|]. cbn [map field_value].
  destruct (in_dec (list_eq_dec ascii_dec) n l) as [Hin|Hni].
  - rewrite IH by exact Hin. reflexivity.
  - destruct H as [->|H]; [|contradiction]. rewrite str_eqb_refl.
    assert (E : forall l, ~ In n l -> field_value (map (fun f => (f, val f)) l) n = None).
    { clear. induction l as [|x l IH]; intros H; [reflexivity|]. cbn [map field_value]. rewrite IH by (intros H'; apply H; right; exact H').
      destruct (str_eqb x n) eqn:E; [|reflexivity]. apply str_eqb_eq in E. exfalso. apply H. left. exact E. }
    rewrite E by exact Hni. reflexivity.
Qed.

Lemma calc_bricks_good L m cpow val ft scal : good_lang L -> (forall z, cpow z 1%R = z) ->
  good_bricks L m cpow val ft scal (calc_bricks L cpow val ft scal).
Proof.
  intros HL Hp. unfold good_bricks, calc_bricks. split; [|split].
  - intros n Hn. apply mem_str_In in Hn. rewrite Hn. reflexivity.
  - intros n Hn. assert (H := gl_scalar L HL n Hn). apply mem_str_notIn in H. rewrite H. apply mem_str_In in Hn. rewrite Hn. reflexivity.
  - intros fs Hne Hg _.
    assert (Hval : forall j, derived_calc cpow (product_of fs) (map (fun f => (f, val f)) (l_fields L)) j
                   = Some (product_value cpow (fun n => val n j) fs)).
    { intros j. apply derived_calc_spec; [exact Hne|revert Hg; apply Forall_impl; tauto|].
      intros f Hf. rewrite Forall_forall in Hg. destruct (Hg f Hf) as [_ Hin]. exists (val (fa_name f)).
      split; [apply field_value_map, Hin|reflexivity]. }
    assert (Hcase : (exists f, fs = [f] /\ fa_exp f = None) \/ ~ known L (product_of fs)).
    { destruct fs as [|f [|f' r]]; [congruence| |].
      - destruct (fa_exp f) as [e|] eqn:E; [right|left; exists f; auto]. intros Hk.
        apply (known_no_hat L HL _ Hk). change (product_of [f]) with (factor_text f). rewrite factor_text_eq. unfold exp_text. rewrite E.
        apply in_or_app. right. left. reflexivity.
      - right. intros Hk. apply (known_no_star L HL _ Hk). unfold product_of. cbn [map]. rewrite join_cons.
        apply in_or_app. right. left. reflexivity. }
    destruct Hcase as [(f & -> & He)|Hnk].
    + inversion Hg as [|? ? [_ Hin] _]; subst. change (product_of [f]) with (factor_text f). rewrite factor_text_eq. unfold exp_text.
      rewrite He, app_nil_r. assert (Ha : In (fa_name f) (atoms L)) by (apply in_or_app; left; exact Hin).
      assert (Hs := gl_scalar L HL _ Ha). apply mem_str_notIn in Hs. rewrite Hs. apply mem_str_In in Ha. rewrite Ha.
      f_equal. apply functional_extensionality. intros j. cbn [product_value]. unfold factor_power. rewrite He, Hp. ring.
    + assert (H1 : mem_str (product_of fs) (l_scalars L) = false).
      { apply mem_str_notIn. intros H. apply Hnk. apply in_or_app. right. exact H. }
      assert (H2 : mem_str (product_of fs) (atoms L) = false).
      { apply mem_str_notIn. intros H. apply Hnk. apply in_or_app. left. exact H. }
      rewrite H1, H2. f_equal. apply functional_extensionality. intros j. rewrite Hval. reflexivity.
Qed.
