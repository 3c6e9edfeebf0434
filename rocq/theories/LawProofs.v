(** Lemmas for C96. *)
From Verif Require Import ListAux FileModel ParseProofs StepProofs ConserveProofs EquationProps RegistryProps.
From Verif Require Import SplitSpec MatchSpec EquationProofs4 EquationProofs5 MatchProofs3 SimProofs SimProofs2 SimProofs3 SimProofs4 SimProofs5 SimProofs6 SimProps SplitProofs SplitProofs2 SplitProofs3 SplitProofs4.
From Verif Require Import SplitProps MatchProofs MatchProofs2 LawSpec.
From Coq Require Import Lia Lra.
Open Scope nat_scope.

Lemma weighted_ext ws f g : (forall i w, In (i, w) ws -> f i = g i) -> weighted ws f = weighted ws g.
Proof.
  unfold weighted. intros H. induction ws as [|[i w] ws IH]; [reflexivity|]. cbn [map Csum fst snd].
  rewrite (H i w) by (left; reflexivity). f_equal. apply IH. intros j v Hj. apply (H j v). right. exact Hj.
Qed.
Lemma weighted_add ws f g : weighted ws (fun i => Cadd (f i) (g i)) = Cadd (weighted ws f) (weighted ws g).
Proof. unfold weighted. induction ws as [|[i w] ws IH]; cbn [map Csum fst snd]; [ring|]. rewrite IH. ring. Qed.
Lemma weighted_scale ws c f : weighted ws (fun i => Cmul c (f i)) = Cmul c (weighted ws f).
Proof. unfold weighted. induction ws as [|[i w] ws IH]; cbn [map Csum fst snd]; [ring|]. rewrite IH. ring. Qed.

Lemma weighted_step ws dt f g s : weighted ws (fun i => Cadd (f i) (Cmul (RtoC dt) (Cadd (g i) (s i)))) =
  Cadd (weighted ws f) (Cadd (Cmul (RtoC dt) (weighted ws g)) (Cmul (RtoC dt) (weighted ws s))).
Proof. rewrite weighted_add, weighted_scale, weighted_add. ring. Qed.

Lemma lap_zero n ft : good_transform n ft -> lap_symbol (tfreq ft 0) = 0%R.
Proof. intros GT. unfold lap_symbol. rewrite (gt_freq0 n ft GT). ring. Qed.

Lemma sum_signed_zero f l : (forall p, In p l -> f (fst p) = C0) -> sum_signed f l = C0.
Proof.
  unfold sum_signed. intros H. induction l as [|p l IH]; [reflexivity|]. cbn [map Csum]. rewrite (H p) by (left; reflexivity).
  rewrite IH by (intros q Hq; apply H; right; exact Hq). ring.
Qed.

(** The scheme of a model with its amounts. *)
Section Law.
  Variable L : lang.
  Variable cs : list call.
  Variable es : list eqtext.
  Variable m : mstate.
  Hypothesis HD : declared L cs es.
  Hypothesis Em : run_calls new_mstate (cs ++ [CInit]) = Ok m.
  Variable n : nat.
  Variable ft : transform.
  Variable lib : library.
  Hypothesis GL : good_library L n lib.
  Hypothesis GT : good_transform n ft.
  Hypothesis HO : map q_field es = l_fields L.
  Hypothesis Hn : 0 < n.
  Let p := simulation n ft lib m.

  Lemma amplitude_zero x : amplitude_at n ft 0 x = sum_nodes n x.
  Proof. unfold amplitude_at, sum_nodes. apply (gt_zero n ft GT). rewrite map_length, seq_length. reflexivity. Qed.

  Lemma amplitude_sum val fs : amplitude (lb_pow lib) val (amplitude_at n ft 0) fs = amplitude (lb_pow lib) val (sum_nodes n) fs.
  Proof. unfold amplitude. destruct fs as [|f [|g fs]]; try destruct (fa_exp f); apply amplitude_zero. Qed.

  Lemma implicit_zero implicit linear q : not_implicit L q ->
    sum_signed (implicit_item L (lb_pow lib) (lb_scalar lib) implicit linear (tfreq ft 0) (q_field q)) (signed_items q) = C0.
  Proof.
    intros H. apply sum_signed_zero. intros x Hx. unfold not_implicit in H. rewrite Forall_forall in H. specialize (H x Hx).
    destruct (fst x) as [t|os nm]; cbn [implicit_item].
    - destruct H as [H|H]; [|rewrite H; reflexivity]. destruct (linear_in L (q_field q) t); [|reflexivity].
      unfold coefficient. rewrite (lap_zero n ft GT), pow_i by lia. change (RtoC 0) with C0. ring.
    - rewrite (lap_zero n ft GT), pow_i by lia. change (RtoC 0) with C0. ring.
  Qed.

  Lemma lone_linear q : no_lone_field L q -> In (q_field q) (l_fields L) -> not_implicit L q.
  Proof.
    unfold no_lone_field, not_implicit. rewrite !Forall_forall. intros H Hq x Hx. specialize (H x Hx).
    destruct (fst x) as [t|os nm]; [|exact H]. destruct H as [H|H]; [left; exact H|right].
    unfold lone_field, linear_in in *. destruct (field_factors L t) as [|f [|g r]]; [reflexivity| |reflexivity].
    destruct (fa_exp f); [reflexivity|]. destruct (str_eqb (fa_name f) (q_field q)) eqn:E; [|reflexivity].
    apply str_eqb_eq in E. rewrite E in H. exfalso. revert H. apply not_false_iff_true. apply mem_str_In. exact Hq.
  Qed.

  Lemma explicit_rate val lone explicit nonlinear q : no_lone_field L q -> Forall (fun x => match fst x with
      | IProduct t => forall f, In f (field_factors L t) -> In (fa_name f) (l_fields L) \/ In (fa_name f) (l_functions L) | IUser _ _ => True end) (signed_items q) ->
    In (q_field q) (l_fields L) ->
    (forall name, In name (l_functions L) -> lone name = amplitude_at n ft 0 (val name)) ->
    sum_signed (explicit_item L (lb_pow lib) (lb_scalar lib) explicit nonlinear (tfreq ft 0)
      (shown_amplitude L (lb_pow lib) val (amplitude_at n ft 0) lone) (q_field q)) (signed_items q)
    = rate L (lb_pow lib) (lb_scalar lib) val (sum_nodes n) q.
  Proof.
    intros H HN Hq Hl. assert (HI := lone_linear q H Hq). unfold rate. apply sum_signed_ext. intros x Hx.
    unfold no_lone_field, not_implicit in *. rewrite Forall_forall in H, HI, HN. specialize (H x Hx). specialize (HI x Hx). specialize (HN x Hx).
    destruct (fst x) as [t|os nm]; cbn [explicit_item rate_item].
    - destruct (total_power t =? 0) eqn:E.
      + apply Nat.eqb_eq in E. destruct HI as [HI|HI]; [lia|]. rewrite HI. unfold coefficient. rewrite E. cbn [pow]. change (RtoC 1) with C1.
        rewrite <- amplitude_sum. destruct H as [H|H]; [lia|]. unfold lone_field, shown_amplitude in *.
        destruct (field_factors L t) as [|f [|g r]] eqn:EF; [ring| |ring]. destruct (fa_exp f) eqn:Ex; [ring|].
        unfold amplitude. rewrite Ex. rewrite Hl; [ring|]. destruct (HN f (or_introl eq_refl)) as [K|K]; [|exact K].
        apply mem_str_In in K. congruence.
      + apply Nat.eqb_neq in E. destruct (linear_in L (q_field q) t); [reflexivity|].
        unfold coefficient. rewrite (lap_zero n ft GT), pow_i by lia. change (RtoC 0) with C0. ring.
    - rewrite (lap_zero n ft GT), pow_i by lia. change (RtoC 0) with C0. ring.
  Qed.

  Lemma written_rate fields E t q M : not_implicit L q -> written L cs n ft lib fields E t q 0 M ->
    exists val, values L lib fields val /\ M = rate L (lb_pow lib) (lb_scalar lib) val (sum_nodes n) q.
  Proof.
    intros H (val & im & ex & li & nl & HV & _ & _ & _ & ->). exists val. split; [exact HV|]. unfold rhs_meaning, rate, sum_signed.
    f_equal. apply map_ext_in. intros x Hx. f_equal. unfold not_implicit in H. rewrite Forall_forall in H. specialize (H x Hx).
    destruct (fst x) as [u|os nm]; cbn [item_meaning rate_item].
    - unfold product_meaning. destruct (total_power u =? 0) eqn:E'.
      + apply Nat.eqb_eq in E'. rewrite E'. cbn [pow]. change (RtoC 1) with C1. rewrite <- amplitude_sum. ring.
      + apply Nat.eqb_neq in E'. rewrite (lap_zero n ft GT), pow_i by lia. change (RtoC 0) with C0. ring.
    - rewrite (lap_zero n ft GT), pow_i by lia. change (RtoC 0) with C0. ring.
  Qed.

  Lemma atom_factors i q x t f : nth_error es i = Some q -> In x (signed_items q) -> fst x = IProduct t -> In f (field_factors L t) ->
    In (fa_name f) (l_fields L) \/ In (fa_name f) (l_functions L).
  Proof.
    intros Hq Hx Et Hf. destruct x as [it d]. cbn [fst] in Et. subst it.
    destruct (item_good L cs es i q (IProduct t) d HD Hq Hx) as ((before & fs & after & GP) & _).
    unfold field_factors in Hf. apply in_map_iff in Hf. destruct Hf as (w & <- & Hw). apply filter_In in Hw. destruct Hw as [Hw Hs].
    assert (H := product_names L t before fs after w GP Hw). apply in_app_or in H. change (fa_name (wf_fac w)) with (wf_name w).
    destruct H as [H|H]; [unfold atoms in H; apply in_app_or in H; exact H|].
    exfalso. apply negb_true_iff in Hs. apply is_scalar_iff in H. congruence.
  Qed.

  Lemma values_exist fields : exists val, values L lib fields val.
  Proof.
    destruct es as [|q es'] eqn:Ee.
    - destruct (written_exists L cs [] m HD Em n ft lib {| e_fields := []; e_derived := [] |} 0 {| q_field := []; q_lead := None; q_first := IProduct []; q_more := [] |} 0 fields)
        as (M & val & _ & _ & _ & _ & HV & _). exists val. exact HV.
    - destruct (written_exists L cs (q :: es') m HD Em n ft lib {| e_fields := []; e_derived := [] |} 0 q 0 fields)
        as (M & val & _ & _ & _ & _ & HV & _). exists val. exact HV.
  Qed.

  Lemma written_with fields val E t q : values L lib fields val -> not_implicit L q ->
    written L cs n ft lib fields E t q 0 (rate L (lb_pow lib) (lb_scalar lib) val (sum_nodes n) q).
  Proof.
    intros HV H. destruct (written_exists L cs es m HD Em n ft lib E t q 0 fields) as (M & val' & im & ex & li & nl & _ & R1 & R2 & R3 & _).
    exists val, im, ex, li, nl. split; [exact HV|]. split; [exact R1|]. split; [exact R2|]. split; [exact R3|].
    unfold rhs_meaning, rate, sum_signed. f_equal. apply map_ext_in. intros x Hx. f_equal. unfold not_implicit in H. rewrite Forall_forall in H. specialize (H x Hx).
    destruct (fst x) as [u|os nm]; cbn [item_meaning rate_item].
    - unfold product_meaning. destruct (total_power u =? 0) eqn:E'.
      + apply Nat.eqb_eq in E'. rewrite E'. cbn [pow]. change (RtoC 1) with C1. rewrite <- amplitude_sum. ring.
      + apply Nat.eqb_neq in E'. rewrite (lap_zero n ft GT), pow_i by lia. change (RtoC 0) with C0. ring.
    - rewrite (lap_zero n ft GT), pow_i by lia. change (RtoC 0) with C0. ring.
  Qed.

  Lemma split_with fields seen val E t i q : values L lib fields val -> nth_error es i = Some q -> no_lone_field L q ->
    split_written L cs n ft lib fields seen E t q 0 (rate L (lb_pow lib) (lb_scalar lib) val (sum_nodes n) q) C0.
  Proof.
    intros HV Hq H. assert (Hf : In (q_field q) (l_fields L)) by (rewrite <- HO; apply in_map, (nth_error_In _ _ Hq)).
    destruct (written_exists L cs es m HD Em n ft lib E t q 0 fields) as (M & val' & im & ex & li & nl & _ & R1 & R2 & R3 & _).
    set (lone := fun name => match last_index (l_fields L) name with Some i => nth 0 (nth i seen []) C0 | None => amplitude_at n ft 0 (val name) end).
    assert (HL2 : forall name, In name (l_functions L) -> lone name = amplitude_at n ft 0 (val name)).
    { intros name Hn'. unfold lone. rewrite last_index_none by apply (function_not_field L (dc_lang _ _ _ HD) name Hn'). reflexivity. }
    exists val, lone, im, ex, li, nl. split; [exact HV|]. split; [|split; [exact HL2|split; [exact R1|split; [exact R2|split; [exact R3|split]]]]].
    - intros j name d Hj Hd. unfold lone. destruct (field_index L name (nth_error_In _ _ Hj)) as (i' & Hi & ->).
      rewrite (index_unique L cs es HD i' j name Hi Hj), (nth_error_nth _ _ _ Hd). reflexivity.
    - symmetry. apply explicit_rate; [exact H| |exact Hf|exact HL2]. rewrite Forall_forall. intros x Hx. destruct (fst x) as [u|] eqn:Eu; [|exact I].
      intros f Hff. exact (atom_factors i q x u f Hq Hx Eu Hff).
    - symmetry. apply implicit_zero, lone_linear; assumption.
  Qed.

  Lemma total_mode e i : fits L n m e -> i < length (l_fields L) -> Csum (nth i (e_fields e) []) = nth 0 (fft ft (nth i (e_fields e) [])) C0.
  Proof.
    intros (H1 & H2 & _) Hi. symmetry. apply (gt_zero n ft GT). destruct (nth_error (e_fields e) i) as [d|] eqn:Ed.
    - rewrite (nth_error_nth _ _ _ Ed). exact (all_length_nth n _ i d H2 Ed).
    - apply nth_error_None in Ed. lia.
  Qed.

  Lemma equation_index i q : nth_error es i = Some q -> i < length (l_fields L).
  Proof. intros H. rewrite <- HO, map_length. apply nth_error_Some. congruence. Qed.

  Lemma euler_amount ws dt t e : (forall i w, In (i, w) ws -> exists q, nth_error es i = Some q /\ no_lone_field L q) -> rates_cancel L lib n es ws ->
    fits L n m e -> exists e', euler_step p ft None dt t e = Some e' /\ fits L n m e'
    /\ amount ws (e_fields e') = Cadd (amount ws (e_fields e)) (Cmul (RtoC dt) (weighted ws (fun i => source_sum cs lib t i 0))).
  Proof.
    intros Hws HR Hf. destruct (C92_euler_step L cs es m HD Em n ft lib GL GT HO dt t e Hf) as (e' & Es & _ & _ & HS).
    destruct (euler_facts L cs es m HD Em n ft lib GL GT HO None dt t e Hf) as (e1 & Y & Es' & _ & _ & Hf1 & _). fold p in Es, Es'.
    assert (e1 = e') by congruence. subst e1. exists e'. split; [exact Es|]. split; [exact Hf1|].
    destruct (values_exist (e_fields e)) as (val & HV). unfold amount.
    rewrite (weighted_ext ws _ (fun i => Cadd (Csum (nth i (e_fields e) []))
      (Cmul (RtoC dt) (Cadd (match nth_error es i with Some q => rate L (lb_pow lib) (lb_scalar lib) val (sum_nodes n) q | None => C0 end) (source_sum cs lib t i 0))))).
    - rewrite weighted_step, (HR val). ring.
    - intros i w Hi. destruct (Hws i w Hi) as (q & Hq & HN). rewrite Hq. assert (Li := equation_index i q Hq).
      rewrite (total_mode e' i Hf1 Li), (total_mode e i Hf Li).
      rewrite (HS i q Hq 0 _ _ Hn (split_with _ _ val _ t i q HV Hq HN)).
      apply Cdiv_one.
  Qed.

  Lemma euler_amounts ws dt : (forall i w, In (i, w) ws -> exists q, nth_error es i = Some q /\ no_lone_field L q) -> rates_cancel L lib n es ws ->
    forall steps step e, fits L n m e -> exists e', euler_propagate p ft None dt steps step e = Some (e', step + steps)
    /\ amount ws (e_fields e') = Cadd (amount ws (e_fields e)) (supplied cs lib dt ws steps step).
  Proof.
    intros Hws HR. induction steps as [|steps IH]; intros step e Hf; cbn [euler_propagate supplied].
    - exists e. rewrite Nat.add_0_r. split; [reflexivity|ring].
    - destruct (euler_amount ws dt (time_of dt step) e Hws HR Hf) as (e1 & -> & Hf1 & H1).
      destruct (IH (S step) e1 Hf1) as (e2 & E2 & H2). exists e2. split; [rewrite E2; f_equal; f_equal; lia|]. rewrite H2, H1. ring.
  Qed.

  Hypothesis HI : field_independent cs lib.

  Lemma nothing_corresponds : corresponds (fun _ _ => False) L cs es lib L cs es lib.
  Proof. constructor; try (intros; contradiction). reflexivity. Qed.

  Lemma denum_zero e t i q a : fits L n m e -> nth_error es i = Some q -> not_implicit L q -> get_denum p e i t n = Some a -> nth 0 a C0 = C0.
  Proof.
    intros Hf Hq HN Ha.
    destruct (C92_parts L cs es m HD Em n ft lib GL (spectrum p ft e) e t i q Hf eq_refl) as (r & a' & _ & Ea & _ & _ & HP).
    - change (e_fields (spectrum p ft e)) with (map (fft ft) (e_fields e)). rewrite map_length. apply Hf.
    - exact Hq.
    - fold p in Ea. assert (HS := sim_denum L cs es m HD Em n ft lib HI e (spectrum p ft e) i t n). fold p in HS. rewrite <- HS, Ha in Ea. injection Ea as <-.
      destruct (split_exists L cs es m HD Em n ft lib (spectrum p ft e) t q 0 (e_fields e) (e_fields (spectrum p ft e))) as (X & A & HXA).
      destruct (HP 0 X A Hn HXA) as [_ ->]. destruct HXA as (val & lone & im & ex & li & nl & _ & _ & _ & _ & _ & _ & _ & ->). apply implicit_zero, HN.
  Qed.

  Lemma rk4_amount ws dt t e : (forall i w, In (i, w) ws -> exists q, nth_error es i = Some q /\ not_implicit L q) -> rates_cancel L lib n es ws ->
    fits L n m e -> exists e', rk4_step p ft None dt t e = Some e' /\ fits L n m e'
    /\ amount ws (e_fields e') = Cadd (amount ws (e_fields e)) (Cmul (RtoC dt) (weighted ws (fun i => source_sum cs lib t i 0))).
  Proof.
    intros Hws HR Hf.
    destruct (C87_rk4_step L cs es m HD Em n ft lib GL GT HO HI dt t e Hf) as (S1 & S2 & S3 & S4 & K1 & K2 & K3 & K4 & e' & Es & _ & ES & _ & HS). fold p in Es, HS.
    destruct (rk4_match (fun _ _ => False) L cs es m lib L cs es m lib HD HD Em Em n ft GL GL GT HO HO nothing_corresponds None dt HI HI t e e Hf Hf)
      as (e1 & _ & Es' & _ & Hf1 & _); [intros ? ? []|]. fold p in Es'.
    assert (e1 = e') by congruence. subst e1. exists e'. split; [exact Es|]. split; [exact Hf1|].
    set (rates := fun val i => match nth_error es i with Some q => rate L (lb_pow lib) (lb_scalar lib) val (sum_nodes n) q | None => C0 end).
    destruct (values_exist (map (to_real ft) S1)) as (v1 & HV1). destruct (values_exist (map (to_real ft) S2)) as (v2 & HV2).
    destruct (values_exist (map (to_real ft) S3)) as (v3 & HV3). destruct (values_exist (map (to_real ft) S4)) as (v4 & HV4). unfold amount.
    rewrite (weighted_ext ws _ (fun i => Cadd (Csum (nth i (e_fields e) []))
      (Cmul (RtoC dt) (Cadd (Cmul (RtoC (1 / 6)) (Cadd (rates v1 i) (Cadd (Cmul (RtoC 2) (rates v2 i)) (Cadd (Cmul (RtoC 2) (rates v3 i)) (rates v4 i))))) (source_sum cs lib t i 0))))).
    - rewrite weighted_step, weighted_scale, weighted_add, weighted_add, weighted_add, !weighted_scale.
      unfold rates. rewrite (HR v1), (HR v2), (HR v3), (HR v4). ring.
    - intros i w Hi. destruct (Hws i w Hi) as (q & Hq & HN). assert (Li := equation_index i q Hq).
      destruct (HS i q Hq) as (a & d' & Ea & Ed & _ & Hk). destruct (Hk 0 Hn) as (W1 & _ & W2 & _ & W3 & _ & W4 & HF). clear Hk.
      assert (A0 := denum_zero e t i q a Hf Hq HN Ea). rewrite A0 in *.
      specialize (W1 _ (written_with _ v1 _ t q HV1 HN)). specialize (W2 _ (written_with _ v2 _ t q HV2 HN)).
      specialize (W3 _ (written_with _ v3 _ t q HV3 HN)). specialize (W4 _ (written_with _ v4 _ t q HV4 HN)).
      rewrite Cdiv_one in HF. rewrite (total_mode e' i Hf1 Li), (total_mode e i Hf Li), (nth_error_nth _ _ _ Ed), HF.
      unfold rates. rewrite Hq. unfold combine4.
      assert (T : forall x y z, Cadd x (Cmul C0 y) = z -> x = z) by (intros x y z <-; ring).
      rewrite (T _ _ _ W1), (T _ _ _ W2), (T _ _ _ W3), (T _ _ _ W4).
      rewrite ES at 1.
      replace (nth i (map (fft ft) (e_fields e)) []) with (fft ft (nth i (e_fields e) [])).
      2: { destruct (nth_error (e_fields e) i) as [d|] eqn:Ee.
           - rewrite (nth_error_nth _ _ _ Ee). symmetry. apply nth_error_nth. rewrite nth_error_map, Ee. reflexivity.
           - apply nth_error_None in Ee. destruct Hf as (Hf & _). lia. }
      f_equal. generalize (source_sum cs lib t i 0). intros s. csolve.
  Qed.

  Lemma rk4_amounts ws dt : (forall i w, In (i, w) ws -> exists q, nth_error es i = Some q /\ not_implicit L q) -> rates_cancel L lib n es ws ->
    forall steps step e, fits L n m e -> exists e', rk4_propagate p ft None dt steps step e = Some (e', step + steps)
    /\ amount ws (e_fields e') = Cadd (amount ws (e_fields e)) (supplied cs lib dt ws steps step).
  Proof.
    intros Hws HR. induction steps as [|steps IH]; intros step e Hf; cbn [rk4_propagate supplied].
    - exists e. rewrite Nat.add_0_r. split; [reflexivity|ring].
    - destruct (rk4_amount ws dt (time_of dt step) e Hws HR Hf) as (e1 & -> & Hf1 & H1).
      destruct (IH (S step) e1 Hf1) as (e2 & E2 & H2). exists e2. split; [rewrite E2; f_equal; f_equal; lia|]. rewrite H2, H1. ring.
  Qed.
End Law.
