From Verif Require Import ListAux FileModel ParseProofs DerivedProofs EquationProofs EquationProofs4 RegistryProofs RegistryProofs2 RegistryProofs3 StepProofs SimSpec SimProofs.
From Coq Require Import Lia.
Open Scope nat_scope.

Lemma ident_no_op n : ident n -> ~ In star_c n /\ ~ In hat_c n.
Proof.
  unfold ident. destruct n as [|c n]; [tauto|]. intros [_ H]. rewrite forallb_forall in H.
  split; intros Hin; apply H in Hin; vm_compute in Hin; discriminate.
Qed.

(** A product that looks like a name is a single factor without exponent. *)
Lemma product_is_ident fs : fs <> [] -> ident (product_of fs) -> exists f, fs = [f] /\ product_of fs = fa_name f.
Proof.
  intros Hne Hi. destruct (ident_no_op _ Hi) as [Hs Hh]. destruct fs as [|f [|g r]]; [congruence| |].
  - exists f. split; [reflexivity|]. unfold product_of in *. cbn [map join_char] in *. unfold factor_text in *.
    destruct (fa_exp f); [|rewrite app_nil_r; reflexivity]. exfalso. apply Hh. apply in_or_app. right. left. reflexivity.
  - exfalso. apply Hs. unfold product_of. cbn [map join_char]. apply in_or_app. right. left. reflexivity.
Qed.

Section Bricks.
  Variable L : lang.
  Hypothesis HL : good_lang L.
  Variable m : mstate.
  Hypothesis HM : minv L (ms_names m).
  Hypothesis Hfresh : forall n, In n (pm_derived (ms_names m)) -> ~ In n (l_fields L).
  Variable n : nat.
  Variable lib : library.
  Hypothesis GL : good_library L n lib.
  Variable ft : transform.
  Variable e : env.
  Hypothesis Hfits : fits L n m e.

  Let p := simulation n ft lib m.
  Let E := spectrum p ft e.

  Lemma calc_indep : forall c e1 e2, In c (p_calc p) -> e_fields e1 = e_fields e2 -> c e1 = c e2.
  Proof. intros c e1 e2 Hc H. apply in_map_iff in Hc. destruct Hc as (x & <- & _). apply calc_of_fields, H. Qed.

  Lemma derived_brick k i name : last_index (pm_derived (ms_names m)) name = Some i ->
    brick_at lib (ms_names m) E k name = nth k (fft ft (calc_of n lib (ms_names m) name e)) C0.
  Proof.
    intros Hi. unfold brick_at. rewrite Hi. f_equal. apply nth_error_nth. unfold E, spectrum. cbn [e_derived].
    rewrite nth_error_map. apply last_index_some in Hi.
    assert (Hs := sync_from_nth (p_calc p) calc_indep 0 e i (calc_of n lib (ms_names m) name)). cbn [Nat.add] in Hs. unfold sync. rewrite Hs; [reflexivity| |].
    - unfold p, simulation. cbn [p_calc]. rewrite map_length. destruct Hfits as (_ & _ & H). rewrite H. lia.
    - unfold p, simulation. cbn [p_calc]. rewrite nth_error_map, Hi. reflexivity.
  Qed.

  Lemma field_brick k i name d : nth_error (l_fields L) i = Some name -> nth_error (e_fields e) i = Some d ->
    brick_at lib (ms_names m) E k name = nth k (fft ft d) C0.
  Proof.
    intros Hi Hd. unfold brick_at. rewrite last_index_none by (intros H; apply (Hfresh _ H); eapply nth_error_In, Hi).
    rewrite (mi_fields L _ HM). destruct (last_index_in (l_fields L) name (nth_error_In _ _ Hi)) as (j & Hj). rewrite Hj.
    assert (j = i) as ->.
    { apply last_index_some in Hj. apply (NoDup_nth_error (l_fields L)).
      - assert (H := gl_nodup L HL). unfold atoms in H. revert H. generalize (l_fields L), (l_functions L). clear. intros x y. induction x as [|z x IH]; intros H; [constructor|].
        cbn [app] in H. inversion H as [|? ? A B]; subst. constructor; [intros C; apply A, in_or_app; left; exact C|apply IH, B].
      - apply nth_error_Some. congruence.
      - congruence. }
    f_equal. apply nth_error_nth. unfold E, spectrum. cbn [e_fields]. rewrite nth_error_map, Hd. reflexivity.
  Qed.

  Lemma fields_nodup : NoDup (l_fields L).
  Proof.
    assert (H := gl_nodup L HL). unfold atoms in H. revert H. generalize (l_fields L), (l_functions L). clear. intros x y. induction x as [|z x IH]; intros H; [constructor|].
    cbn [app] in H. inversion H as [|? ? A B]; subst. constructor; [intros C; apply A, in_or_app; left; exact C|apply IH, B].
  Qed.

  Lemma field_data name : In name (l_fields L) -> exists i d, nth_error (l_fields L) i = Some name /\ nth_error (e_fields e) i = Some d /\ length d = n.
  Proof.
    intros H. apply In_nth_error in H. destruct H as (i & Hi). destruct Hfits as (H1 & H2 & _).
    destruct (nth_error (e_fields e) i) as [d|] eqn:Ed.
    - exists i, d. split; [exact Hi|]. split; [exact Ed|]. unfold all_length in H2. rewrite Forall_forall in H2. apply H2. eapply nth_error_In, Ed.
    - apply nth_error_None in Ed. assert (i < length (l_fields L)) by (apply nth_error_Some; congruence). lia.
  Qed.

  Lemma declared_bricks k val : values L lib (e_fields e) val ->
    good_bricks L (ms_names m) (lb_pow lib) val (amplitude_at n ft k) (lb_scalar lib) (brick_at lib (ms_names m) E k).
  Proof.
    intros [V1 V2]. split; [|split].
    - intros s Hs. assert (H := scalar_fname L HL (ms_names m) HM s Hs). unfold is_fname in H. apply mem_str_notIn in H.
      unfold all_field_names in H. unfold brick_at. rewrite !last_index_none; [reflexivity| |]; intros Hin; apply H, in_or_app; auto.
    - intros name Hname. unfold atoms in Hname. apply in_app_or in Hname. destruct Hname as [Hf|Hf].
      + destruct (field_data name Hf) as (i & d & Hi & Hd & Hl). rewrite (field_brick k i name d Hi Hd). unfold amplitude_at. f_equal. f_equal.
        rewrite <- (map_nth_seq d n Hl) at 1. apply map_ext. intros j. symmetry. apply (V1 i name d Hi Hd).
      + destruct (last_index_in _ name (mi_functions L _ HM name Hf)) as (i & Hi). rewrite (derived_brick k i name Hi).
        destruct (proj1 (lb_functions _ _ _ GL name) Hf) as (c & Hc). unfold calc_of. rewrite Hc. unfold amplitude_at. f_equal. f_equal.
        rewrite <- (map_nth_seq (c (e_fields e)) n (lb_calc_length _ _ _ GL name c _ Hc)) at 1. apply map_ext. intros j. symmetry. apply (V2 name c Hf Hc).
    - intros fs Hne Hfs Hin. destruct (last_index_in _ _ Hin) as (i & Hi). rewrite (derived_brick k i _ Hi).
      assert (Hn : lb_calc lib (product_of fs) = None).
      { destruct (lb_calc lib (product_of fs)) as [c|] eqn:Ec; [|reflexivity]. exfalso.
        assert (Hf : In (product_of fs) (l_functions L)) by (apply (lb_functions _ _ _ GL); eauto).
        assert (Hid : ident (product_of fs)) by (apply (gl_ident L HL); apply in_or_app; left; unfold atoms; apply in_or_app; right; exact Hf).
        destruct (product_is_ident fs Hne Hid) as (f & -> & Ef). inversion Hfs as [|? ? [_ Hff] _]; subst.
        apply (function_not_field L HL _ Hf). rewrite Ef. exact Hff. }
      unfold calc_of. rewrite Hn. cbv zeta. unfold amplitude_at. f_equal. f_equal. apply map_ext_in. intros j Hj. rewrite (mi_fields L _ HM).
      rewrite (derived_calc_spec (lb_pow lib) _ (fun x => val x j) j fs); [reflexivity|exact Hne| |].
      + eapply Forall_impl; [|exact Hfs]. intros f [H _]. exact H.
      + intros f Hf. rewrite Forall_forall in Hfs. destruct (Hfs f Hf) as [_ Hin']. destruct (field_data _ Hin') as (i' & d & Hi' & Hd & Hl).
        exists (fun j => nth j d C0). split; [|symmetry; apply (V1 i' _ d Hi' Hd)].
        apply (field_value_combine (l_fields L) (e_fields e) (fa_name f) d i'); [exact fields_nodup|apply Hfits|exact Hi'|exact Hd].
  Qed.
End Bricks.

(** ** Right-hand sides *)
Lemma Forall2_maps {A B D} (P : B -> D -> Prop) (f : A -> B) (g : A -> D) l : (forall x, In x l -> P (f x) (g x)) -> Forall2 P (map f l) (map g l).
Proof. induction l as [|x l IH]; intros H; constructor; [apply H; left; reflexivity|apply IH; intros; apply H; right; assumption]. Qed.

Lemma equations_with_nth f g : forall ts ss i t d, length ss = length ts -> nth_error ts i = Some (t, d) ->
  exists s, nth_error ss i = Some s /\ nth_error (equations_with ts ss f g) i = Some {| q_terms := map f t; q_denum := map f d; q_sources := map g s |}.
Proof.
  induction ts as [|[t0 d0] ts IH]; intros ss i t d Hl Hi; [destruct i; discriminate|]. destruct ss as [|s0 ss]; [discriminate|]. injection Hl as Hl.
  cbn [equations_with hd tl]. destruct i as [|i]; cbn [nth_error] in *; [injection Hi as <- <-; eauto|]. apply IH; assumption.
Qed.

Theorem declared_rhs L cs es : declared L cs es -> exists m, run_calls new_mstate (cs ++ [CInit]) = Ok m
  /\ length (ms_rhs m) = length es
  /\ forall n ft lib e t i q, good_library L n lib -> fits L n m e ->
     nth_error es i = Some q -> nth_error (l_fields L) i = Some (q_field q) ->
     let p := simulation n ft lib m in let E := spectrum p ft e in
     exists r a y, get_rhs p E i t n = Some r /\ get_denum p E i t n = Some a /\ nth_error (e_fields E) i = Some y
     /\ length r = n /\ length a = n
     /\ forall k, k < n -> forall M, written L cs n ft lib (e_fields e) E t q k M ->
        Cadd (nth k r C0) (Cmul (nth k a C0) (nth k y C0)) = Cadd M (source_sum cs lib t i k).
Proof.
  intros [HL HD HF HS HI _ H2 Hg].
  destruct (any_order L HL cs HD HF HS HI) with (es := es) as (m & Em & Hlen & Hrhs); [|exact H2|exact Hg|].
  { intros s Hs. revert Hs Hg. clear - H2. induction H2 as [|s0 e ss es Hs0 _ IH]; intros Hs Hg; [destruct Hs|].
    inversion Hg as [|? ? G1 G2]; subst. destruct Hs as [<-|Hs]; [exists e; split; assumption|apply IH; assumption]. }
  exists m. split; [exact Em|]. split; [exact Hlen|]. intros n ft lib e t i q GL Hfit Hq Hfield p E.
  destruct (Hrhs i q Hq) as (terms & denum & Hi & Hev).
  apply run_calls_snoc in Em. destruct Em as (m1 & Em1 & Einit). cbn [run_call] in Einit.
  assert (T := tracked_run _ _ Em1).
  assert (HM1 : minv L (ms_names m1)).
  { apply (final_inv L HL cs HD HF HS HI); [|exact Em1]. intros s Hs. revert Hs Hg. clear - H2. induction H2 as [|s0 e ss es Hs0 _ IH]; intros Hs Hg; [destruct Hs|].
    inversion Hg as [|? ? G1 G2]; subst. destruct Hs as [<-|Hs]; [exists e; split; assumption|apply IH; assumption]. }
  unfold call_init in Einit. destruct (build_all m1 (ms_equations m1)) as [rhs| |] eqn:Eb; try discriminate. cbn [bind] in Einit.
  assert (Hnames : ms_names m = ms_names m1) by (injection Einit as <-; reflexivity).
  assert (Hsrc : ms_sources m = ms_sources m1) by (injection Einit as <-; reflexivity).
  assert (HM : minv L (ms_names m)) by (rewrite Hnames; exact HM1).
  assert (Hfresh : forall x, In x (pm_derived (ms_names m)) -> ~ In x (l_fields L)).
  { intros x. rewrite Hnames. apply (derived_not_field L HL cs HD HF cs [] m1 x (eq_sym (app_nil_r cs)) Em1). }
  assert (Hls : length (ms_sources m) = length (ms_rhs m)).
  { rewrite Hsrc, (tk_sources_length _ _ T), Hlen. clear - H2. induction H2; cbn; congruence. }
  destruct (equations_with_nth (entry_term n ft lib (ms_names m)) (fun s t _ => lb_source lib s t) _ _ _ _ _ Hls Hi) as (ss & Hss & Heq).
  assert (Ess : ss = sources_of i cs) by (rewrite Hsrc in Hss; exact (tk_sources _ _ T i ss Hss)).
  set (ev := fun k => eval_entry (lb_pow lib) (brick_at lib (ms_names m) E k) (fun s => nth k (lb_pure lib s E t) C0)
               (fun s => nth k (lb_linear lib s E t) C0) (fun s => nth k (lb_nonlinear lib s E t) C0) (tfreq ft k)).
  set (tv := map (fun en => map (fun k => ev k en) (seq 0 n)) terms). set (dv := map (fun en => map (fun k => ev k en) (seq 0 n)) denum).
  set (sv := map (fun s => lb_source lib s t) ss).
  assert (W : forall l, Forall2 (fun f v => writes n (f E t) v) (map (entry_term n ft lib (ms_names m)) l) (map (fun en => map (fun k => ev k en) (seq 0 n)) l)).
  { intros l. apply Forall2_maps. intros en _. split; [rewrite map_length, seq_length; reflexivity|]. intros tmp _. reflexivity. }
  assert (WS : Forall2 (fun f v => writes n (f t) v) (map (fun s (t : R) (_ : data) => lb_source lib s t) ss) sv).
  { apply Forall2_maps. intros s _. split; [apply (lb_source_length _ _ _ GL)|]. intros tmp _. reflexivity. }
  assert (Er : get_rhs p E i t n = Some (node_sum n (tv ++ sv))).
  { exact (get_rhs_sum p [] E i t n _ tv sv eq_refl Heq (W terms) WS). }
  assert (Ea : get_denum p E i t n = Some (node_sum n dv)) by exact (get_denum_sum p E i t n _ dv Heq (W denum)).
  destruct (field_data L m n e Hfit (q_field q)) as (i' & d & Hi' & Hd & Hl); [eapply nth_error_In, Hfield|].
  assert (i' = i) as ->.
  { apply (proj1 (NoDup_nth_error (l_fields L)) (fields_nodup L HL)); [apply nth_error_Some; congruence|congruence]. }
  exists (node_sum n (tv ++ sv)), (node_sum n dv), (fft ft d). split; [exact Er|]. split; [exact Ea|].
  split; [unfold E, spectrum; cbn [e_fields]; rewrite nth_error_map, Hd; reflexivity|].
  split; [unfold node_sum; rewrite map_length, seq_length; reflexivity|]. split; [unfold node_sum; rewrite map_length, seq_length; reflexivity|].
  intros k Hk M (val & implicit & explicit & linear & nonlinear & HV & R1 & R2 & R3 & ->).
  assert (GB := declared_bricks L HL m HM Hfresh n lib GL ft e Hfit k val HV). fold p in GB. fold E in GB.
  assert (Hm := Hev (lb_pow lib) val (amplitude_at n ft k) (lb_scalar lib) (brick_at lib (ms_names m) E k)
    (fun s => nth k (lb_pure lib s E t) C0) (fun s => nth k (lb_linear lib s E t) C0) (fun s => nth k (lb_nonlinear lib s E t) C0)
    implicit explicit linear nonlinear (tfreq ft k) GB R1 R2 R3). cbv zeta in Hm. fold (ev k) in Hm.
  assert (By : brick_at lib (ms_names m) E k (q_field q) = nth k (fft ft d) C0) by exact (field_brick L HL m HM Hfresh n lib ft e k i (q_field q) d Hfield Hd).
  assert (Ay : brick_at lib (ms_names m) E k (q_field q) = amplitude_at n ft k (val (q_field q))).
  { destruct GB as (_ & GB & _). apply GB. unfold atoms. apply in_or_app. left. eapply nth_error_In, Hfield. }
  rewrite Ay in Hm. rewrite <- Hm, <- Ay, By. clear Hm.
  assert (NS : forall l, nth k (node_sum n (map (fun en => map (fun k => ev k en) (seq 0 n)) l)) C0 = Csum (map (ev k) l)).
  { intros l. unfold node_sum. rewrite nth_map_seq by exact Hk. rewrite map_map. f_equal. apply map_ext. intros en. exact (nth_map_seq (fun j => ev j en) n k C0 Hk). }
  assert (NA : nth k (node_sum n (tv ++ sv)) C0 = Cadd (Csum (map (ev k) terms)) (source_sum cs lib t i k)).
  { unfold source_sum. rewrite <- Ess. unfold node_sum. rewrite nth_map_seq by exact Hk. rewrite map_app, Csum_app. f_equal.
    - unfold tv. rewrite map_map. f_equal. apply map_ext. intros en. exact (nth_map_seq (fun j => ev j en) n k C0 Hk).
    - unfold sv. rewrite map_map. reflexivity. }
  rewrite NA. unfold dv. rewrite NS. ring.
Qed.
