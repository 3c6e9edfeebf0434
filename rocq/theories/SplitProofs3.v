From Verif Require Import ListAux FileModel ParseProofs OperatorProofs DerivedProofs TextProofs EquationProofs EquationProofs2 EquationProofs3 EquationProofs4 EquationProofs5 EquationProofs6 EquationProofs7 EquationProofs8.
From Verif Require Import RegistryProofs RegistryProofs2 RegistryProofs3 StepProofs SplitSpec SimProofs SimProofs2 SimProofs3 SimProofs4 SimProofs5 SplitProofs2.
From Coq Require Import Lia Permutation.
Open Scope nat_scope.

(** The registered terms of a declared model, by name, at a node. *)
Record named (cs : list call) (lib : library) (E : env) (t : R) (k : nat) (implicit explicit linear nonlinear : str -> C) : Prop := {
  nm_implicit : forall name s, registered cs KImplicit name s -> implicit name = nth k (lb_pure lib s E t) C0;
  nm_explicit : forall name s, registered cs KExplicit name s -> explicit name = nth k (lb_pure lib s E t) C0;
  nm_mixed : forall name s, registered cs KMixed name s -> linear name = nth k (lb_linear lib s E t) C0 /\ nonlinear name = nth k (lb_nonlinear lib s E t) C0
}.

Section Declared.
  Variables (L : lang) (cs : list call) (es : list eqtext) (m : mstate).
  Hypothesis HDc : declared L cs es.
  Hypothesis Em : run_calls new_mstate (cs ++ [CInit]) = Ok m.
  Let HL := dc_lang _ _ _ HDc.

  Lemma good_text s : In s (equations_of cs) -> exists e, strip_spaces s = eq_text e /\ good_equation L e.
  Proof.
    assert (H2 := dc_texts _ _ _ HDc). assert (Hg := dc_good _ _ _ HDc). revert Hg. clear - H2. induction H2 as [|s0 e ss es Hs0 _ IH]; intros Hg Hs; [destruct Hs|].
    inversion Hg as [|? ? G1 G2]; subst. destruct Hs as [<-|Hs]; [exists e; split; assumption|apply IH; assumption].
  Qed.

  Lemma declared_fresh x : In x (pm_derived (ms_names m)) -> ~ In x (l_fields L).
  Proof.
    intros Hx. assert (Em' := Em). apply run_calls_snoc in Em'. destruct Em' as (m1 & Em1 & Einit). cbn [run_call] in Einit.
    unfold call_init in Einit. destruct (build_all m1 (ms_equations m1)) as [rhs| |] eqn:Eb; try discriminate. cbn [bind] in Einit.
    assert (Hnames : ms_names m = ms_names m1) by (injection Einit as <-; reflexivity). rewrite Hnames in Hx.
    exact (derived_not_field L HL cs (dc_names _ _ _ HDc) (dc_first _ _ _ HDc) cs [] m1 x (eq_sym (app_nil_r cs)) Em1 Hx).
  Qed.

  Lemma declared_parts i q : nth_error es i = Some q -> all_cov L (ms_names m) q
    /\ nth_error (ms_sources m) i = Some (sources_of i cs)
    /\ exists terms denum, nth_error (ms_rhs m) i = Some (terms, denum)
    /\ forall cpow scal brick pure lin nonlin implicit explicit linear nonlinear freq,
        (forall s, In s (l_scalars L) -> brick s = scal s) ->
        (forall n t, registered cs KImplicit n t -> implicit n = pure t) ->
        (forall n t, registered cs KExplicit n t -> explicit n = pure t) ->
        (forall n t, registered cs KMixed n t -> linear n = lin t /\ nonlinear n = nonlin t) ->
        let ev := eval_entry cpow brick pure lin nonlin freq in
        Csum (map ev terms) = sum_signed (explicit_item L cpow scal explicit nonlinear freq (fun t => brick (derived_name L t)) (q_field q)) (signed_items q)
        /\ Csum (map ev denum) = sum_signed (implicit_item L cpow scal implicit linear freq (q_field q)) (signed_items q).
  Proof.
    intros Hq. assert (Hgt := good_text). destruct (declared_state L cs es m HDc Em) as (HM & Hls & Hlr & _).
    assert (HD := dc_names _ _ _ HDc). assert (HF := dc_first _ _ _ HDc). assert (HS := dc_sources _ _ _ HDc). assert (HI := dc_noinit _ _ _ HDc). assert (H2 := dc_texts _ _ _ HDc). assert (Hg := dc_good _ _ _ HDc).
    assert (Em' := Em). apply run_calls_snoc in Em'. destruct Em' as (m1 & Em1 & Einit). cbn [run_call] in Einit.
    unfold call_init in Einit. destruct (build_all m1 (ms_equations m1)) as [rhs| |] eqn:Eb; try discriminate. cbn [bind] in Einit.
    assert (Hnames : ms_names m = ms_names m1) by (injection Einit as <-; reflexivity).
    assert (Hsrc : ms_sources m = ms_sources m1) by (injection Einit as <-; reflexivity).
    assert (Hrhs : ms_rhs m = rhs) by (injection Einit as <-; reflexivity).
    assert (T := tracked_run _ _ Em1).
    assert (Hgq : good_equation L q) by (rewrite Forall_forall in Hg; apply Hg; eapply nth_error_In, Hq).
    assert (Hs : exists s, nth_error (equations_of cs) i = Some s /\ strip_spaces s = eq_text q).
    { revert i Hq. clear - H2. induction H2 as [|s e ss es Hs _ IH]; intros [|i] Hq; try discriminate; cbn [nth_error] in *; [injection Hq as <-; eauto|eauto]. }
    destruct Hs as (s & Es & Ets).
    assert (Hcov : all_cov L (ms_names m) q).
    { destruct (run_prefix L HL cs HD HF HS HI Hgt cs [] (eq_sym (app_nil_r cs))) as (m' & Em' & _ & HC).
      rewrite Em1 in Em'. injection Em' as <-. specialize (HC s q (nth_error_In _ _ Es) Ets Hgq). rewrite Hnames in *.
      unfold all_cov. unfold later_all in HC. eapply Forall_impl; [|exact HC]. intros p Hp. apply Hp; [exact HM|apply incl_refl]. }
    split; [exact Hcov|]. split.
    { assert (Hi : i < length (ms_sources m)) by (rewrite Hls, Hlr; apply nth_error_Some; congruence).
      destruct (nth_error (ms_sources m) i) as [ss|] eqn:Ess; [|apply nth_error_None in Ess; lia].
      rewrite Hsrc in Ess. rewrite (tk_sources _ _ T i ss Ess). reflexivity. }
    assert (Hi : i < length (ms_rhs m)) by (rewrite Hlr; apply nth_error_Some; congruence).
    destruct (nth_error (ms_rhs m) i) as [[terms denum]|] eqn:Er; [|apply nth_error_None in Er; lia].
    exists terms, denum. split; [reflexivity|].
    rewrite Hrhs in Er. destruct (build_all_nth _ _ _ _ _ _ Eb Er) as (q' & bt & bd & Hq' & Eq & -> & ->).
    rewrite (tk_equations _ _ T), nth_error_map, Es in Hq'. injection Hq' as <-. rewrite Ets in Eq.
    intros cpow scal brick pure lin nonlin implicit explicit linear nonlinear freq GB H3 H4 H5.
    destruct (build_names _ _ _ _ Eq) as [N1 N2].
    assert (H5a : forall n t, registered cs KMixed n t -> linear n = lin t) by (intros n t H; apply (H5 n t H)).
    assert (H5b : forall n t, registered cs KMixed n t -> nonlinear n = nonlin t) by (intros n t H; apply (H5 n t H)).
    cbv zeta.
    rewrite (entries_value cs m1 T cpow brick pure lin nonlin freq implicit explicit linear nonlinear H3 H4 H5a H5b bt N1).
    rewrite (entries_value cs m1 T cpow brick pure lin nonlin freq implicit explicit linear nonlinear H3 H4 H5a H5b bd N2).
    rewrite Hnames in *. exact (build_parts L HL (ms_names m1) q bt bd HM Hgq Hcov Eq cpow scal brick implicit explicit linear nonlinear freq GB).
  Qed.

  Variables (n : nat) (ft : transform) (lib : library).
  Hypothesis GL : good_library L n lib.
  Let p := simulation n ft lib m.

  Lemma scalar_at E k s : In s (l_scalars L) -> brick_at lib (ms_names m) E k s = lb_scalar lib s.
  Proof.
    destruct (declared_state L cs es m HDc Em) as (HM & _).
    intros Hs. assert (H := scalar_fname L HL (ms_names m) HM s Hs). unfold is_fname in H. apply mem_str_notIn in H.
    unfold all_field_names in H. unfold brick_at. rewrite !last_index_none; [reflexivity| |]; intros Hin; apply H, in_or_app; auto.
  Qed.

  (** The right-hand side and the denominator in any state of the slices. *)
  Lemma split_any E t i q : nth_error es i = Some q ->
    exists r a, get_rhs p E i t n = Some r /\ get_denum p E i t n = Some a /\ length r = n /\ length a = n
    /\ forall k, k < n -> forall implicit explicit linear nonlinear, named cs lib E t k implicit explicit linear nonlinear ->
       nth k r C0 = Cadd (sum_signed (explicit_item L (lb_pow lib) (lb_scalar lib) explicit nonlinear (tfreq ft k)
                            (fun t => brick_at lib (ms_names m) E k (derived_name L t)) (q_field q)) (signed_items q)) (source_sum cs lib t i k)
       /\ nth k a C0 = sum_signed (implicit_item L (lb_pow lib) (lb_scalar lib) implicit linear (tfreq ft k) (q_field q)) (signed_items q).
  Proof.
    intros Hq. destruct (declared_parts i q Hq) as (_ & Hss & terms & denum & Hi & Hev).
    destruct (declared_state L cs es m HDc Em) as (_ & Hls & _ & _).
    destruct (equations_with_nth (entry_term n ft lib (ms_names m)) (fun s t _ => lb_source lib s t) _ _ _ _ _ Hls Hi) as (ss & Hss' & Heq).
    rewrite Hss in Hss'. injection Hss' as <-.
    set (ev := fun k => eval_entry (lb_pow lib) (brick_at lib (ms_names m) E k) (fun s => nth k (lb_pure lib s E t) C0)
                 (fun s => nth k (lb_linear lib s E t) C0) (fun s => nth k (lb_nonlinear lib s E t) C0) (tfreq ft k)).
    set (tv := map (fun en => map (fun k => ev k en) (seq 0 n)) terms). set (dv := map (fun en => map (fun k => ev k en) (seq 0 n)) denum).
    set (sv := map (fun s => lb_source lib s t) (sources_of i cs)).
    assert (W : forall l, Forall2 (fun f v => writes n (f E t) v) (map (entry_term n ft lib (ms_names m)) l) (map (fun en => map (fun k => ev k en) (seq 0 n)) l)).
    { intros l. apply Forall2_maps. intros en _. split; [rewrite map_length, seq_length; reflexivity|]. intros tmp _. reflexivity. }
    assert (WS : Forall2 (fun f v => writes n (f t) v) (map (fun s (t : R) (_ : data) => lb_source lib s t) (sources_of i cs)) sv).
    { apply Forall2_maps. intros s _. split; [apply (lb_source_length _ _ _ GL)|]. intros tmp _. reflexivity. }
    assert (Er : get_rhs p E i t n = Some (node_sum n (tv ++ sv))).
    { exact (get_rhs_sum p [] E i t n _ tv sv eq_refl Heq (W terms) WS). }
    assert (Ea : get_denum p E i t n = Some (node_sum n dv)) by exact (get_denum_sum p E i t n _ dv Heq (W denum)).
    exists (node_sum n (tv ++ sv)), (node_sum n dv). split; [exact Er|]. split; [exact Ea|].
    split; [unfold node_sum; rewrite map_length, seq_length; reflexivity|]. split; [unfold node_sum; rewrite map_length, seq_length; reflexivity|].
    intros k Hk implicit explicit linear nonlinear [R1 R2 R3].
    assert (Hm := Hev (lb_pow lib) (lb_scalar lib) (brick_at lib (ms_names m) E k)
      (fun s => nth k (lb_pure lib s E t) C0) (fun s => nth k (lb_linear lib s E t) C0) (fun s => nth k (lb_nonlinear lib s E t) C0)
      implicit explicit linear nonlinear (tfreq ft k) (scalar_at E k) R1 R2 R3). cbv zeta in Hm. fold (ev k) in Hm. destruct Hm as [M1 M2].
    split.
    - rewrite <- M1. unfold source_sum, node_sum. rewrite nth_map_seq by exact Hk. rewrite map_app, Csum_app. f_equal.
      + unfold tv. rewrite map_map. f_equal. apply map_ext. intros en. exact (nth_map_seq (fun j => ev j en) n k C0 Hk).
      + unfold sv. rewrite map_map. reflexivity.
    - rewrite <- M2. unfold node_sum, dv. rewrite nth_map_seq by exact Hk. rewrite map_map. f_equal. apply map_ext. intros en. exact (nth_map_seq (fun j => ev j en) n k C0 Hk).
  Qed.
End Declared.
