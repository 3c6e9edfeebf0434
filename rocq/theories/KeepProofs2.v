From Verif Require Import ListAux FileModel ParseProofs OperatorProofs DerivedProofs TextProofs EquationProofs EquationProofs2 EquationProofs3 EquationProofs4 EquationProofs5 EquationProofs6 EquationProofs7 EquationProofs8.
From Verif Require Import RegistryProofs RegistryProofs2 RegistryProofs3 StepProofs SplitSpec SimProofs SimProofs2 SimProofs3 SimProofs4 SimProofs5 SplitProofs2 SplitProofs3 SplitProofs4.
From Verif Require Import KeepSpec KeepProofs RealProofs RealProofs2 DftProofs IndexProofs EnergyProofs3 CVec Complex.
From Coq Require Import Lra Lia Permutation.
Open Scope R_scope.

Lemma real_conj z : is_real z -> Cconj z = z.
Proof. destruct z as [a b]. unfold is_real. cbn. intros ->. csolve. Qed.
Lemma is_real_mul a b : is_real a -> is_real b -> is_real (Cmul a b).
Proof. destruct a as [a a'], b as [b b']. unfold is_real. cbn. intros -> ->. ring. Qed.
Lemma is_real_RtoC z : is_real z -> z = RtoC (Re z).
Proof. destruct z as [a b]. unfold is_real. cbn. intros ->. reflexivity. Qed.
Lemma product_real cpow val fs : (forall f, In f fs -> is_real (cpow (val (fa_name f)) (factor_power f))) -> is_real (product_value cpow val fs).
Proof.
  induction fs as [|f fs IH]; intros H; [reflexivity|]. cbn [product_value]. apply is_real_mul; [apply H; left; reflexivity|].
  apply IH. intros g Hg. apply H. right. exact Hg.
Qed.

Section Herm.
  Variable dom : list Z.
  Lemma hf_const z : is_real z -> herm_fun dom (fun _ => z).
  Proof. intros H k m _ _ _. symmetry. apply real_conj, H. Qed.
  Lemma hf_mul f g : herm_fun dom f -> herm_fun dom g -> herm_fun dom (fun k => Cmul (f k) (g k)).
  Proof. intros Hf Hg k m Hk Hm Hc. rewrite (Hf k m Hk Hm Hc), (Hg k m Hk Hm Hc). symmetry. apply Cconj_mul. Qed.
  Lemma hf_add f g : herm_fun dom f -> herm_fun dom g -> herm_fun dom (fun k => Cadd (f k) (g k)).
  Proof. intros Hf Hg k m Hk Hm Hc. rewrite (Hf k m Hk Hm Hc), (Hg k m Hk Hm Hc). symmetry. apply Cconj_add. Qed.
  Lemma hf_sum {A} (f : nat -> A -> C) l : (forall x, In x l -> herm_fun dom (fun k => f k x)) -> herm_fun dom (fun k => Csum (map (f k) l)).
  Proof.
    induction l as [|x l IH]; intros H; cbn [map Csum]; [apply hf_const; reflexivity|].
    apply (hf_add (fun k => f k x)); [apply H; left; reflexivity|]. apply IH. intros y Hy. apply H. right. exact Hy.
  Qed.
  Lemma hf_signed (f : nat -> item -> C) l : (forall x, In x l -> herm_fun dom (fun k => f k (fst x))) -> herm_fun dom (fun k => sum_signed (f k) l).
  Proof.
    intros H. unfold sum_signed. apply (hf_sum (fun k x => Cmul (RtoC (sign_value (snd x))) (f k (fst x)))). intros x Hx.
    apply (hf_mul (fun _ => RtoC (sign_value (snd x)))); [apply hf_const; reflexivity|apply H, Hx].
  Qed.
End Herm.

Section Declared.
  Variables (L : lang) (cs : list call) (es : list eqtext) (m : mstate).
  Hypothesis HDc : declared L cs es.
  Hypothesis Em : run_calls new_mstate (cs ++ [CInit]) = Ok m.
  Variables (dom : list Z) (lib : library).
  Hypothesis Hv : valid_domain dom.
  Let nd := length (pm_derived (ms_names m)).
  Let nf := length (l_fields L).
  Hypothesis GL : good_library L (nodes dom) lib.
  Hypothesis RL : real_library L cs es dom nd lib.
  Let HL := dc_lang _ _ _ HDc.
  Let n := nodes dom.
  Let ft := fftw_transform dom.
  Let p := simulation n ft lib m.

  Lemma calc_count : length (p_calc p) = nd.
  Proof. unfold p, simulation. cbn [p_calc]. apply map_length. Qed.

  Lemma names_inv : minv L (ms_names m).
  Proof. apply (declared_state L cs es m HDc Em). Qed.

  Lemma calc_real i c e : nth_error (p_calc p) i = Some c -> sized nf (length (p_calc p)) e -> real_fields dom (e_fields e) ->
    length (c e) = nodes dom /\ real_field (c e).
  Proof.
    intros Hc [S1 _] HR. unfold p, simulation in Hc. cbn [p_calc] in Hc. rewrite nth_error_map in Hc.
    destruct (nth_error (pm_derived (ms_names m)) i) as [name|] eqn:En; [|discriminate]. injection Hc as <-. unfold calc_of.
    destruct (lb_calc lib name) as [c|] eqn:Ec; [split; [exact (lb_calc_length _ _ _ GL name c _ Ec)|exact (rl_calc _ _ _ _ _ _ RL name c _ Ec S1 HR)]|].
    cbv zeta. split; [rewrite map_length, seq_length; reflexivity|].
    apply nth_error_In in En. destruct (final_origin L cs es HDc m Em name En) as [Hf|(q & t & s & fs & Hq & Ht & Hp & Hne & Hfs & ->)].
    { apply (lb_functions _ _ _ GL) in Hf. destruct Hf as (c & Hc). congruence. }
    unfold real_field. apply Forall_forall. intros z Hz. apply in_map_iff in Hz. destruct Hz as (j & <- & Hj). apply in_seq in Hj.
    set (val := fun x => nth j (match last_index (l_fields L) x with Some i => nth i (e_fields e) [] | None => [] end) C0).
    rewrite (mi_fields L _ names_inv).
    assert (FD : forall x, In x (l_fields L) -> exists i d, nth_error (l_fields L) i = Some x /\ last_index (l_fields L) x = Some i /\ nth_error (e_fields e) i = Some d
       /\ length d = nodes dom /\ real_field d).
    { intros x Hx. destruct (field_index L x Hx) as (k & Hk & Hl). destruct (nth_error (e_fields e) k) as [d|] eqn:Ed.
      - exists k, d. split; [exact Hk|]. split; [exact Hl|]. split; [exact Ed|]. unfold real_fields in HR. rewrite Forall_forall in HR. apply HR. eapply nth_error_In, Ed.
      - apply nth_error_None in Ed. assert (Hk' : nth_error (l_fields L) k <> None) by congruence. apply nth_error_Some in Hk'. unfold nf in S1. lia. }
    rewrite (derived_calc_spec (lb_pow lib) _ val j fs Hne).
    - apply product_real. intros f Hf. rewrite Forall_forall in Hfs. destruct (Hfs f Hf) as [_ Hin]. destruct (FD _ Hin) as (k & d & Hk & Hl & Hd & Ld & Rd).
      unfold val. rewrite Hl, (nth_error_nth _ _ _ Hd).
      assert (Hr : is_real (nth j d C0)). { apply (proj1 (real_field_nth d) Rd). rewrite Ld. unfold n in Hj. lia. }
      rewrite (is_real_RtoC _ Hr). apply (rl_power _ _ _ _ _ _ RL q t s f _ Hq Ht). apply (Permutation_in _ (Permutation_sym Hp)), Hf.
    - eapply Forall_impl; [|exact Hfs]. intros g [H _]. exact H.
    - intros f Hf. rewrite Forall_forall in Hfs. destruct (Hfs f Hf) as [_ Hin]. destruct (FD _ Hin) as (k & d & Hk & Hl & Hd & Ld & Rd).
      exists (fun j => nth j d C0). split.
      + apply (field_value_combine (l_fields L) (e_fields e) (fa_name f) d k); [exact (fields_nodup L HL)|exact S1|exact Hk|exact Hd].
      + unfold val. rewrite Hl, (nth_error_nth _ _ _ Hd). reflexivity.
  Qed.

  Lemma brick_herm E name : real_amplitudes dom nf nd E -> In name (all_field_names (ms_names m)) -> herm_fun dom (fun k => brick_at lib (ms_names m) E k name).
  Proof.
    intros ([S1 S2] & H1 & H2) Hin. unfold brick_at.
    assert (Hl : forall l i x, last_index l x = Some i -> (i < length l)%nat).
    { intros l i x H. apply last_index_some in H. apply nth_error_Some. congruence. }
    destruct (last_index (pm_derived (ms_names m)) name) as [i|] eqn:Ei.
    - apply (herm_iff dom _ Hv). assert (Hi := Hl _ _ _ Ei).
      destruct (Forall_nth_error _ i _ _ H2 (nth_error_nth' (e_derived E) [] ltac:(rewrite S2; exact Hi))) as [_ H]. exact H.
    - unfold all_field_names in Hin. apply in_app_or in Hin. destruct Hin as [Hin|Hin].
      2:{ destruct (last_index_in _ _ Hin) as (i & Hi). congruence. }
      destruct (last_index_in _ _ Hin) as (i & Hi). rewrite Hi. apply Hl in Hi. rewrite (mi_fields L _ names_inv) in Hi.
      apply (herm_iff dom _ Hv). destruct (Forall_nth_error _ i _ _ H1 (nth_error_nth' (e_fields E) [] ltac:(rewrite S1; exact Hi))) as [_ H]. exact H.
  Qed.

  Lemma coefficient_herm q t s : In q es -> In (IProduct t, s) (signed_items q) ->
    herm_fun dom (fun k => coefficient L (lb_pow lib) (lb_scalar lib) (tfreq ft k) t).
  Proof.
    intros Hq Ht. unfold coefficient. apply (hf_mul dom (fun k => RtoC (lap_symbol (tfreq ft k) ^ total_power t)) (fun _ => product_value (lb_pow lib) (lb_scalar lib) (scalar_factors L t))).
    - exact (isotropic_herm dom Hv (fun s => (- (4 * PI * PI * s)) ^ total_power t)).
    - apply hf_const. apply product_real. intros f Hf. exact (rl_scalar _ _ _ _ _ _ RL q t s f Hq Ht Hf).
  Qed.

  (** The registered terms at a node, from the tables of the model. *)
  Definition table (k : kind) : str -> option nat := fun name =>
    find_term (match k with KImplicit => ms_implicit m | KExplicit => ms_explicit m | KMixed => ms_mixed m end) name.
  Definition from (k : kind) (f : nat -> data) (name : str) (j : nat) : C := match table k name with Some s => nth j (f s) C0 | None => C0 end.
  Lemma table_spec k name s : table k name = Some s <-> registered cs k name s.
  Proof.
    assert (Em' := Em). apply run_calls_snoc in Em'. destruct Em' as (m1 & Em1 & Ei). assert (T := tracked_run _ _ Em1). cbn [run_call] in Ei.
    unfold call_init in Ei. destruct (build_all m1 (ms_equations m1)); try discriminate. cbn [bind] in Ei. injection Ei as Ei.
    unfold table. rewrite <- Ei. cbn [ms_implicit ms_explicit ms_mixed]. exact (tk_table _ _ T k name s).
  Qed.
  Lemma from_spec k f name s j : registered cs k name s -> from k f name j = nth j (f s) C0.
  Proof. intros H. unfold from. rewrite (proj2 (table_spec k name s) H). reflexivity. Qed.
  Lemma from_herm k f name : (forall s, registered cs k name s -> hermitian dom (f s)) -> herm_fun dom (from k f name).
  Proof.
    intros H. unfold from. destruct (table k name) as [s|] eqn:E; [|apply hf_const; reflexivity].
    apply (herm_iff dom _ Hv). apply H, table_spec, E.
  Qed.

  Lemma parts E t i q : nth_error es i = Some q ->
    exists r a, get_rhs p E i t n = Some r /\ get_denum p E i t n = Some a /\ length r = n /\ length a = n
    /\ (real_amplitudes dom nf nd E -> hermitian dom r)
    /\ ((forall name s, registered cs KImplicit name s -> hermitian dom (lb_pure lib s E t)) ->
        (forall name s, registered cs KMixed name s -> hermitian dom (lb_linear lib s E t)) -> hermitian dom a).
  Proof.
    intros Hq. destruct (split_any L cs es m HDc Em n ft lib GL E t i q Hq) as (r & a & Er & Ea & Lr & La & HV).
    destruct (declared_parts L cs es m HDc Em i q Hq) as (Hcov & _).
    exists r, a. split; [exact Er|]. split; [exact Ea|]. split; [exact Lr|]. split; [exact La|].
    assert (Hin := nth_error_In _ _ Hq).
    assert (Hnm : forall k, named cs lib E t k (fun x => from KImplicit (fun s => lb_pure lib s E t) x k) (fun x => from KExplicit (fun s => lb_pure lib s E t) x k)
      (fun x => from KMixed (fun s => lb_linear lib s E t) x k) (fun x => from KMixed (fun s => lb_nonlinear lib s E t) x k)).
    { intros k. constructor; intros name s Hs; [exact (from_spec KImplicit (fun s => lb_pure lib s E t) name s k Hs)|exact (from_spec KExplicit (fun s => lb_pure lib s E t) name s k Hs)|split; [exact (from_spec KMixed (fun s => lb_linear lib s E t) name s k Hs)|exact (from_spec KMixed (fun s => lb_nonlinear lib s E t) name s k Hs)]]. }
    assert (Hlap : forall os, herm_fun dom (fun k => RtoC (lap_symbol (tfreq ft k) ^ lap_power os))).
    { intros os. exact (isotropic_herm dom Hv (fun s => (- (4 * PI * PI * s)) ^ lap_power os)). }
    split.
    - intros HE. apply (herm_ext dom r (fun k => Cadd (sum_signed (explicit_item L (lb_pow lib) (lb_scalar lib) (fun x => from KExplicit (fun s => lb_pure lib s E t) x k)
          (fun x => from KMixed (fun s => lb_nonlinear lib s E t) x k) (tfreq ft k)
          (fun t => brick_at lib (ms_names m) E k (derived_name L t)) (q_field q)) (signed_items q)) (source_sum cs lib t i k)) Hv).
      { intros k Hk. exact (proj1 (HV k Hk _ _ _ _ (Hnm k))). }
      apply hf_add.
      + apply (hf_signed dom (fun k => explicit_item L (lb_pow lib) (lb_scalar lib) (fun x => from KExplicit (fun s => lb_pure lib s E t) x k)
          (fun x => from KMixed (fun s => lb_nonlinear lib s E t) x k) (tfreq ft k) (fun t => brick_at lib (ms_names m) E k (derived_name L t)) (q_field q))).
        intros [it s] Hx. cbn [fst]. destruct it as [w|os name]; unfold explicit_item.
        * destruct (linear_in L (q_field q) w); [apply hf_const; reflexivity|].
          apply (hf_mul dom (fun k => coefficient L (lb_pow lib) (lb_scalar lib) (tfreq ft k) w)); [exact (coefficient_herm q w s Hin Hx)|].
          apply brick_herm; [exact HE|].
          assert (Hgi : good_item L (IProduct w)).
          { assert (Hg := dc_good _ _ _ HDc). rewrite Forall_forall in Hg. specialize (Hg q Hin).
            destruct (items_good L q Hg _ (Permutation_refl _)) as [Hgs _]. rewrite Forall_forall in Hgs. apply Hgs. exact (in_map fst _ _ Hx). }
          destruct Hgi as [(before & fs & after & GP) _]. rewrite (derived_name_dnm L HL w before fs after GP).
          unfold all_cov in Hcov. rewrite Forall_forall in Hcov. specialize (Hcov _ Hx). cbn [fst cov] in Hcov.
          destruct (Hcov before fs after GP) as [Hnil|Hcn]; [exfalso; exact (gp_field _ _ _ _ _ GP Hnil)|exact Hcn].
        * apply (hf_mul dom (fun k => RtoC (lap_symbol (tfreq ft k) ^ lap_power os))); [apply Hlap|].
          destruct (mem_str name (l_implicit L)); [apply hf_const; reflexivity|]. destruct (mem_str name (l_explicit L)); apply from_herm; intros s' Hs.
          -- exact (rl_pure _ _ _ _ _ _ RL KExplicit name s' E t ltac:(discriminate) Hs HE).
          -- apply (rl_mixed _ _ _ _ _ _ RL name s' E t Hs HE).
      + unfold source_sum. apply (hf_sum dom (fun k s => nth k (lb_source lib s t) C0)). intros s Hs. apply (herm_iff dom _ Hv).
        exact (rl_source _ _ _ _ _ _ RL i s t Hs).
    - intros HI HM. apply (herm_ext dom a (fun k => sum_signed (implicit_item L (lb_pow lib) (lb_scalar lib) (fun x => from KImplicit (fun s => lb_pure lib s E t) x k)
          (fun x => from KMixed (fun s => lb_linear lib s E t) x k) (tfreq ft k) (q_field q)) (signed_items q)) Hv).
      { intros k Hk. exact (proj2 (HV k Hk _ _ _ _ (Hnm k))). }
      apply (hf_signed dom (fun k => implicit_item L (lb_pow lib) (lb_scalar lib) (fun x => from KImplicit (fun s => lb_pure lib s E t) x k)
          (fun x => from KMixed (fun s => lb_linear lib s E t) x k) (tfreq ft k) (q_field q))).
      intros [it s] Hx. cbn [fst]. destruct it as [w|os name]; unfold implicit_item.
      + destruct (linear_in L (q_field q) w); [exact (coefficient_herm q w s Hin Hx)|apply hf_const; reflexivity].
      + apply (hf_mul dom (fun k => RtoC (lap_symbol (tfreq ft k) ^ lap_power os))); [apply Hlap|].
        destruct (mem_str name (l_implicit L)); [apply from_herm; intros s' Hs; exact (HI name s' Hs)|].
        destruct (mem_str name (l_explicit L)); [apply hf_const; reflexivity|apply from_herm; intros s' Hs; exact (HM name s' Hs)].
  Qed.

  Lemma equation_of E i t k r : (get_rhs p E i t k = Some r \/ get_denum p E i t k = Some r) -> exists q, nth_error es i = Some q.
  Proof.
    intros H. assert (Hi : (i < length (p_eqns p))%nat).
    { apply nth_error_Some. intros Hn. unfold get_rhs, get_denum in H. rewrite Hn in H. destruct H; discriminate. }
    unfold p, simulation in Hi. cbn [p_eqns] in Hi. rewrite equations_with_length in Hi.
    destruct (declared_state L cs es m HDc Em) as (_ & _ & Hl & _). rewrite Hl in Hi.
    destruct (nth_error es i) as [q|] eqn:Eq; [eauto|apply nth_error_None in Eq; lia].
  Qed.

  Theorem declared_real : real_parts dom nf p.
  Proof.
    constructor.
    - intros i c e Hc HS HR _. exact (calc_real i c e Hc HS HR).
    - intros e i t r (S & H1 & H2) Hr. destruct (equation_of e i t _ r (or_introl Hr)) as (q & Hq).
      destruct (parts e t i q Hq) as (r' & a & Er & _ & Lr & _ & HH & _). unfold n in Er. rewrite Hr in Er. injection Er as <-. split; [exact Lr|].
      apply HH. rewrite calc_count in S. split; [exact S|split; assumption].
    - intros e i t r (S & H1 & H2) Hr. destruct (equation_of e i t _ r (or_intror Hr)) as (q & Hq).
      destruct (parts e t i q Hq) as (r' & a & _ & Ea & _ & La & _ & HH). unfold n in Ea. rewrite Hr in Ea. injection Ea as <-. split; [exact La|].
      rewrite calc_count in S. assert (HA : real_amplitudes dom nf nd e) by (split; [exact S|split; assumption]).
      apply HH; intros name s Hs; [exact (rl_pure _ _ _ _ _ _ RL KImplicit name s e t ltac:(discriminate) Hs HA)|apply (rl_mixed _ _ _ _ _ _ RL name s e t Hs HA)].
  Qed.

  Theorem declared_denum_real : field_independent cs lib -> forall e i t r, get_denum p e i t (nodes dom) = Some r -> herm dom r.
  Proof.
    intros [F1 F2] e i t r Hr. destruct (equation_of e i t _ r (or_intror Hr)) as (q & Hq).
    destruct (parts e t i q Hq) as (r' & a & _ & Ea & _ & La & _ & HH). unfold n in Ea. rewrite Hr in Ea. injection Ea as <-. split; [exact La|].
    set (Z := {| e_fields := repeat (repeat C0 (nodes dom)) nf; e_derived := repeat (repeat C0 (nodes dom)) nd |}).
    assert (HZ : real_amplitudes dom nf nd Z).
    { assert (G : forall j, hermitian_fields dom (repeat (repeat C0 (nodes dom)) j)).
      { intros j. apply Forall_forall. intros d Hd. apply repeat_spec in Hd. subst d. exact (herm_zero dom Hv). }
      split; [split; apply repeat_length|split; apply G]. }
    apply HH; intros name s Hs.
    - rewrite (F1 name s e Z t Hs). exact (rl_pure _ _ _ _ _ _ RL KImplicit name s Z t ltac:(discriminate) Hs HZ).
    - rewrite (F2 name s e Z t Hs). apply (rl_mixed _ _ _ _ _ _ RL name s Z t Hs HZ).
  Qed.
End Declared.
