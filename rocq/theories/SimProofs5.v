From Verif Require Import ListAux FileModel ParseProofs DerivedProofs EquationProofs EquationProofs4 EquationProofs8.
From Verif Require Import RegistryProofs RegistryProofs2 RegistryProofs3 StepProofs SimSpec SimProofs SimProofs2 SimProofs3 SimProofs4.
From Coq Require Import Lia.
Open Scope nat_scope.

Lemma declared_state L cs es m : declared L cs es -> run_calls new_mstate (cs ++ [CInit]) = Ok m ->
  minv L (ms_names m) /\ length (ms_sources m) = length (ms_rhs m) /\ length (ms_rhs m) = length es
  /\ forall i t d en, nth_error (ms_rhs m) i = Some (t, d) -> In en d -> entry_ok cs en /\ constant_entry L (fst en).
Proof.
  intros [HL HD HF HS HI _ H2 Hg] Em. destruct (init_entries cs m Em) as [Hlen Hent].
  assert (Hle : length (equations_of cs) = length es) by (clear - H2; induction H2; cbn; congruence).
  assert (Hgood : forall s, In s (equations_of cs) -> exists e, strip_spaces s = eq_text e /\ good_equation L e).
  { intros s Hs. revert Hs Hg. clear - H2. induction H2 as [|s0 e ss es Hs0 _ IH]; intros Hs Hg; [destruct Hs|].
    inversion Hg as [|? ? G1 G2]; subst. destruct Hs as [<-|Hs]; [exists e; split; assumption|apply IH; assumption]. }
  apply run_calls_snoc in Em. destruct Em as (m1 & Em1 & Einit). cbn [run_call] in Einit.
  assert (T := tracked_run _ _ Em1). assert (HM1 : minv L (ms_names m1)) by exact (final_inv L HL cs HD HF HS HI Hgood m1 Em1).
  unfold call_init in Einit. destruct (build_all m1 (ms_equations m1)) as [rhs| |] eqn:Eb; try discriminate. cbn [bind] in Einit.
  assert (Hnames : ms_names m = ms_names m1) by (injection Einit as <-; reflexivity).
  assert (Hsrc : ms_sources m = ms_sources m1) by (injection Einit as <-; reflexivity).
  assert (Hrhs : ms_rhs m = rhs) by (injection Einit as <-; reflexivity).
  split; [rewrite Hnames; exact HM1|]. split; [rewrite Hsrc, (tk_sources_length _ _ T), Hlen; reflexivity|]. split; [rewrite Hlen; exact Hle|].
  intros i t d en Hi Hen. split; [apply (Hent i t d en Hi), in_or_app; right; exact Hen|].
  rewrite Hrhs in Hi. destruct (build_all_nth _ _ _ _ _ _ Eb Hi) as (q & bt & bd & Hq & Eq & -> & ->).
  apply in_map_iff in Hen. destruct Hen as (b & <- & Hb). cbn [fst].
  rewrite (tk_equations _ _ T) in Hq. rewrite nth_error_map in Hq. destruct (nth_error (equations_of cs) i) as [s|] eqn:Es; [|discriminate].
  injection Hq as <-. destruct (Hgood s (nth_error_In _ _ Es)) as (e & Ee & He). rewrite Ee in Eq.
  assert (HB := build_denum L HL (ms_names m1) e bt bd HM1 He Eq). rewrite Forall_forall in HB. apply HB, Hb.
Qed.

Lemma equations_with_length f g : forall ts ss, length (equations_with ts ss f g) = length ts.
Proof. induction ts as [|[t d] ts IH]; intros ss; [reflexivity|]. cbn [equations_with length]. f_equal. apply IH. Qed.

Lemma equations_with_in f g : forall ts ss q, In q (equations_with ts ss f g) -> exists t d s, q_terms q = map f t /\ q_denum q = map f d /\ q_sources q = map g s.
Proof.
  induction ts as [|[t d] ts IH]; intros ss q H; [destruct H|]. cbn [equations_with] in H. destruct H as [<-|H]; [|exact (IH _ _ H)].
  exists t, d, (hd [] ss). repeat split.
Qed.

Lemma eval_bricks_ext cpow b b' bs : Forall (fun nq => b (fst nq) = b' (fst nq)) bs -> forall acc, eval_bricks cpow b bs acc = eval_bricks cpow b' bs acc.
Proof. induction 1 as [|[n q] bs H _ IH]; intros acc; [reflexivity|]. cbn [eval_bricks]. cbn [fst] in H. rewrite H. apply IH. Qed.

Section Simulation.
  Variables (L : lang) (cs : list call) (es : list eqtext) (m : mstate).
  Hypothesis HD : declared L cs es.
  Hypothesis Em : run_calls new_mstate (cs ++ [CInit]) = Ok m.
  Variables (n : nat) (ft : transform) (lib : library).
  Hypothesis GL : good_library L n lib.
  Let p := simulation n ft lib m.

  Lemma sim_equations : length (p_eqns p) = length es.
  Proof.
    destruct (declared_state L cs es m HD Em) as (_ & _ & H & _). unfold p, simulation. cbn [p_eqns]. rewrite equations_with_length. exact H.
  Qed.

  Lemma sim_keeps_length : keeps_length n p.
  Proof.
    constructor.
    - intros c e Hc. apply in_map_iff in Hc. destruct Hc as (x & <- & _). unfold calc_of. destruct (lb_calc lib x) as [c|] eqn:Ec.
      + exact (lb_calc_length _ _ _ GL x c _ Ec).
      + rewrite map_length, seq_length. reflexivity.
    - intros q f e t tmp Hq Hf _. destruct (equations_with_in _ _ _ _ _ Hq) as (a & b & s & E1 & E2 & _). rewrite E1, E2 in Hf.
      destruct Hf as [Hf|Hf]; apply in_map_iff in Hf; destruct Hf as (en & <- & _); unfold entry_term; rewrite map_length, seq_length; reflexivity.
    - intros q s t tmp Hq Hs _. destruct (equations_with_in _ _ _ _ _ Hq) as (a & b & ss & _ & _ & E3). rewrite E3 in Hs.
      apply in_map_iff in Hs. destruct Hs as (x & <- & _). apply (lb_source_length _ _ _ GL).
    - intros x d [].
  Qed.

  Lemma sim_derived : derived_from_fields p.
  Proof.
    intros fs d d' H1 H2. apply nth_error_ext. intros i. destruct (nth_error (p_calc p) i) as [c|] eqn:Ec.
    - assert (A := sync_from_nth (p_calc p) (calc_indep m n lib ft) 0 {| e_fields := fs; e_derived := d |} i c). cbn [Nat.add e_derived] in A.
      assert (B := sync_from_nth (p_calc p) (calc_indep m n lib ft) 0 {| e_fields := fs; e_derived := d' |} i c). cbn [Nat.add e_derived] in B.
      unfold sync. rewrite A by (exact Ec || lia). rewrite B by (exact Ec || lia). f_equal.
      apply (calc_indep m n lib ft c); [eapply nth_error_In, Ec|reflexivity].
    - apply nth_error_None in Ec. rewrite !(proj2 (nth_error_None _ _)); [reflexivity| |]; unfold sync; rewrite sync_from_count; cbn [e_derived]; lia.
  Qed.

  Lemma sim_spectrum e e' : e_fields e = e_fields e' -> length (e_derived e) = length (p_calc p) -> length (e_derived e') = length (p_calc p) ->
    spectrum p ft e = spectrum p ft e'.
  Proof.
    intros H H1 H2. destruct e as [fs d], e' as [fs' d']. cbn [e_fields e_derived] in *. subst fs'. unfold spectrum. cbn [e_fields]. f_equal. f_equal.
    apply sim_derived; assumption.
  Qed.

  Lemma sim_denum : field_independent cs lib -> constant_denum p.
  Proof.
    intros [F1 F2] e e' i t N. destruct (declared_state L cs es m HD Em) as (HM & Hls & Hlr & Hent).
    unfold get_denum, p, simulation. cbn [p_eqns].
    destruct (nth_error (ms_rhs m) i) as [[tt dd]|] eqn:Ei.
    2: { apply nth_error_None in Ei. rewrite !(proj2 (nth_error_None _ i)) by (rewrite equations_with_length; exact Ei). reflexivity. }
    destruct (equations_with_nth (entry_term n ft lib (ms_names m)) (fun s t _ => lb_source lib s t) _ _ _ _ _ Hls Ei) as (ss & _ & Heq). rewrite Heq.
    cbn [q_denum]. f_equal. f_equal.
    assert (HE : forall en, In en dd -> forall tmp, entry_term n ft lib (ms_names m) en e t tmp = entry_term n ft lib (ms_names m) en e' t tmp).
    { intros en Hen tmp. unfold entry_term. apply map_ext. intros k. destruct (Hent i tt dd en Ei Hen) as [Hok Hco].
      unfold eval_entry, entry_ok in *. destruct en as [b o]. cbn [fst snd] in *. destruct b as [pt|nm pc|nm pc|nm pc|nm pc]; cbn [constant_entry eval_built] in *; try destruct Hco.
      - unfold eval_pterm. rewrite H. rewrite (eval_bricks_ext (lb_pow lib) (brick_at lib (ms_names m) e k) (brick_at lib (ms_names m) e' k)); [reflexivity|].
        eapply Forall_impl; [|exact H0]. intros [x q] Hx. cbn [fst] in *.
        assert (Hn := scalar_fname L (dc_lang _ _ _ HD) (ms_names m) HM x Hx). unfold is_fname in Hn. apply mem_str_notIn in Hn. unfold all_field_names in Hn.
        unfold brick_at. rewrite !last_index_none; [reflexivity| |]; intros Hin; apply Hn, in_or_app; auto.
      - destruct Hok as (s & -> & Hs). rewrite (F1 nm s e e' t Hs). reflexivity.
      - destruct Hok as (s & -> & Hs). rewrite (F2 nm s e e' t Hs). reflexivity. }
    clear Hent Ei Heq. generalize (repeat C0 N, repeat C0 N). induction dd as [|en dd IH]; intros st; [reflexivity|]. cbn [map fold_left].
    unfold add_term at 2 4. rewrite (HE en (or_introl eq_refl)). apply IH. intros x Hx. apply HE. right. exact Hx.
  Qed.

  Lemma written_exists E t q k fields : exists M, written L cs n ft lib fields E t q k M.
  Proof.
    assert (Em' := Em). apply run_calls_snoc in Em'. destruct Em' as (m1 & Em1 & _). assert (T := tracked_run _ _ Em1).
    set (val := fun name j => match last_index (l_fields L) name with
                              | Some i => nth j (nth i fields []) C0
                              | None => match lb_calc lib name with Some c => nth j (c fields) C0 | None => C0 end end).
    set (of := fun (l : list (str * nat)) (f : nat -> data) name => match find_term l name with Some s => nth k (f s) C0 | None => C0 end).
    eexists. exists val, (of (ms_implicit m1) (fun s => lb_pure lib s E t)), (of (ms_explicit m1) (fun s => lb_pure lib s E t)),
      (of (ms_mixed m1) (fun s => lb_linear lib s E t)), (of (ms_mixed m1) (fun s => lb_nonlinear lib s E t)).
    split; [|split; [|split; [|split; [|reflexivity]]]].
    - split.
      + intros i name d Hi Hd j. unfold val. destruct (last_index_in (l_fields L) name (nth_error_In _ _ Hi)) as (i' & Hi'). rewrite Hi'.
        apply last_index_some in Hi'. assert (i' = i) as ->.
        { apply (proj1 (NoDup_nth_error (l_fields L)) (fields_nodup L (dc_lang _ _ _ HD))); [apply nth_error_Some; congruence|congruence]. }
        rewrite (nth_error_nth _ _ _ Hd). reflexivity.
      + intros name c Hn Hc j. unfold val. rewrite last_index_none by apply (function_not_field L (dc_lang _ _ _ HD) name Hn). rewrite Hc. reflexivity.
    - intros name s Hs. unfold of. rewrite (proj2 (tk_table _ _ T KImplicit name s) Hs). reflexivity.
    - intros name s Hs. unfold of. rewrite (proj2 (tk_table _ _ T KExplicit name s) Hs). reflexivity.
    - intros name s Hs. unfold of. rewrite (proj2 (tk_table _ _ T KMixed name s) Hs). split; reflexivity.
  Qed.

  Hypothesis GT : good_transform n ft.
  Hypothesis Horder : map q_field es = l_fields L.

  (** The right-hand sides as written, sources included, are zero. *)
  Lemma balanced_written e t : fits L n m e ->
    (balanced n p ft t e <-> forall i q k M, nth_error es i = Some q -> k < n ->
       written L cs n ft lib (e_fields e) (spectrum p ft e) t q k M -> Cadd M (source_sum cs lib t i k) = C0).
  Proof.
    intros Hf. destruct (declared_rhs L cs es HD) as (m' & Em' & _ & HR). rewrite Em in Em'. injection Em' as <-.
    assert (Hq : forall i q, nth_error es i = Some q -> nth_error (l_fields L) i = Some (q_field q)).
    { intros i q Hi. rewrite <- Horder, nth_error_map, Hi. reflexivity. }
    split.
    - intros HB i q k M Hi Hk HW. destruct (HR n ft lib e t i q GL Hf Hi (Hq i q Hi)) as (r & a & y & Er & Ea & Ey & _ & _ & HV).
      rewrite <- (HV k Hk M HW). exact (HB i y r a Ey Er Ea k Hk).
    - intros HW i y r a Ey Er Ea k Hk.
      assert (Hi : i < length es).
      { rewrite <- (map_length q_field es), Horder. destruct Hf as (<- & _). rewrite <- (map_length (fft ft)). apply nth_error_Some. change (map (fft ft) (e_fields e)) with (e_fields (spectrum p ft e)). congruence. }
      destruct (nth_error es i) as [q|] eqn:Eq; [|apply nth_error_None in Eq; lia].
      destruct (HR n ft lib e t i q GL Hf Eq (Hq i q Eq)) as (r' & a' & y' & Er' & Ea' & Ey' & _ & _ & HV). fold p in Er', Ea', Ey', HV.
      assert (r' = r) as -> by congruence. assert (a' = a) as -> by congruence. assert (y' = y) as -> by congruence.
      destruct (written_exists (spectrum p ft e) t q k (e_fields e)) as (M & HM). rewrite (HV k Hk M HM). exact (HW i q k M Eq Hk HM).
  Qed.

  Lemma sim_enough e : fits L n m e -> length (e_fields e) <= length (p_eqns p).
  Proof. intros (H & _). rewrite sim_equations, H, <- Horder, map_length. lia. Qed.

  Lemma euler_fits dt t e e' : fits L n m e -> euler_step p ft None dt t e = Some e' -> e_fields e' = e_fields e -> fits L n m e'.
  Proof.
    intros (H1 & H2 & H3) Es Ef. split; [rewrite Ef; exact H1|]. split; [rewrite Ef; exact H2|]. rewrite <- H3. unfold euler_step in Es.
    destruct (euler_fields _ _ _ _ _ _ _ _) as [e3|] eqn:E3; [|discriminate]. injection Es as <-. cbn [e_derived].
    destruct (euler_fields_keeps _ _ _ _ _ _ _ _ _ E3) as (-> & _). cbn [e_derived]. rewrite map_length. unfold sync. apply sync_from_count.
  Qed.

  Lemma rk4_fits dt t e e' : field_independent cs lib -> fits L n m e -> rk4_step p ft None dt t e = Some e' -> e_fields e' = e_fields e -> fits L n m e'.
  Proof.
    intros HI Hf Es Ef. assert (Hf' := Hf). destruct Hf' as (H1 & H2 & H3). split; [rewrite Ef; exact H1|]. split; [rewrite Ef; exact H2|].
    destruct (rk4_step_scheme n p ft None dt t GT sim_keeps_length (sim_denum HI) sim_derived e H2 (sim_enough e Hf))
      as (k1 & s2 & k2 & s3 & k3 & s4 & k4 & e2 & _ & _ & _ & _ & _ & _ & _ & Es2 & _ & Ld & _).
    - unfold p, simulation. cbn [p_calc]. rewrite map_length. exact H3.
    - rewrite Es in Es2. injection Es2 as <-. congruence.
  Qed.

  Lemma sim_euler_steady dt t e : fits L n m e -> dt <> 0%R -> solvable n p ft dt t e ->
    ((exists e', euler_step p ft None dt t e = Some e' /\ e_fields e' = e_fields e) <-> balanced n p ft t e).
  Proof. intros Hf Hdt Hs. apply euler_steady; try assumption; [exact sim_keeps_length|apply Hf|apply sim_enough, Hf]. Qed.

  Lemma sim_rk4_steady dt t e : field_independent cs lib -> fits L n m e -> dt <> 0%R -> solvable n p ft dt t e -> solvable n p ft (dt / 2) t e ->
    balanced n p ft t e -> exists e', rk4_step p ft None dt t e = Some e' /\ e_fields e' = e_fields e.
  Proof.
    intros HI Hf Hdt S1 S2 HB. apply (rk4_steady n p ft dt t GT sim_keeps_length Hdt e); try assumption.
    - apply Hf.
    - apply sim_enough, Hf.
    - apply sim_denum, HI.
    - exact sim_derived.
    - unfold p, simulation. cbn [p_calc]. rewrite map_length. apply Hf.
  Qed.

  Lemma calc_count e : fits L n m e -> length (e_derived e) = length (p_calc p).
  Proof. intros (_ & _ & H). unfold p, simulation. cbn [p_calc]. rewrite map_length. exact H. Qed.

  Lemma sim_euler_forever dt : dt <> 0%R -> forall steps step e, fits L n m e ->
    (forall j, j < steps -> balanced n p ft (time_of dt (step + j)) e /\ solvable n p ft dt (time_of dt (step + j)) e) ->
    exists e', euler_propagate p ft None dt steps step e = Some (e', step + steps) /\ e_fields e' = e_fields e.
  Proof.
    intros Hdt. induction steps as [|steps IH]; intros step e Hf HB; cbn [euler_propagate].
    { exists e. rewrite Nat.add_0_r. split; reflexivity. }
    destruct (HB 0 ltac:(lia)) as [B0 S0]. rewrite Nat.add_0_r in B0, S0.
    destruct (proj2 (sim_euler_steady dt _ e Hf Hdt S0) B0) as (e1 & E1 & F1). rewrite E1.
    assert (Hf1 := euler_fits dt _ e e1 Hf E1 F1).
    assert (HS : spectrum p ft e1 = spectrum p ft e) by (apply sim_spectrum; [exact F1|apply calc_count, Hf1|apply calc_count, Hf]).
    destruct (IH (S step) e1 Hf1) as (e2 & E2 & F2).
    - intros j Hj. destruct (HB (S j) ltac:(lia)) as [Bj Sj]. replace (S step + j) with (step + S j) by lia.
      unfold balanced, solvable in *. rewrite HS. split; assumption.
    - exists e2. split; [rewrite E2; f_equal; f_equal; lia|congruence].
  Qed.

  Lemma sim_rk4_forever dt : field_independent cs lib -> dt <> 0%R -> forall steps step e, fits L n m e ->
    (forall j, j < steps -> balanced n p ft (time_of dt (step + j)) e /\ solvable n p ft dt (time_of dt (step + j)) e
       /\ solvable n p ft (dt / 2) (time_of dt (step + j)) e) ->
    exists e', rk4_propagate p ft None dt steps step e = Some (e', step + steps) /\ e_fields e' = e_fields e.
  Proof.
    intros HI Hdt. induction steps as [|steps IH]; intros step e Hf HB; cbn [rk4_propagate].
    { exists e. rewrite Nat.add_0_r. split; reflexivity. }
    destruct (HB 0 ltac:(lia)) as (B0 & S0 & S0'). rewrite Nat.add_0_r in B0, S0, S0'.
    destruct (sim_rk4_steady dt _ e HI Hf Hdt S0 S0' B0) as (e1 & E1 & F1). rewrite E1.
    assert (Hf1 := rk4_fits dt _ e e1 HI Hf E1 F1).
    assert (HS : spectrum p ft e1 = spectrum p ft e) by (apply sim_spectrum; [exact F1|apply calc_count, Hf1|apply calc_count, Hf]).
    destruct (IH (S step) e1 Hf1) as (e2 & E2 & F2).
    - intros j Hj. destruct (HB (S j) ltac:(lia)) as (Bj & Sj & Sj'). replace (S step + j) with (step + S j) by lia.
      unfold balanced, solvable in *. rewrite HS. repeat split; assumption.
    - exists e2. split; [rewrite E2; f_equal; f_equal; lia|congruence].
  Qed.
End Simulation.
