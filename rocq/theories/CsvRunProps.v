(** Property C112: a run with CsvIO leaves one table per epoch, with the fields
    of that epoch. *)
From Verif Require Import ListAux FileSpec FileProofs FileProps IndexSpec DftSpec ParseProofs SolverSpec SolverProofs SimSpec RegistryProps CsvRunModel CsvRunProofs.
From Verif Require Import EquationProps StepProofs ConserveProofs SimProps KeepSpec KeepProps MatchProofs2 SimProofs SimProofs2 DftProofs ResumeSpec ResumeProps.
From Verif Require IndexProofs LawProofs LimitSpec.
From Coq Require Import Reals QArith Qabs Qreals Lia Lra.
From Verif Require Import Complex.
Open Scope R_scope.

(** What LoadCSV gives back for one field: its name, and at every node the real
    part up to half of the sixth decimal, beyond the error [eps] of the rational
    number that was printed. *)
Definition loads_field (eps : R) (name : str) (d : data) (f : str * list Q) : Prop :=
  fst f = name /\ length (snd f) = length d /\
  forall j z, nth_error d j = Some z -> exists v, nth_error (snd f) j = Some v /\ Rabs (Q2R v - Re z) <= eps + / 2000000.

Lemma loads_of eps frac name (d : data) q : (forall x, Rabs (Q2R (frac x) - x) <= eps) -> fst q = name ->
  Forall2 six_decimals (map (fun z => frac (Re z)) d) (snd q) -> loads_field eps name d q.
Proof.
  intros Hfr E H. split; [exact E|]. split. { apply Forall2_length in H. rewrite map_length in H. symmetry. exact H. }
  clear E. revert H. generalize (snd q). induction d as [|z d IH]; intros l H j w Hj; [destruct j; discriminate|].
  cbn [map] in H. inversion H as [|a v la lb [_ Hv] Hr]; subst. destruct j as [|j]; cbn [nth_error] in Hj |- *.
  - injection Hj as <-. exists v. split; [reflexivity|].
    assert (Rabs (Q2R v - Q2R (frac (Re z))) <= / 2000000).
    { rewrite <- Q2R_minus. apply Qabs_Qle_condition in Hv. destruct Hv as [H1 H2]. apply Qle_Rle in H1. apply Qle_Rle in H2.
      replace (Q2R (1 # 2000000)) with (/ 2000000) in * by (unfold Q2R; cbn; lra). replace (Q2R (- (1 # 2000000))) with (- / 2000000) in H1 by (unfold Q2R; cbn; lra). apply Rabs_le. lra. }
    replace (Q2R v - Re z) with ((Q2R v - Q2R (frac (Re z))) + (Q2R (frac (Re z)) - Re z)) by ring. eapply Rle_trans; [apply Rabs_triang|]. specialize (Hfr (Re z)). lra.
  - exact (IH lb Hr j w Hj).
Qed.

(** C112. In a run of Solve with a CsvIO callback, whatever the stepper and the
    other callbacks, after every epoch the file <prefix>_<epoch>.csv is there;
    LoadCSV of it gives the fields in their order, with their names and with the
    real parts after the steps of this epoch up to half of the sixth decimal.
    No other file is touched. *)
Theorem C112_tables : forall L cs es m, declared L cs es -> run_calls new_mstate (cs ++ [CInit]) = Ok m ->
  forall dom frac eps, valid_domain dom -> (forall x, Rabs (Q2R (frac x) - x) <= eps) ->
  forall prefix c (sp : stepper (env * nat)) sv ne ns s s' tr fs, NoDup (sv_callbacks sv) -> In c (sv_callbacks sv) -> l_fields L <> [] ->
  (forall s1 s2, fits L (nodes dom) m (fst s1) -> st_step sp s1 = Some s2 -> fits L (nodes dom) m (fst s2)) -> fits L (nodes dom) m (fst s) ->
  solve sp sv ne ns s = Some (s', tr) ->
  exists hist fs', hist 0%nat = s /\ hist (ne * ns)%nat = s' /\ history sp hist (ne * ns)
  /\ tables_after frac (l_fields L) prefix (Some dom) c tr fs = Some fs'
  /\ (forall q, (q < ne)%nat -> exists fields, load_table fs' (csv_name prefix (sv_start sv + Z.of_nat q)) = Some fields
      /\ map fst fields = l_fields L
      /\ forall i name d, nth_error (l_fields L) i = Some name -> nth_error (e_fields (fst (hist ((q + 1) * ns)%nat))) i = Some d ->
         exists f, nth_error fields i = Some f /\ loads_field eps name d f)
  /\ (forall f, (forall q, (q < ne)%nat -> f <> csv_name prefix (sv_start sv + Z.of_nat q)) -> fs' f = fs f).
Proof.
  intros L cs es m HD Em dom frac eps Hv Hfr prefix c sp sv ne ns s s' tr fs ND Hc Hne Hkeep Hf HS.
  apply solve_some in HS. destruct HS as (h & H0 & Hn & Hh & ->). exists h.
  assert (Hfit : forall k, (k <= ne * ns)%nat -> fits L (nodes dom) m (fst (h k))).
  { induction k as [|k IH]; intros Hk; [rewrite H0; exact Hf|]. apply (Hkeep (h k)); [apply IH; lia|]. apply Hh. lia. }
  assert (HW : forall q, (q < ne)%nat -> exists r ld, save_csv (csv_fields frac (l_fields L) (fst (h ((q + 1) * ns)%nat))) (Some dom) = FileModel.Written r /\ load_csv r = Some ld
    /\ Forall2 (fun f g => fst g = fst f /\ Forall2 six_decimals (snd f) (snd g)) (csv_fields frac (l_fields L) (fst (h ((q + 1) * ns)%nat))) ld).
  { intros q Hq. assert (Hfq := Hfit ((q + 1) * ns)%nat ltac:(nia)). destruct Hfq as (F1 & F2 & _). apply C37_load_returns_saved; [exact Hv| |].
    - unfold csv_fields. destruct (l_fields L) as [|x xs] eqn:EL; [contradiction|]. destruct (e_fields (fst (h ((q + 1) * ns)%nat))); [discriminate|]. discriminate.
    - intros f Hin. unfold csv_fields in Hin. destruct f as [nm l]. apply in_combine_r in Hin. apply in_map_iff in Hin. destruct Hin as (d & <- & Hd). cbn [snd]. rewrite map_length.
      unfold all_length in F2. rewrite Forall_forall in F2. rewrite (F2 d Hd). unfold nodes. rewrite Z2Nat.id; [reflexivity|]. pose proof (IndexProofs.num_nodes_pos dom (proj2 Hv)). lia. }
  set (table := fun e => match save_csv (csv_fields frac (l_fields L) e) (Some dom) with FileModel.Written r => r | _ => [] end).
  destruct (save_all_written frac (l_fields L) prefix (Some dom) table (sv_start sv) (fun q => fst (h ((q + 1) * ns)%nat)) ne 0 fs) as (fs' & E & H1 & H2).
  { intros q Hq. destruct (HW q ltac:(lia)) as (r & ld & Er & _). unfold table. rewrite Er. reflexivity. }
  exists fs'. split; [exact H0|]. split; [exact Hn|]. split; [exact Hh|]. split; [rewrite tables_calls, (calls_run c sp sv h ne ns ND Hc); exact E|]. split.
  - intros q Hq. destruct (HW q Hq) as (r & ld & Er & El & HF). exists ld. unfold load_table. rewrite (H1 q) by lia. unfold table. rewrite Er. split; [exact El|].
    assert (F1 : length (e_fields (fst (h ((q + 1) * ns)%nat))) = length (l_fields L)) by (apply (Hfit ((q + 1) * ns)%nat); nia).
    assert (Hl : length (l_fields L) = length (map (map (fun z => frac (Re z))) (e_fields (fst (h ((q + 1) * ns)%nat))))) by (rewrite map_length; lia).
    split.
    + rewrite <- (combine_fst (l_fields L) _ Hl) at 1. fold (csv_fields frac (l_fields L) (fst (h ((q + 1) * ns)%nat))). clear - HF. induction HF as [|a b la lb [H _] _ IH]; [reflexivity|]. cbn [map]. rewrite H, IH. reflexivity.
    + intros i name d Hi Hd.
      assert (Hx : nth_error (csv_fields frac (l_fields L) (fst (h ((q + 1) * ns)%nat))) i = Some (name, map (fun z => frac (Re z)) d)).
      { unfold csv_fields. clear - Hi Hd. revert i Hi Hd. generalize (e_fields (fst (h ((q + 1) * ns)%nat))). generalize (l_fields L).
        induction l as [|x l IH]; intros ds i Hi Hd; [destruct i; discriminate|]. destruct ds as [|d0 ds]; [destruct i; discriminate|].
        destruct i as [|i]; cbn [map combine nth_error] in *; [congruence|]. apply IH; assumption. }
      clear - HF Hx Hfr. revert i Hx. induction HF as [|a b la lb [H H'] _ IH]; intros i Hx; [destruct i; discriminate|].
      destruct i as [|i]; cbn [nth_error] in Hx |- *; [|apply IH, Hx]. injection Hx as ->. exists b. split; [reflexivity|]. apply (loads_of eps frac); [exact Hfr|exact H|exact H'].
  - intros f Hff. apply H2. intros q Hq. apply Hff. lia.
Qed.
Print Assumptions C112_tables.

(** With a domain size that does not have as many nodes as the fields the first
    epoch panics, and nothing is written. *)
Theorem C112_wrong_domain : forall L cs es m, declared L cs es -> run_calls new_mstate (cs ++ [CInit]) = Ok m ->
  forall n dom frac prefix c (sp : stepper (env * nat)) sv ne ns s s' tr fs, prod_dims dom <> Z.of_nat n -> NoDup (sv_callbacks sv) -> In c (sv_callbacks sv) -> l_fields L <> [] ->
  (forall s1 s2, fits L n m (fst s1) -> st_step sp s1 = Some s2 -> fits L n m (fst s2)) -> fits L n m (fst s) -> (0 < ne)%nat ->
  solve sp sv ne ns s = Some (s', tr) -> tables_after frac (l_fields L) prefix (Some dom) c tr fs = None.
Proof.
  intros L cs es m HD Em n dom frac prefix c sp sv ne ns s s' tr fs Hd ND Hc Hnf Hkeep Hf Hne HS.
  apply solve_some in HS. destruct HS as (h & H0 & Hn & Hh & ->).
  assert (Hfit : forall k, (k <= ne * ns)%nat -> fits L n m (fst (h k))).
  { induction k as [|k IH]; intros Hk; [rewrite H0; exact Hf|]. apply (Hkeep (h k)); [apply IH; lia|]. apply Hh. lia. }
  rewrite tables_calls, (calls_run c sp sv h ne ns ND Hc).
  apply (save_all_panics frac (l_fields L) prefix (Some dom) (sv_start sv) (fun q => fst (h ((q + 1) * ns)%nat)) ne 0 fs Hne). intros q Hq.
  destruct (Hfit ((q + 1) * ns)%nat ltac:(nia)) as (F1 & F2 & _). unfold csv_fields, save_csv.
  destruct (l_fields L) as [|x xs]; [contradiction|]. destruct (e_fields (fst (h ((q + 1) * ns)%nat))) as [|d0 ds]; [discriminate|]. cbn [map combine].
  assert (Hl : length d0 = n) by (unfold all_length in F2; rewrite Forall_forall in F2; apply F2; left; reflexivity). rewrite map_length. destruct (Z.eqb_spec (prod_dims dom) (Z.of_nat (length d0))) as [E|_]; [rewrite Hl in E; contradiction|reflexivity].
Qed.
Print Assumptions C112_wrong_domain.

(** Tables of different prefixes or epochs never share a file. *)
Theorem C112_names : forall p p' e e', csv_name p e = csv_name p' e' -> p = p' /\ e = e'.
Proof. exact csv_name_inj. Qed.
Print Assumptions C112_names.

(** The steppers of the package keep the shape of the fields, as C112 asks. *)
Theorem C112_steppers : forall L cs es m, declared L cs es -> run_calls new_mstate (cs ++ [CInit]) = Ok m ->
  forall n ft lib, good_library L n lib -> good_transform n ft -> map q_field es = l_fields L ->
  forall filt dt sp, sp = euler_stepper (simulation n ft lib m) ft filt dt \/ (sp = rk4_stepper (simulation n ft lib m) ft filt dt /\ field_independent cs lib) ->
  forall s1 s2, fits L n m (fst s1) -> st_step sp s1 = Some s2 -> fits L n m (fst s2).
Proof.
  intros L cs es m HD Em n ft lib GL GT HO filt dt sp Hsp [e k] s2 Hf E. cbn [fst] in Hf. destruct Hsp as [-> | [-> HI]]; cbn in E.
  - destruct (euler_facts L cs es m HD Em n ft lib GL GT HO filt dt (time_of dt k) e Hf) as (e1 & Y & Es & _ & _ & Hf1 & _). rewrite Es in E. injection E as <-. exact Hf1.
  - destruct (rk4_match (fun _ _ => False) L cs es m lib L cs es m lib HD HD Em Em n ft GL GL GT HO HO (LawProofs.nothing_corresponds L cs es lib) filt dt HI HI (time_of dt k) e e Hf Hf)
      as (e1 & _ & Es & _ & Hf1 & _); [intros ? ? []|]. rewrite Es in E. injection E as <-. exact Hf1.
Qed.
Print Assumptions C112_steppers.

(** Allen-Cahn on any domain: the hypotheses hold, and the run is complete. *)
Example C112_nonvacuous : forall dom f dt, valid_domain dom -> length f = nodes dom ->
  let lib := no_library (nodes dom) principal_power in
  let sp := euler_stepper (simulation (nodes dom) (fftw_transform dom) lib ac_state) (fftw_transform dom) None dt in
  let sv := {| sv_terms := []; sv_callbacks := [5%nat; 2%nat]; sv_monitors := []; sv_start := 4%Z |} in
  let e := {| e_fields := [f]; e_derived := [[]] |} in
  declared La ac_calls ac_eqs /\ l_fields La <> [] /\ fits La (nodes dom) ac_state e
  /\ (forall s1 s2, fits La (nodes dom) ac_state (fst s1) -> st_step sp s1 = Some s2 -> fits La (nodes dom) ac_state (fst s2))
  /\ (exists s' tr, solve sp sv 3 2 (e, 0%nat) = Some (s', tr))
  /\ exists frac : R -> Q, forall x, Rabs (Q2R (frac x) - x) <= / 1000.
Proof.
  intros dom f dt Hv Hl lib sp sv e. assert (GL : good_library La (nodes dom) lib) by exact (no_library_good La (nodes dom) principal_power eq_refl).
  assert (Hf : fits La (nodes dom) ac_state e) by (split; [reflexivity|split; [repeat constructor; exact Hl|reflexivity]]).
  split; [exact ac_declared|]. split; [discriminate|]. split; [exact Hf|].
  split. { apply (C112_steppers La ac_calls ac_eqs ac_state ac_declared ac_run (nodes dom) (fftw_transform dom) lib GL (fftw_good dom Hv) eq_refl None dt). left. reflexivity. }
  split.
  - destruct (C99_runs_complete La ac_calls ac_eqs ac_state ac_declared ac_run (nodes dom) (fftw_transform dom) lib GL (fftw_good dom Hv) eq_refl None dt [f] eq_refl (proj1 (proj2 Hf)) sp (or_introl eq_refl) sv 3%nat 2%nat) as (fs' & H).
    destruct (H [[]] eq_refl) as (e' & k' & tr & HS & _). exists (e', k'), tr. exact HS.
  - exists (fun x => (up (x * 1000) # 1000)). intros x. unfold Q2R. cbn [Qnum Qden]. destruct (archimed (x * 1000)) as [H1 H2]. apply Rabs_le. lra.
Qed.
