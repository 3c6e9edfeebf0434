From Verif Require Import ListAux FileSpec FileProofs ParseProofs SolverSpec SolverProofs CheckpointModel.
From Coq Require Import Reals Lia.
From Verif Require Import Complex.
Open Scope nat_scope.

Lemma flat_map_flat_map {A B D} (f : A -> list B) (g : B -> list D) l : flat_map g (flat_map f l) = flat_map (fun x => flat_map g (f x)) l.
Proof. induction l as [|x l IH]; [reflexivity|]. cbn [flat_map]. rewrite flat_map_app, IH. reflexivity. Qed.
Lemma flat_map_map {A B D} (f : A -> B) (g : B -> list D) l : flat_map g (map f l) = flat_map (fun x => g (f x)) l.
Proof. induction l as [|x l IH]; [reflexivity|]. cbn [flat_map map]. rewrite IH. reflexivity. Qed.
Lemma flat_map_nil {A B} (f : A -> list B) l : (forall x, In x l -> f x = []) -> flat_map f l = [].
Proof. induction l as [|x l IH]; intros H; [reflexivity|]. cbn [flat_map]. rewrite H, IH; [reflexivity|intros y Hy; apply H; right; exact Hy|left; reflexivity]. Qed.
Lemma flat_map_one {A} (x : A) c cs : NoDup cs -> In c cs -> flat_map (fun k => if Nat.eqb k c then [x] else []) cs = [x].
Proof.
  induction cs as [|k cs IH]; intros ND H; [destruct H|]. inversion ND as [|? ? Hk ND']; subst. cbn [flat_map]. destruct H as [->|H].
  - rewrite Nat.eqb_refl, flat_map_nil; [reflexivity|]. intros y Hy. destruct (Nat.eqb_spec y c) as [->|]; [contradiction|reflexivity].
  - destruct (Nat.eqb_spec k c) as [->|]; [contradiction|]. apply IH; assumption.
Qed.

Section Saves.
  Variables (bits : R -> N) (names : list str) (c : nat).
  Lemma saves_epoch (sp : stepper (env * nat)) sv hist ns epoch q : NoDup (sv_callbacks sv) -> In c (sv_callbacks sv) ->
    saves_of bits names c (epoch_trace sp sv hist ns epoch q) = [(epoch, bit_fields bits names (fst (hist ((q + 1) * ns))))].
  Proof.
    intros ND Hc. unfold saves_of, epoch_trace. rewrite !flat_map_app, flat_map_flat_map, !flat_map_map.
    transitivity ([] ++ [(epoch, bit_fields bits names (fst (hist ((q + 1) * ns))))] ++ []); [|reflexivity]. f_equal; [|f_equal].
    - apply flat_map_nil. intros j _. cbv zeta. rewrite flat_map_map. apply flat_map_nil. reflexivity.
    - apply flat_map_one; assumption.
    - apply flat_map_nil. reflexivity.
  Qed.
  Lemma saves_run (sp : stepper (env * nat)) sv hist ne ns : NoDup (sv_callbacks sv) -> In c (sv_callbacks sv) ->
    saves_of bits names c (run_trace sp sv hist ne ns)
    = map (fun q => ((sv_start sv + Z.of_nat q)%Z, bit_fields bits names (fst (hist ((q + 1) * ns))))) (seq 0 ne).
  Proof.
    intros ND Hc. unfold run_trace. generalize (seq 0 ne). induction l as [|a l IH]; [reflexivity|]. cbn [flat_map map].
    unfold saves_of in *. rewrite flat_map_app, IH. fold (saves_of bits names c (epoch_trace sp sv hist ns (sv_start sv + Z.of_nat a)%Z a)).
    rewrite (saves_epoch sp sv hist ns _ a ND Hc). reflexivity.
  Qed.
End Saves.

(** What one call leaves in the file of a field. *)
Definition put (name : str) (fields : list bfield) (acc : option (list N)) : option (list N) :=
  fold_left (fun acc (f : bfield) => if str_eqb (fst f) name then Some (map fst (snd f)) else acc) fields acc.
Lemma put_absent name : forall names (ds : list (list (N * N))) acc, ~ In name names -> put name (combine names ds) acc = acc.
Proof.
  induction names as [|y names IH]; intros ds acc Hx; [reflexivity|]. destruct ds as [|d ds]; [reflexivity|]. unfold put in *. cbn [combine fold_left fst].
  destruct (str_eqb y name) eqn:E; [apply str_eqb_eq in E; subst; exfalso; apply Hx; left; reflexivity|]. apply IH. intros H. apply Hx. right. exact H.
Qed.
Lemma put_present name : forall names (ds : list (list (N * N))) acc i d, NoDup names -> nth_error names i = Some name -> nth_error ds i = Some d ->
  put name (combine names ds) acc = Some (map fst d).
Proof.
  induction names as [|y names IH]; intros ds acc i d ND Hn Hd; [destruct i; discriminate|]. destruct ds as [|d0 ds]; [destruct i; discriminate|].
  inversion ND as [|? ? Hy ND']; subst. change (put name (combine (y :: names) (d0 :: ds)) acc) with (put name (combine names ds) (if str_eqb y name then Some (map fst d0) else acc)).
  destruct i as [|i]; cbn [nth_error] in Hn, Hd.
  - injection Hn as ->. injection Hd as ->. rewrite ParseProofs.str_eqb_refl. apply put_absent, Hy.
  - apply (IH ds _ i d ND' Hn Hd).
Qed.
Lemma last_saved_cons e fields calls name epoch before :
  last_saved ((e, fields) :: calls) name epoch before = last_saved calls name epoch (if (e =? epoch)%Z then put name fields before else before).
Proof.
  cbn [last_saved]. f_equal. destruct (e =? epoch)%Z; [reflexivity|]. cbn [andb]. induction fields as [|f fields IH]; [reflexivity|exact IH].
Qed.
Lemma last_saved_other start (F : nat -> list bfield) name epoch : forall ne a before, (forall q, a <= q < a + ne -> (start + Z.of_nat q)%Z <> epoch) ->
  last_saved (map (fun q => ((start + Z.of_nat q)%Z, F q)) (seq a ne)) name epoch before = before.
Proof.
  induction ne as [|ne IH]; intros a before H; [reflexivity|]. cbn [seq map]. rewrite last_saved_cons.
  destruct (Z.eqb_spec (start + Z.of_nat a) epoch) as [E|_]; [exfalso; apply (H a); [lia|exact E]|]. apply IH. intros q Hq. apply H. lia.
Qed.
Lemma last_saved_epoch start (F : nat -> list bfield) name q0 : forall ne a before, a <= q0 < a + ne ->
  last_saved (map (fun q => ((start + Z.of_nat q)%Z, F q)) (seq a ne)) name (start + Z.of_nat q0) before
  = put name (F q0) before.
Proof.
  induction ne as [|ne IH]; intros a before H; [lia|]. cbn [seq map]. rewrite last_saved_cons.
  destruct (Z.eqb_spec (start + Z.of_nat a) (start + Z.of_nat q0)) as [E|E].
  - assert (a = q0) as -> by lia. apply last_saved_other. intros q Hq. lia.
  - apply IH. lia.
Qed.

Section Files.
  Variables (bits : R -> N) (names : list str) (prefix : str) (c : nat).
  Hypothesis Hbits : forall x, float_bits (bits x).
  Hypothesis Hnames : NoDup names.
  Lemma saves_ok tr : bits_ok (saves_of bits names c tr).
  Proof.
    intros e fields name data Hin Hf. unfold saves_of in Hin. apply in_flat_map in Hin. destruct Hin as (ev & _ & Hev).
    destruct ev as [?|k epoch s|?]; try contradiction. destruct (Nat.eqb k c); [|destruct Hev]. destruct Hev as [E|[]]. injection E as <- <-.
    unfold bit_fields in Hf. apply in_combine_r in Hf. apply in_map_iff in Hf. destruct Hf as (d & <- & _). rewrite map_map. cbn [fst].
    apply Forall_forall. intros v Hv. apply in_map_iff in Hv. destruct Hv as (z & <- & _). apply Hbits.
  Qed.
  Lemma files_of_run (sp : stepper (env * nat)) sv ne ns s s' tr fs : NoDup (sv_callbacks sv) -> In c (sv_callbacks sv) ->
    solve sp sv ne ns s = Some (s', tr) -> exists hist, hist 0 = s /\ hist (ne * ns) = s' /\ history sp hist (ne * ns)
    /\ (forall q i name d, q < ne -> nth_error names i = Some name -> nth_error (e_fields (fst (hist ((q + 1) * ns)))) i = Some d ->
        load_float64 (files_after bits names prefix c tr fs) (bin_name prefix name (sv_start sv + Z.of_nat q)) = Some (map (fun z => bits (Re z)) d))
    /\ (forall name epoch, ~ In name names \/ (epoch < sv_start sv)%Z \/ (sv_start sv + Z.of_nat ne <= epoch)%Z ->
        load_float64 (files_after bits names prefix c tr fs) (bin_name prefix name epoch) = load_float64 fs (bin_name prefix name epoch)).
  Proof.
    intros ND Hc HS. apply solve_some in HS. destruct HS as (h & H0 & Hn & Hh & ->). exists h. split; [exact H0|]. split; [exact Hn|]. split; [exact Hh|].
    unfold files_after. split.
    - intros q i name d Hq Hi Hd. rewrite save_epochs_load by apply saves_ok. rewrite (saves_run bits names c sp sv h ne ns ND Hc).
      rewrite (last_saved_epoch (sv_start sv) (fun q => bit_fields bits names (fst (h ((q + 1) * ns)))) name q ne 0) by lia.
      unfold bit_fields. rewrite (put_present name names _ _ i (map (fun z => (bits (Re z), bits (Im z))) d) Hnames Hi).
      + rewrite map_map. reflexivity.
      + rewrite nth_error_map, Hd. reflexivity.
    - intros name epoch H. rewrite save_epochs_load by apply saves_ok. rewrite (saves_run bits names c sp sv h ne ns ND Hc).
      destruct (in_dec (list_eq_dec Ascii.ascii_dec) name names) as [Hin|Hout].
      + apply (last_saved_other (sv_start sv) (fun q => bit_fields bits names (fst (h ((q + 1) * ns))))). intros q Hq. destruct H as [H|H]; [contradiction|lia].
      + generalize (load_float64 fs (bin_name prefix name epoch)). generalize (seq 0 ne). clear - Hout. induction l as [|a l IH]; intros b; [reflexivity|]. cbn [map].
        rewrite last_saved_cons. rewrite (put_absent name names _ b Hout : put name (bit_fields bits names _) b = b). destruct (_ =? epoch)%Z; apply IH.
  Qed.

  Variable value : N -> R.
  Lemma loaded_back (fs : files) epoch (ds : list data) : length ds = length names ->
    (forall i name d, nth_error names i = Some name -> nth_error ds i = Some d -> load_float64 fs (bin_name prefix name epoch) = Some (map (fun z => bits (Re z)) d)) ->
    loaded value names prefix epoch fs = Some (map (map (fun z => RtoC (value (bits (Re z))))) ds).
  Proof.
    clear Hnames. unfold loaded. revert ds. induction names as [|x ns IH]; intros ds Hl H; destruct ds as [|d ds]; try discriminate; [reflexivity|].
    injection Hl as Hl. cbn [map all_some]. rewrite (H 0 x d eq_refl eq_refl). rewrite (IH ds Hl (fun i => H (S i))). rewrite map_map. reflexivity.
  Qed.
End Files.
