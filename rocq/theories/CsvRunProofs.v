(** Lemmas for C112. *)
From Verif Require Import ListAux FileSpec FileProofs FileProps IndexSpec ParseProofs SolverSpec SolverProofs CheckpointProofs CsvRunModel.
From Verif Require IndexProofs.
From Coq Require Import Reals QArith Qreals Lia Lra.
From Verif Require Import Complex.
Open Scope nat_scope.

Lemma csv_name_inj p p' e e' : csv_name p e = csv_name p' e' -> p = p' /\ e = e'.
Proof.
  intros E. unfold csv_name in E.
  change (lit "_" ++ dec e ++ lit ".csv") with (under_c :: (dec e ++ lit ".csv")) in E. change (lit "_" ++ dec e' ++ lit ".csv") with (under_c :: (dec e' ++ lit ".csv")) in E.
  assert (H : forall z, ~ In under_c (dec z ++ lit ".csv")).
  { intros z Hz. apply in_app_or in Hz. destruct Hz as [Hz|Hz]; [apply (dec_no_under z Hz)|].
    cbn in Hz. repeat (destruct Hz as [Hz|Hz]; [discriminate|]). exact Hz. }
  apply last_sep in E; [|apply H|apply H]. destruct E as [-> E]. split; [reflexivity|]. apply app_inv_tail in E. apply dec_inj, E.
Qed.

Section Run.
  Variables (frac : R -> Q) (names : list str) (prefix : str) (dom : option (list Z)) (c : nat).
  (** The calls in a trace. *)
  Definition calls_of (tr : list (event (env * nat))) : list (Z * env) :=
    flat_map (fun ev => match ev with ECallback k epoch s => if Nat.eqb k c then [(epoch, fst s)] else [] | _ => [] end) tr.
  Fixpoint save_all (calls : list (Z * env)) (fs : tables) : option tables :=
    match calls with
    | [] => Some fs
    | (epoch, e) :: calls' => match csv_save_fields frac names prefix dom epoch e fs with Some fs' => save_all calls' fs' | None => None end
    end.
  Lemma tables_calls : forall tr fs, tables_after frac names prefix dom c tr fs = save_all (calls_of tr) fs.
  Proof.
    induction tr as [|ev tr IH]; intros fs; [reflexivity|]. destruct ev as [t r s|k epoch s|q s]; cbn [tables_after calls_of flat_map]; try apply IH.
    destruct (Nat.eqb k c); [|apply IH]. cbn [app save_all]. destruct (csv_save_fields _ _ _ _ _ _ _); [apply IH|reflexivity].
  Qed.
  Lemma calls_epoch (sp : stepper (env * nat)) sv hist ns epoch q : NoDup (sv_callbacks sv) -> In c (sv_callbacks sv) ->
    calls_of (epoch_trace sp sv hist ns epoch q) = [(epoch, fst (hist ((q + 1) * ns)))].
  Proof.
    intros ND Hc. unfold calls_of, epoch_trace. rewrite !flat_map_app, flat_map_flat_map, !flat_map_map.
    transitivity ([] ++ [(epoch, fst (hist ((q + 1) * ns)))] ++ []); [|reflexivity]. f_equal; [|f_equal].
    - apply flat_map_nil. intros j _. cbv zeta. rewrite flat_map_map. apply flat_map_nil. reflexivity.
    - apply flat_map_one; assumption.
    - apply flat_map_nil. reflexivity.
  Qed.
  Lemma calls_run (sp : stepper (env * nat)) sv hist ne ns : NoDup (sv_callbacks sv) -> In c (sv_callbacks sv) ->
    calls_of (run_trace sp sv hist ne ns) = map (fun q => ((sv_start sv + Z.of_nat q)%Z, fst (hist ((q + 1) * ns)))) (seq 0 ne).
  Proof.
    intros ND Hc. unfold run_trace. generalize (seq 0 ne). induction l as [|a l IH]; [reflexivity|]. cbn [flat_map map].
    unfold calls_of in *. rewrite flat_map_app, IH. fold (calls_of (epoch_trace sp sv hist ns (sv_start sv + Z.of_nat a)%Z a)).
    rewrite (calls_epoch sp sv hist ns _ a ND Hc). reflexivity.
  Qed.
  Variable table : env -> records.
  Lemma save_all_written start (F : nat -> env) : forall ne a fs,
    (forall q, a <= q < a + ne -> save_csv (csv_fields frac names (F q)) dom = FileModel.Written (table (F q))) ->
    exists fs', save_all (map (fun q => ((start + Z.of_nat q)%Z, F q)) (seq a ne)) fs = Some fs'
    /\ (forall q, a <= q < a + ne -> fs' (csv_name prefix (start + Z.of_nat q)) = Some (table (F q)))
    /\ (forall f, (forall q, a <= q < a + ne -> f <> csv_name prefix (start + Z.of_nat q)) -> fs' f = fs f).
  Proof.
    induction ne as [|ne IH]; intros a fs H; cbn [seq map save_all].
    - exists fs. split; [reflexivity|]. split; [intros q Hq; lia|reflexivity].
    - unfold csv_save_fields. rewrite (H a) by lia. set (fs1 := write_table fs (csv_name prefix (start + Z.of_nat a)) (table (F a))).
      destruct (IH (S a) fs1 (fun q Hq => H q ltac:(lia))) as (fs' & E & H1 & H2). exists fs'. split; [exact E|]. split.
      + intros q Hq. destruct (Nat.eq_dec q a) as [->|Hne]; [|apply H1; lia]. rewrite H2.
        * unfold fs1, write_table. rewrite str_eqb_refl. reflexivity.
        * intros q' Hq' X. apply csv_name_inj in X. lia.
      + intros f Hf. rewrite H2 by (intros q Hq; apply Hf; lia). unfold fs1, write_table. destruct (str_eqb f _) eqn:X; [|reflexivity].
        apply str_eqb_eq in X. exfalso. apply (Hf a); [lia|exact X].
  Qed.
  Lemma save_all_panics start (F : nat -> env) : forall ne a fs, 0 < ne -> (forall q, a <= q < a + ne -> save_csv (csv_fields frac names (F q)) dom = FileModel.Panic) ->
    save_all (map (fun q => ((start + Z.of_nat q)%Z, F q)) (seq a ne)) fs = None.
  Proof. intros ne a fs Hne H. destruct ne as [|ne]; [lia|]. cbn [seq map save_all]. unfold csv_save_fields. rewrite (H a) by lia. reflexivity. Qed.
End Run.

Lemma combine_fst {A B} : forall (a : list A) (b : list B), length a = length b -> map fst (combine a b) = a.
Proof. induction a as [|x a IH]; intros [|y b] H; cbn in *; try discriminate; [reflexivity|]. rewrite IH by lia. reflexivity. Qed.
