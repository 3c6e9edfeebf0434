(** Proofs about exported tables. *)
From Verif Require Import ParseProofs IndexProofs FileProofs DbProofs DbProofs2 DbProofs3 DbProofs4 DbProofs5 CliSpec CliProofs CliProofs3.
Open Scope nat_scope.

Lemma series_cell_lastval rows key i : forall cur,
  series_cell rows key i cur = lastval (fun r => str_eqb (sr_key r) key && (sr_ts r =? i)%Z) sr_value rows cur.
Proof. induction rows as [|r rows IH]; intros cur; cbn [series_cell lastval]; [reflexivity|apply IH]. Qed.

Lemma list_max_ge l x : In x l -> (x <= DbModel.list_max l)%Z.
Proof.
  induction l as [|a l IH]; [intros []|]. intros [->|H].
  - destruct l; cbn [DbModel.list_max]; lia.
  - specialize (IH H). destruct l as [|b l]; [destruct H|]. change (DbModel.list_max (a :: b :: l)) with (Z.max a (DbModel.list_max (b :: l))). lia.
Qed.
Lemma list_max_In l : l <> [] -> In (DbModel.list_max l) l.
Proof.
  induction l as [|a l IH]; [contradiction|]. intros _. destruct l as [|b l]; [now left|].
  change (DbModel.list_max (a :: b :: l)) with (Z.max a (DbModel.list_max (b :: l))).
  destruct (Z.max_spec a (DbModel.list_max (b :: l))) as [[_ E]|[_ E]]; rewrite E; [right; apply IH; discriminate|now left].
Qed.

Lemma cell_table fmt keys (rows : list (list str)) n i j k : rows = map (fun i => map (fmt i) keys) (seq 0 n) -> i < n ->
  nth_error keys j = Some k -> cell (keys :: rows) (S i) j = Some (fmt i k).
Proof.
  intros -> Hi Hj. unfold cell. cbn [nth_error]. rewrite nth_error_map.
  rewrite (nth_error_nth' _ 0) by (rewrite seq_length; exact Hi). rewrite seq_nth by exact Hi. cbn [option_map plus].
  rewrite nth_error_map, Hj. reflexivity.
Qed.

Lemma series_of_In d sim r : In r (series_of d sim) <-> In r (t_series d) /\ sr_sim r = sim.
Proof. unfold series_of. rewrite filter_In, Z.eqb_eq. reflexivity. Qed.

Lemma export_series_spec fmtf order d sim : some_order order ->
  (export_series fmtf order d sim = None <-> exists r, In r (t_series d) /\ sr_sim r = sim /\ (sr_ts r < 0)%Z)
  /\ forall t, export_series fmtf order d sim = Some t ->
     exists keys rows, t = keys :: rows /\ NoDup keys
     /\ (forall k, In k keys <-> exists r, In r (t_series d) /\ sr_sim r = sim /\ sr_key r = k)
     /\ (forall r, In r (t_series d) -> sr_sim r = sim -> (0 <= sr_ts r < Z.of_nat (length rows))%Z)
     /\ (length rows = 1 \/ exists r, In r (t_series d) /\ sr_sim r = sim /\ sr_ts r = (Z.of_nat (length rows) - 1)%Z)
     /\ forall i j k, i < length rows -> nth_error keys j = Some k ->
        (exists v, sample d sim k (Z.of_nat i) v /\ cell t (S i) j = Some (fmtf v))
        \/ (no_sample d sim k (Z.of_nat i) /\ cell t (S i) j = Some (fmtf 0%R)).
Proof.
  intros O. unfold export_series. set (rows := series_of d sim). set (keys := order (distinct (map sr_key rows))).
  assert (Pk : Permutation keys (distinct (map sr_key rows))) by apply O.
  destruct (existsb (fun r => (sr_ts r <? 0)%Z) rows) eqn:En.
  - split; [|discriminate]. split; [intros _|reflexivity]. apply existsb_exists in En. destruct En as (r & I & L).
    apply series_of_In in I. apply Z.ltb_lt in L. exists r. tauto.
  - assert (Hpos : forall r, In r rows -> (0 <= sr_ts r)%Z).
    { intros r I. destruct (Z.le_gt_cases 0 (sr_ts r)) as [H|H]; [exact H|]. exfalso.
      assert (C : existsb (fun r => (sr_ts r <? 0)%Z) rows = true) by (apply existsb_exists; exists r; split; [exact I|apply Z.ltb_lt; exact H]). congruence. }
    split.
    { split; [discriminate|]. intros (r & I & E & L). exfalso. assert (In r rows) by (apply series_of_In; auto). specialize (Hpos r H). lia. }
    intros t Et. injection Et as Et.
    set (m := DbModel.list_max (map sr_ts rows)) in *.
    assert (Hm : (0 <= m)%Z).
    { unfold m. destruct rows as [|r rows'] eqn:Er; [cbn; lia|]. rewrite <- Er in *.
      assert (I : In r rows) by (rewrite Er; now left). pose proof (Hpos r I). pose proof (list_max_ge (map sr_ts rows) (sr_ts r) (in_map _ _ _ I)). lia. }
    eexists keys, _. split; [symmetry; exact Et|]. split; [apply (Permutation_NoDup (Permutation_sym Pk)), distinct_NoDup|].
    rewrite map_length, seq_length. split; [|split; [|split]].
    + intros k. split.
      * intros I. apply (Permutation_in _ Pk) in I. rewrite distinct_In in I. apply in_map_iff in I. destruct I as (r & <- & I).
        apply series_of_In in I. exists r. tauto.
      * intros (r & I & E1 & E2). apply (Permutation_in _ (Permutation_sym Pk)). apply distinct_In. rewrite <- E2. apply in_map. apply series_of_In. auto.
    + intros r I E. assert (Ir : In r rows) by (apply series_of_In; auto). pose proof (Hpos r Ir).
      pose proof (list_max_ge (map sr_ts rows) (sr_ts r) (in_map _ _ _ Ir)). fold m in H0. lia.
    + destruct rows as [|r rows'] eqn:Er; [left; unfold m; reflexivity|]. rewrite <- Er in *. right.
      assert (N : map sr_ts rows <> []) by (rewrite Er; discriminate). pose proof (list_max_In _ N) as I. fold m in I.
      apply in_map_iff in I. destruct I as (x & E & I). apply series_of_In in I. exists x. split; [tauto|]. split; [tauto|].
      rewrite Er in E. fold m in E. lia.
    + intros i j k Hi Hj. rewrite <- Et.
      rewrite (cell_table (fun i k => fmtf (series_cell rows k (Z.of_nat i) 0%R)) keys _ _ i j k eq_refl Hi Hj).
      rewrite series_cell_lastval.
      destruct (lastval_spec (fun r => str_eqb (sr_key r) k && (sr_ts r =? Z.of_nat i)%Z) sr_value rows 0%R) as [(x & L & ->)|[N ->]].
      * left. exists (sr_value x). split; [|reflexivity]. exists x. split; [|reflexivity].
        apply last_with_filter in L. eapply last_with_ext; [|exact L]. intros y Hy. cbv beta.
        rewrite andb_true_iff, str_eqb_iff, !Z.eqb_eq. tauto.
      * right. split; [|reflexivity]. intros r I (E1 & E2 & E3). assert (Ir : In r rows) by (apply series_of_In; auto).
        specialize (N r Ir). rewrite E2, E3, str_eqb_refl, Z.eqb_refl in N. discriminate.
Qed.

(** ** Field data *)
Lemma dset_nth_eq {A} (l : list A) : forall i v l', DbModel.set_nth i v l = Some l' ->
  i < length l /\ length l' = length l /\ nth_error l' i = Some v /\ forall j, j <> i -> nth_error l' j = nth_error l j.
Proof.
  induction l as [|x l IH]; intros i v l' H; destruct i as [|i]; cbn [DbModel.set_nth] in H; try discriminate.
  - injection H as <-. cbn. repeat split; [lia|]. intros [|j] Hj; [contradiction|reflexivity].
  - destruct (DbModel.set_nth i v l) as [r|] eqn:E; [|discriminate]. injection H as <-.
    destruct (IH _ _ _ E) as (H1 & H2 & H3 & H4). cbn. repeat split; [lia|lia|exact H3|].
    intros [|j] Hj; [reflexivity|]. apply H4. lia.
Qed.

Lemma fill_cell name rows : forall data data', fill name rows data = Some data' ->
  length data' = length data
  /\ forall i x, nth_error data i = Some (RtoC x) -> nth_error data' i = Some (RtoC (field_cell rows name i x)).
Proof.
  induction rows as [|r rows IH]; intros data data' H; cbn [fill] in H.
  - injection H as <-. split; [reflexivity|]. intros i x E. exact E.
  - destruct (str_eqb (fr_name r) name) eqn:En.
    + destruct (DbModel.set_nth (fr_pos r) (RtoC (fr_value r)) data) as [d1|] eqn:Es; [|discriminate].
      destruct (dset_nth_eq _ _ _ _ Es) as (H1 & H2 & H3 & H4). destruct (IH _ _ H) as [L C]. split; [congruence|].
      intros i x E. cbn [field_cell]. rewrite En. cbn [andb]. destruct (fr_pos r =? i) eqn:Ei.
      * apply Nat.eqb_eq in Ei. subst i. apply C. exact H3.
      * apply Nat.eqb_neq in Ei. apply C. rewrite H4 by congruence. exact E.
    + destruct (IH _ _ H) as [L C]. split; [exact L|]. intros i x E. cbn [field_cell]. rewrite En. cbn [andb]. apply C. exact E.
Qed.

Lemma fill_bound name rows : forall data data', fill name rows data = Some data' ->
  forall r, In r rows -> fr_name r = name -> fr_pos r < length data.
Proof.
  induction rows as [|q rows IH]; intros data data' H r I E; [destruct I|]. cbn [fill] in H.
  destruct (str_eqb (fr_name q) name) eqn:En.
  - destruct (DbModel.set_nth (fr_pos q) (RtoC (fr_value q)) data) as [d1|] eqn:Es; [|discriminate].
    destruct (dset_nth_eq _ _ _ _ Es) as (H1 & H2 & _). destruct I as [<-|I]; [exact H1|]. rewrite <- H2. exact (IH _ _ H r I E).
  - destruct I as [<-|I]; [rewrite E, str_eqb_refl in En; discriminate|]. exact (IH _ _ H r I E).
Qed.

Lemma load_names_In names rows n r : load_names names rows n = Some r -> map fst r = names
  /\ forall name data, In (name, data) r -> fill name rows (repeat C0 n) = Some data.
Proof.
  revert r. induction names as [|a names IH]; intros r H; cbn [load_names] in H.
  - injection H as <-. split; [reflexivity|intros ? ? []].
  - destruct (fill a rows (repeat C0 n)) as [x|] eqn:Ef; [|discriminate].
    destruct (load_names names rows n) as [q|] eqn:El; [|discriminate]. injection H as <-.
    destruct (IH q eq_refl) as [H1 H2]. split; [cbn; congruence|]. intros name data [E|I]; [injection E as <- <-; exact Ef|exact (H2 _ _ I)].
Qed.

(** Export and Load give the same values. *)
Lemma export_load fmtf order sim ts d r : some_order order -> (0 <= ts)%Z -> load sim ts d = Some r ->
  match export_fields fmtf order sim ts d with
  | NoEntries => r = []
  | ExportPanics => False
  | File t => exists names rows, t = (map lit ["X"; "Y"; "Z"]%string ++ names) :: rows
      /\ Permutation names (map fst r) /\ length rows = length (t_pos d)
      /\ forall i p, nth_error (t_pos d) i = Some p -> exists cells, nth_error rows i = Some (map dec p ++ cells)
         /\ length cells = length names
         /\ forall j n c, nth_error names j = Some n -> nth_error cells j = Some c ->
            exists data v, In (n, data) r /\ nth_error data i = Some (RtoC v) /\ c = fmtf v
  end.
Proof.
  intros O Hts L. unfold export_fields, export_step. replace (ts <? 0)%Z with false by (symmetry; apply Z.ltb_ge; exact Hts).
  pose proof (names_at_In sim ts d) as NI. pose proof (names_at_order sim ts d) as [ND _].
  unfold load in L. destruct (load_names_In _ _ _ _ L) as [Hn Hd].
  set (rows := rows_at sim ts d) in *.
  assert (Names : forall q, In q rows -> exists data, In (fr_name q, data) r).
  { intros q I. assert (J : In (fr_name q) (names_at sim ts d)) by (apply NI; apply in_map; exact I).
    rewrite <- Hn in J. apply in_map_iff in J. destruct J as ([n data] & E & J). cbn in E. subst n. exists data. exact J. }
  destruct rows as [|q0 rows0] eqn:Er.
  - destruct r as [|[n data] r]; [reflexivity|]. exfalso. assert (J : In n (names_at sim ts d)) by (rewrite <- Hn; now left).
    apply NI in J. destruct J.
  - rewrite <- Er in *. assert (B : existsb (fun r => length (t_pos d) <=? fr_pos r) rows = false).
    { destruct (existsb _ rows) eqn:E; [|reflexivity]. exfalso. apply existsb_exists in E. destruct E as (q & I & C).
      apply Nat.leb_le in C. destruct (Names q I) as [data J].
      pose proof (fill_bound _ _ _ _ (Hd _ _ J) q I eq_refl) as K. rewrite repeat_length in K. lia. }
    rewrite B. set (keys := order (distinct (map fr_name rows))).
    assert (Pk : Permutation keys (map fst r)).
    { apply (Permutation_trans (O _)). rewrite Hn. apply NoDup_Permutation; [apply distinct_NoDup|exact ND|].
      intros x. rewrite distinct_In. symmetry. apply NI. }
    eexists keys, _. split; [reflexivity|]. split; [exact Pk|]. split; [rewrite map_length, seq_length; reflexivity|].
    intros i p Ep. assert (Hi : i < length (t_pos d)) by (apply nth_error_Some; rewrite Ep; discriminate).
    exists (map (fun k => fmtf (field_cell rows k i 0%R)) keys). split; [|split; [apply map_length|]].
    + rewrite nth_error_map, (nth_error_nth' _ 0) by (rewrite seq_length; exact Hi). rewrite seq_nth by exact Hi. cbn [option_map plus].
      rewrite (nth_error_nth _ _ _ Ep). reflexivity.
    + intros j n c Hj Hc. rewrite nth_error_map, Hj in Hc. cbn in Hc. injection Hc as <-.
      assert (J : In n (map fst r)) by (apply (Permutation_in _ Pk); apply nth_error_In in Hj; exact Hj).
      apply in_map_iff in J. destruct J as ([n' data] & E & J). cbn in E. subst n'.
      exists data, (field_cell rows n i 0%R). split; [exact J|]. split; [|reflexivity].
      apply (proj2 (fill_cell _ _ _ _ (Hd _ _ J))). change (RtoC 0) with C0. rewrite nth_error_repeat by exact Hi. reflexivity.
Qed.

(** What was saved is what is exported. *)
Lemma export_saved fmtf order k w0 hist e fields epoch later dom : some_order order -> new_world k w0 ->
  let w := run w0 hist in let s := sim_of w e in let d := w_db (run (step w e) later) in
  ev_op e = OpSave fields epoch -> NoDup (map fst fields) -> fields <> [] -> completes w e ->
  h_dom (w_handles w (ev_who e)) = Some dom -> ~ saved_at (step w e) later s epoch -> (0 <= epoch)%Z ->
  exists names rows, export_fields fmtf order s epoch d = File ((map lit ["X"; "Y"; "Z"]%string ++ names) :: rows)
  /\ NoDup names
  /\ forall n vs, In (n, vs) fields -> exists j, nth_error names j = Some n
     /\ forall i v, nth_error vs i = Some v -> exists p,
        IndexModel.pos dom (Z.of_nat i) = Some p /\
        cell rows i 0 = Some (dec (nth 0 p 0%Z)) /\ cell rows i 1 = Some (dec (nth 1 p 0%Z)) /\ cell rows i 2 = Some (dec (nth 2 p 0%Z))
        /\ cell rows i (3 + j) = Some (fmtf (fst v)).
Proof.
  intros O NW w s d Ho Nd Ne Cp Hdom Ns He.
  destruct (read_back k w0 hist e fields epoch later NW Ho Nd Cp Ns) as (r & Lr & Ord & Inc & _).
  fold w in Lr. fold s in Lr. fold d in Lr.
  pose proof (export_load fmtf order s epoch d r O He Lr) as X.
  destruct (export_fields fmtf order s epoch d) as [| |t].
  - exfalso. destruct fields as [|f fields]; [contradiction|].
    assert (In (fst f, real_parts (snd f)) r) by (apply Inc; now left). rewrite X in H. destruct H.
  - destruct X.
  - destruct X as (names & rows & Et & Pn & Lrows & Hrow). exists names, rows. split; [congruence|].
    assert (NDn : NoDup names) by (apply (Permutation_NoDup (Permutation_sym Pn)); exact (proj1 Ord)).
    split; [exact NDn|]. intros n vs If.
    assert (Ir : In (n, real_parts vs) r) by (apply Inc; exact (in_map (fun f => (fst f, real_parts (snd f))) _ _ If)).
    assert (In_ : In n names) by (apply (Permutation_in _ (Permutation_sym Pn)); exact (in_map fst _ _ Ir)).
    apply In_nth_error in In_. destruct In_ as [j Hj]. exists j. split; [exact Hj|]. intros i v Hv.
    destruct (saved_rows_join k w0 hist e fields epoch later n vs i v dom NW Ho Cp Hdom If Hv) as (q & p & _ & _ & _ & _ & _ & Hq & Hp & Hpos & _).
    fold w in Hpos. fold d in Hpos. rewrite Hq in Hpos. exists p. split; [exact Hp|].
    destruct (Hrow i _ Hpos) as (cells & Hrow_i & Lc & Hcell).
    unfold cell. rewrite Hrow_i. unfold pad3. cbn [map app nth_error]. split; [reflexivity|]. split; [reflexivity|]. split; [reflexivity|].
    cbn [plus nth_error]. destruct (nth_error cells j) as [c|] eqn:Ec.
    + destruct (Hcell j n c Hj Ec) as (data & x & Id & Hx & ->). f_equal. f_equal.
      assert (Ed : data = real_parts vs).
      { assert (ND : NoDup (map fst r)) by exact (proj1 Ord). clear - ND Id Ir.
        induction r as [|[a b] r IH]; [destruct Id|]. cbn [map fst] in ND. inversion ND as [|? ? N1 N2]; subst.
        destruct Id as [E|Id]; destruct Ir as [E'|Ir].
        - congruence.
        - injection E as -> ->. exfalso. apply N1. exact (in_map fst _ _ Ir).
        - injection E' as -> ->. exfalso. apply N1. exact (in_map fst _ _ Id).
        - exact (IH Ir Id N2). }
      rewrite Ed in Hx. pose proof (map_nth_error (fun v : C => RtoC (fst v)) i vs Hv) as Hx2.
      pose proof (eq_trans (eq_sym Hx) Hx2) as Hx3. injection Hx3 as Hx3. exact Hx3.
    + exfalso. apply nth_error_None in Ec. assert (j < length names) by (apply nth_error_Some; rewrite Hj; discriminate). lia.
Qed.

(** ** --all *)
Lemma zdistinct_In l x : In x (zdistinct l) <-> In x l.
Proof.
  induction l as [|a l IH]; cbn [zdistinct]; [reflexivity|]. destruct (existsb (Z.eqb a) l) eqn:E.
  - rewrite IH. apply existsb_exists in E. destruct E as (y & I & E). apply Z.eqb_eq in E. subst y. cbn. split; [auto|]. intros [<-|H]; assumption.
  - cbn. rewrite IH. reflexivity.
Qed.
Lemma zdistinct_NoDup l : NoDup (zdistinct l).
Proof.
  induction l as [|a l IH]; cbn [zdistinct]; [constructor|]. destruct (existsb (Z.eqb a) l) eqn:E; [exact IH|].
  constructor; [|exact IH]. rewrite zdistinct_In. intros I.
  assert (C : existsb (Z.eqb a) l = true) by (apply existsb_exists; exists a; split; [exact I|apply Z.eqb_refl]). congruence.
Qed.
Lemma step_file_inj out a b : step_file out a = step_file out b -> a = b.
Proof. unfold step_file. intros H. apply app_inv_head in H. apply app_inv_tail in H. exact (dec_inj a b H). Qed.

Lemma all_steps_spec sim d out : (forall ts, In ts (all_steps sim d) <-> exists r, In r (t_fields d) /\ fr_sim r = sim /\ fr_ts r = ts)
  /\ NoDup (map (step_file out) (all_steps sim d)).
Proof.
  split.
  - intros ts. unfold all_steps. rewrite zdistinct_In, in_map_iff. split.
    + intros (r & <- & I). apply filter_In in I. destruct I as [I E]. apply Z.eqb_eq in E. exists r. auto.
    + intros (r & I & E & <-). exists r. split; [reflexivity|]. apply filter_In. split; [exact I|]. apply Z.eqb_eq. exact E.
  - apply FinFun.Injective_map_NoDup; [intros a b; apply step_file_inj|apply zdistinct_NoDup].
Qed.

(** A negative time step means the largest one. *)
Lemma negative_step fmtf order sim ts d : (ts < 0)%Z -> (exists r, In r (t_fields d) /\ fr_sim r = sim) ->
  (forall r, In r (t_fields d) -> fr_sim r = sim -> (0 <= fr_ts r)%Z) ->
  exists m, export_fields fmtf order sim ts d = export_fields fmtf order sim m d
  /\ (exists r, In r (t_fields d) /\ fr_sim r = sim /\ fr_ts r = m)
  /\ forall r, In r (t_fields d) -> fr_sim r = sim -> (fr_ts r <= m)%Z.
Proof.
  intros H (r0 & I0 & E0) Hp. set (l := map fr_ts (filter (fun r => (fr_sim r =? sim)%Z) (t_fields d))).
  assert (Il : forall r, In r (t_fields d) -> fr_sim r = sim -> In (fr_ts r) l).
  { intros r I E. apply in_map. apply filter_In. split; [exact I|]. apply Z.eqb_eq. exact E. }
  assert (N : l <> []) by (intros C; specialize (Il r0 I0 E0); rewrite C in Il; destruct Il).
  exists (last_step sim d). pose proof (list_max_In l N) as J. unfold last_step. fold l.
  pose proof (fun r I E => list_max_ge l (fr_ts r) (Il r I E)) as G. split; [|split; [|exact G]].
  - unfold export_fields, export_step. replace (ts <? 0)%Z with true by (symmetry; apply Z.ltb_lt; exact H).
    replace (DbModel.list_max l <? 0)%Z with false; [reflexivity|]. symmetry. apply Z.ltb_ge.
    specialize (Hp r0 I0 E0). specialize (G r0 I0 E0). lia.
  - unfold l in J at 2. apply in_map_iff in J. destruct J as (r & E & I). apply filter_In in I. destruct I as [I Es]. apply Z.eqb_eq in Es. exists r. auto.
Qed.
