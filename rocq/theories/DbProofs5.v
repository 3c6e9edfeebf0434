From Verif Require Import ListAux IndexSpec IndexProofs ParseProofs DbSpec DbProofs DbProofs2 DbProofs3 DbProofs4.
From Coq Require Import Sorting.Permutation Lra.
Open Scope nat_scope.

(** ** The statements for histories that start with a new file *)
Lemma new_run k w0 hist : new_world k w0 -> world_ok k w0 (run w0 hist).
Proof. intros H. apply run_ok, new_world_ok, H. Qed.

Lemma not_saved_no_rows k w0 hist s ts : new_world k w0 -> ~ saved_at w0 hist s ts -> rows_at s ts (w_db (run w0 hist)) = [].
Proof.
  intros H Hno. rewrite (run_rows k w0 s ts hist w0 (new_world_ok k w0 H) Hno). destruct H as [-> _]. reflexivity.
Qed.

Theorem isolated k w0 hist es s : new_world k w0 ->
  ~ In s (sims_writing (run w0 hist) es) ->
  stored_for s (w_db (run (run w0 hist) es)) = stored_for s (w_db (run w0 hist))
  /\ (forall ts, load s ts (w_db (run (run w0 hist) es)) = load s ts (w_db (run w0 hist)))
  /\ load_last s (w_db (run (run w0 hist) es)) = load_last s (w_db (run w0 hist)).
Proof. intros H. apply (isolated_loads k w0). apply new_run, H. Qed.

Theorem read_back k w0 hist e fields epoch later : new_world k w0 ->
  let w := run w0 hist in let s := sim_of w e in
  ev_op e = OpSave fields epoch -> NoDup (map fst fields) -> completes w e ->
  ~ saved_at (step w e) later s epoch ->
  exists r, load s epoch (w_db (run (step w e) later)) = Some r /\ in_order (map fst r)
  /\ (forall f, In f (as_saved fields) -> In f r)
  /\ (~ saved_at w0 hist s epoch -> Permutation r (as_saved fields)).
Proof.
  intros H w s Ho Hnd Hc Hno. destruct (save_then_load k w0 w e fields epoch later) as (j & r & _ & Hj & El & Hord & Hin & Hp); auto.
  { apply new_run, H. }
  specialize (Hj Hc). subst j. rewrite firstn_all in *. exists r. split; [exact El|]. split; [exact Hord|]. split; [exact Hin|].
  intros Hn. apply Hp. apply (not_saved_no_rows k); assumption.
Qed.

Theorem whole_fields k w0 hist e fields epoch later : new_world k w0 ->
  let w := run w0 hist in let s := sim_of w e in
  ev_op e = OpSave fields epoch -> NoDup (map fst fields) ->
  ~ saved_at w0 hist s epoch -> ~ saved_at (step w e) later s epoch ->
  exists j r, load s epoch (w_db (run (step w e) later)) = Some r /\ Permutation r (as_saved (firstn j fields)).
Proof.
  intros H w s Ho Hnd Hn Hno. destruct (save_then_load k w0 w e fields epoch later) as (j & r & _ & _ & El & _ & _ & Hp); auto.
  { apply new_run, H. }
  exists j, r. split; [exact El|]. apply Hp. apply (not_saved_no_rows k); assumption.
Qed.

Theorem earlier_kept k w0 hist es s ts : new_world k w0 -> ~ saved_at (run w0 hist) es s ts ->
  load s ts (w_db (run (run w0 hist) es)) = load s ts (w_db (run w0 hist)).
Proof. intros H. apply (load_kept k w0). apply new_run, H. Qed.

(** ** One field: LoadLast is the state before or the state after *)
Lemma list_max_top l m n : n <> 0 -> (forall x, In x l -> (x < m)%Z) -> list_max (l ++ repeat m n) = m.
Proof.
  intros Hn H. apply list_max_eq.
  - apply in_or_app. right. destruct n; [congruence|]. left. reflexivity.
  - intros x Hx. apply in_app_or in Hx. destruct Hx as [Hx|Hx]; [specialize (H x Hx); lia|]. apply repeat_spec in Hx. lia.
Qed.

Lemma load_nonempty P s ts d r : db_ok P d -> In r (t_fields d) -> fr_sim r = s -> fr_ts r = ts -> load s ts d <> Some [].
Proof.
  intros Hd Hin Hs Ht. destruct (load_spec P s ts d Hd) as (l & -> & _ & Hn & _). intros E. injection E as ->.
  assert (Hr : In r (rows_at s ts d)).
  { unfold rows_at. apply filter_In. split; [exact Hin|]. rewrite Hs, Ht, !Z.eqb_refl. reflexivity. }
  apply (in_map fr_name) in Hr. apply Hn in Hr. destruct Hr.
Qed.

Lemma map_ts_field_rows n ts s vs : forall i, map fr_ts (field_rows n ts s vs i) = repeat ts (length vs).
Proof. induction vs as [|v vs IH]; intros i; cbn; [reflexivity|]. rewrite IH. reflexivity. Qed.

Theorem single_field_last k w0 hist e n vs epoch : new_world k w0 ->
  let w := run w0 hist in let s := sim_of w e in
  ev_op e = OpSave [(n, vs)] epoch ->
  (forall ts, load s ts (w_db w) <> Some [] -> (ts < epoch)%Z) ->
  load_last s (w_db (step w e)) = load_last s (w_db w)
  \/ load_last s (w_db (step w e)) = Some [(n, real_parts vs)].
Proof.
  intros H w s Ho Hlast. assert (Hw : world_ok k w0 w) by apply new_run, H.
  destruct (save_step k w0 w e _ epoch Hw Ho) as (j & Hj & _ & Ef & Hlen). fold s in Ef.
  assert (Hrows : rows_at s epoch (w_db w) = []).
  { destruct (rows_at s epoch (w_db w)) as [|r l] eqn:Er; [reflexivity|]. exfalso.
    assert (Hr : In r (rows_at s epoch (w_db w))) by (rewrite Er; left; reflexivity). unfold rows_at in Hr. apply filter_In in Hr.
    destruct Hr as [Hr Hb]. apply andb_true_iff in Hb. destruct Hb as [Hb1 Hb2]. apply Z.eqb_eq in Hb1, Hb2.
    destruct Hw as (_ & _ & Hdb). specialize (Hlast epoch (load_nonempty _ s epoch _ r Hdb Hr Hb1 Hb2)). lia. }
  destruct j as [|j].
  - left. cbn [firstn all_rows flat_map] in Ef. rewrite app_nil_r in Ef. unfold load_last.
    assert (Els : last_step s (w_db (step w e)) = last_step s (w_db w)) by (unfold last_step; rewrite Ef; reflexivity). rewrite Els.
    set (ts := last_step s (w_db w)). destruct (rows_at s ts (w_db w)) as [|r l] eqn:Er.
    + rewrite !load_no_rows; [reflexivity|exact Er|]. unfold rows_at in *. rewrite Ef. exact Er.
    + assert (Hp : t_pos (w_db (step w e)) = t_pos (w_db w)).
      { apply step_pos. apply (rows_nonempty_pos k w0 w Hw). intros E0. unfold rows_at in Er. rewrite E0 in Er. discriminate. }
      unfold load, names_at, rows_at. rewrite Ef, Hp. reflexivity.
  - right. assert (Ej : firstn (S j) [(n, vs)] = [(n, vs)]) by (cbn; rewrite firstn_nil; reflexivity). rewrite Ej in *.
    inversion Hlen as [|? ? [_ Hl2] _]; subst. cbn [snd] in Hl2.
    assert (Els : last_step s (w_db (step w e)) = epoch).
    { unfold last_step. rewrite Ef, filter_app, map_app. unfold all_rows. cbn [flat_map fst snd]. rewrite app_nil_r.
      rewrite (filter_all' _ (field_rows _ _ _ _ _)).
      - rewrite map_ts_field_rows. apply list_max_top; [lia|]. intros x Hx. apply in_map_iff in Hx. destruct Hx as (r & <- & Hr).
        apply filter_In in Hr. destruct Hr as [Hr Hb]. apply Z.eqb_eq in Hb. destruct Hw as (_ & _ & Hdb).
        apply Hlast. apply (load_nonempty _ s (fr_ts r) _ r Hdb Hr Hb eq_refl).
      - assert (Hs := field_rows_sim n epoch s vs 0). revert Hs. apply Forall_impl. intros r ->. apply Z.eqb_refl. }
    unfold load_last. rewrite Els.
    destruct (save_then_load k w0 w e [(n, vs)] epoch [] Hw Ho) as (j' & r & _ & _ & El & _ & _ & Hp).
    + repeat constructor. intros [].
    + intros [].
    + cbn [run] in El. fold s in El. rewrite El. specialize (Hp Hrows).
      destruct j' as [|j'].
      * exfalso. cbn in Hp. apply Permutation_sym, Permutation_nil in Hp. subst r. revert El. destruct (step_ok k w0 w e Hw) as (_ & _ & Hdb).
        destruct vs as [|v vs]; [cbn in Hl2; lia|].
        apply (load_nonempty (world_doms w0) s epoch _ {| fr_name := n; fr_value := fst v; fr_pos := 0; fr_ts := epoch; fr_sim := s |} Hdb); [|reflexivity|reflexivity].
        rewrite Ef. apply in_or_app. right. left. reflexivity.
      * assert (Ej' : firstn (S j') [(n, vs)] = [(n, vs)]) by (cbn; rewrite firstn_nil; reflexivity). rewrite Ej' in Hp.
        unfold as_saved in Hp. cbn [map fst snd] in Hp. apply Permutation_sym, Permutation_length_1_inv in Hp. congruence.
Qed.

(** ** Rows and positions *)
Lemma field_rows_nth n ts s vs : forall i0 i v, nth_error vs i = Some v ->
  In {| fr_name := n; fr_value := fst v; fr_pos := i0 + i; fr_ts := ts; fr_sim := s |} (field_rows n ts s vs i0).
Proof.
  induction vs as [|u vs IH]; intros i0 i v H; [destruct i; discriminate|]. destruct i as [|i]; cbn in H.
  - injection H as ->. left. rewrite Nat.add_0_r. reflexivity.
  - right. replace (i0 + S i) with (S i0 + i) by lia. apply IH, H.
Qed.

Theorem saved_rows_join k w0 hist e fields epoch later n vs i v dom : new_world k w0 ->
  let w := run w0 hist in let s := sim_of w e in let d := w_db (run (step w e) later) in
  ev_op e = OpSave fields epoch -> completes w e -> h_dom (w_handles w (ev_who e)) = Some dom ->
  In (n, vs) fields -> nth_error vs i = Some v ->
  exists r p, In r (t_fields d)
  /\ fr_name r = n /\ fr_value r = fst v /\ fr_ts r = epoch /\ fr_sim r = s /\ fr_pos r = i
  /\ IndexModel.pos dom (Z.of_nat i) = Some p
  /\ nth_error (t_pos d) (fr_pos r) = Some (pad3 p)
  /\ joined_position d r = match i with
                           | 0 => None
                           | S i' => match IndexModel.pos dom (Z.of_nat i') with Some q => Some (pad3 q) | None => None end
                           end.
Proof.
  intros H w s d Ho Hc Hdom Hin Hv. assert (Hw : world_ok k w0 w) by apply new_run, H.
  assert (Hs := step_ok k w0 w e Hw).
  destruct (save_step k w0 w e fields epoch Hw Ho) as (j & _ & Hj & Ef & Hlen). fold s in Ef. specialize (Hj Hc). subst j. rewrite firstn_all in *.
  assert (Hfld : exists more, t_fields d = t_fields (w_db (step w e)) ++ more).
  { unfold d. clear. generalize (step w e) as x. induction later as [|e' l IH]; intros x; [exists []; rewrite app_nil_r; reflexivity|].
    cbn [run]. destruct (IH (step x e')) as (m1 & E1). assert (Hx : exists m2, t_fields (w_db (step x e')) = t_fields (w_db x) ++ m2).
    { destruct (exec (w_handles x (ev_who e')) (ev_rnd e') (ev_op e') (w_db x)) as [[h txs] ok] eqn:E. destruct (step_db x e' h txs ok E) as [-> _].
      generalize (done_txns e' txs) as ts. generalize (w_db x) as y. intros y ts. revert y. induction ts as [|t ts IHt]; intros y; [exists []; rewrite app_nil_r; reflexivity|].
      cbn [apply_txns]. destruct (IHt (apply_txn y t)) as (m & Em). assert (Ht : exists m', t_fields (apply_txn y t) = t_fields y ++ m').
      { destruct y, t; cbn; first [exists []; rewrite app_nil_r; reflexivity|eexists; reflexivity]. }
      destruct Ht as (m' & Em'). exists (m' ++ m). rewrite Em, Em', app_assoc. reflexivity. }
    destruct Hx as (m2 & E2). exists (m2 ++ m1). rewrite E1, E2, app_assoc. reflexivity. }
  destruct Hfld as (more & Ed). 
  set (r := {| fr_name := n; fr_value := fst v; fr_pos := i; fr_ts := epoch; fr_sim := s |}).
  assert (Hr0 : In r (t_fields (w_db (step w e)))).
  { rewrite Ef. apply in_or_app. right. unfold all_rows. apply in_flat_map. exists (n, vs). split; [exact Hin|]. apply (field_rows_nth n epoch s vs 0 i v Hv). }
  assert (Hr : In r (t_fields d)) by (rewrite Ed; apply in_or_app; left; exact Hr0).
  (* the positions table holds this domain *)
  assert (Hl : length vs = length (t_pos (w_db (step w e))) /\ 2 <= length vs) by (rewrite Forall_forall in Hlen; apply (Hlen _ Hin)).
  assert (Epos : t_pos d = t_pos (w_db (step w e))) by (apply run_pos; lia).
  assert (Hpos : positions_of dom (w_db (step w e))).
  { destruct Hw as (Hd & Hh & Hdb).
    destruct (exec_save (w_handles w (ev_who e)) (ev_rnd e) fields epoch (w_db w) k (Hh _)) as
      (dom' & t0 & t1 & j & Ed' & Hdom' & Eh & Edm & Etx & _ & Hpl & Hc1 & Hc2 & Hj & Hg & Hok & Hful & _).
    assert (dom' = dom) by congruence. subst dom'.
    destruct (exec (w_handles w (ev_who e)) (ev_rnd e) (OpSave fields epoch) (w_db w)) as [[h1 txs] ok] eqn:E. cbn [fst snd] in *.
    assert (E' : exec (w_handles w (ev_who e)) (ev_rnd e) (ev_op e) (w_db w) = (h1, txs, ok)) by (rewrite Ho; exact E).
    destruct (step_db w e h1 txs ok E') as [Edb _]. destruct Hc as [Hcr Hret]. rewrite E' in Hret. cbn [snd] in Hret. apply Hful in Hret. subst j.
    assert (Edone : done_txns e txs = txs) by (unfold done_txns; rewrite Hcr; reflexivity).
    rewrite firstn_all in *. assert (Hne : fields <> []) by (intros E0; rewrite E0 in Hin; destruct Hin). apply Hok in Hne.
    destruct (apply_fields (fst (ensure_init (w_handles w (ev_who e)) (ev_rnd e))) epoch fields (apply_txns (apply_txns (w_db w) t0) t1)) as [E3 _].
    destruct Hs as (_ & _ & [[Hp0 _]|(dom0 & HP0 & [Hp0 _])]); [rewrite Hp0 in Hl; cbn in Hl; lia|].
    rewrite Edb, Edone, Etx, !apply_txns_app in Hp0 |- *.
    assert (Hp1 : positions_of dom0 (apply_txns (apply_txns (w_db w) t0) t1)).
    { unfold positions_of in *. rewrite E3 in Hp0. exact Hp0. }
    rewrite (domain_ok_same dom0 dom _ _ Hp1 Edm) in Hne.
    2:{ destruct (world_doms_ok k w0 w0 (new_world_ok k w0 H) dom0 HP0) as (_ & L0 & _). destruct Hdom' as (_ & L1 & _). congruence. }
    subst dom0. exact Hp0. }
  destruct Hpos as (V & L & Hp). assert (Hi : i < length vs) by (apply nth_error_Some; congruence).
  destruct (Hp i) as (p & Ep & Hnp); [lia|]. exists r, p. rewrite Epos.
  split; [exact Hr|]. split; [reflexivity|]. split; [reflexivity|]. split; [reflexivity|]. split; [reflexivity|]. split; [reflexivity|].
  split; [exact Ep|]. split; [exact Hnp|]. unfold joined_position. cbn [r fr_pos]. rewrite Epos. destruct i as [|i']; [reflexivity|].
  destruct (Hp i') as (q & Eq & Hnq); [lia|]. rewrite Eq. exact Hnq.
Qed.

(** ** The domain check *)
Theorem domain_check w e fields epoch dom0 dom :
  positions_of dom0 (w_db w) -> (2 <= num_nodes dom0)%Z ->
  ev_op e = OpSave fields epoch -> ev_crash e = None -> fields <> [] ->
  h_dom (w_handles w (ev_who e)) = Some dom ->
  (completes w e <->
     (length dom <= 3 /\ forall i, i < length dom -> nth i dom 1%Z = nth i dom0 1%Z)
     /\ Forall (fun f => Z.of_nat (length (snd f)) = num_nodes dom) fields)
  /\ (~ (length dom <= 3 /\ forall i, i < length dom -> nth i dom 1%Z = nth i dom0 1%Z) ->
      ~ completes w e /\ t_fields (w_db (step w e)) = t_fields (w_db w) /\ t_pos (w_db (step w e)) = t_pos (w_db w)).
Proof.
  intros Hp Hn Ho Hcr Hne Hd.
  assert (Hlen : 1 < length (t_pos (w_db w))) by (destruct Hp as (_ & L & _); lia).
  set (h := w_handles w (ev_who e)) in *. assert (Hpl := ensure_init_plain h (ev_rnd e)). assert (Hdm := ensure_init_dom h (ev_rnd e)).
  destruct (exec h (ev_rnd e) (ev_op e) (w_db w)) as [[h1 txs] ok] eqn:E.
  assert (Estep := proj1 (step_db w e h1 txs ok E)).
  assert (Ec : completes w e <-> ok = true).
  { unfold completes. fold h. rewrite E. cbn [snd]. tauto. }
  rewrite Ho in E. unfold exec in E. destruct (ensure_init h (ev_rnd e)) as [h2 t0]. cbn [fst snd] in *.
  destruct (plain_keep t0 Hpl (w_db w)) as [Ep Ef]. unfold positions_populated in E. rewrite Ep in E.
  destruct (Nat.ltb_spec 1 (length (t_pos (w_db w)))) as [_|?]; [|lia]. cbn [apply_txns] in E.
  destruct (save_loop_spec h2 epoch fields (apply_txns (w_db w) t0)) as (j & Hj & H1 & H2 & H3 & H4 & H5).
  destruct (save_loop h2 epoch fields _) as [t2 ok2]. cbn [fst snd] in *. injection E as E1 E2 E3. subst h2 txs ok2.
  assert (Hp1 : positions_of dom0 (apply_txns (w_db w) t0)) by (unfold positions_of; rewrite Ep; exact Hp).
  assert (Hdom1 : h_dom h1 = Some dom) by congruence.
  rewrite (domain_ok_spec dom0 dom h1 _ Hp1 Hdom1) in H3, H5.
  assert (Edl : dom_list h1 = dom) by (unfold dom_list; rewrite Hdom1; reflexivity).
  split.
  - rewrite Ec, H5. unfold good_field. rewrite Edl, prod_int_num. split; [intros [?|?]; [contradiction|assumption]|intros ?; right; assumption].
  - intros Hbad. split.
    + rewrite Ec, H5. intros [?|[? _]]; contradiction.
    + assert (Ej : firstn j fields = []) by (destruct (firstn j fields); [reflexivity|exfalso; apply Hbad, H3; discriminate]).
      rewrite Estep. unfold done_txns. rewrite Hcr. rewrite H1, Ej. cbn [map app]. rewrite app_nil_r. split; assumption.
Qed.

Lemma domain_check_same_rank w e fields epoch dom0 dom :
  positions_of dom0 (w_db w) -> (2 <= num_nodes dom0)%Z ->
  ev_op e = OpSave fields epoch -> ev_crash e = None -> fields <> [] ->
  h_dom (w_handles w (ev_who e)) = Some dom -> length dom = length dom0 ->
  (completes w e <-> dom = dom0 /\ Forall (fun f => Z.of_nat (length (snd f)) = num_nodes dom) fields)
  /\ (dom <> dom0 -> ~ completes w e /\ t_fields (w_db (step w e)) = t_fields (w_db w)).
Proof.
  intros Hp Hn Ho Hcr Hne Hd Hl. destruct (domain_check w e fields epoch dom0 dom Hp Hn Ho Hcr Hne Hd) as [H1 H2].
  assert (Heq : (length dom <= 3 /\ forall i, i < length dom -> nth i dom 1%Z = nth i dom0 1%Z) <-> dom = dom0).
  { split; [intros [_ H]; apply nth_ext with (d := 1%Z) (d' := 1%Z); assumption|]. intros ->. split; [|reflexivity].
    destruct Hp as [[[L|L] _] _]; lia. }
  rewrite Heq in H1, H2. split; [exact H1|]. intros Hx. destruct (H2 Hx) as (A & B & _). auto.
Qed.

(** In reachable states the table holds the domain of one of the objects. *)
Lemma table_domain k w0 hist : new_world k w0 -> t_pos (w_db (run w0 hist)) <> [] ->
  exists i dom0, h_dom (w_handles w0 i) = Some dom0 /\ length dom0 = k /\ (2 <= num_nodes dom0)%Z /\ positions_of dom0 (w_db (run w0 hist)).
Proof.
  intros H Hne. assert (Hw := new_run k w0 hist H). assert (Hw' := Hw). destruct Hw' as (_ & _ & [[E _]|(dom0 & (i & Ei) & [Hp _])]); [contradiction|].
  destruct (world_doms_ok k w0 _ Hw dom0) as (_ & L & Hn); [exists i; exact Ei|]. exists i, dom0. auto.
Qed.

(** The first call of SaveFields on a new file succeeds. *)
Lemma first_save_completes k w0 e fields epoch dom : new_world k w0 -> ev_op e = OpSave fields epoch -> ev_crash e = None ->
  h_dom (w_handles w0 (ev_who e)) = Some dom -> Forall (fun f => Z.of_nat (length (snd f)) = num_nodes dom) fields -> completes w0 e.
Proof.
  intros H Ho Hcr Hd Hf. split; [exact Hcr|]. rewrite Ho. destruct H as [Edb Hh]. destruct (Hh (ev_who e)) as (_ & _ & dom' & Ed & V & Lk & Hn).
  assert (dom' = dom) by congruence. subst dom'.
  assert (Hok : handle_ok k (w_handles w0 (ev_who e))) by (exists dom; split; [exact Ed|exact (conj V (conj Lk Hn))]).
  destruct (exec_save _ (ev_rnd e) fields epoch (w_db w0) k Hok) as (dom' & t0 & t1 & j & Ed' & Hdom & Eh & Edm & Etx & _ & Hpl & Hc1 & Hc2 & _ & _ & _ & _ & Hiff).
  assert (dom' = dom) by congruence. subst dom'. apply Hiff. right.
  destruct Hc2 as (rows & -> & Er); [rewrite Edb; cbn; lia|]. destruct (plain_keep t0 Hpl (w_db w0)) as [Ep _].
  destruct (rows_positions_of dom (apply_txns (w_db w0) t0) rows) as [Hp _].
  - exact (conj V (conj eq_refl Hn)).
  - rewrite Ep, Edb. reflexivity.
  - exact Er.
  - split; [apply (domain_ok_same dom dom _ _ Hp Edm eq_refl); reflexivity|]. revert Hf. apply Forall_impl. intros f Hf. unfold good_field.
    unfold dom_list. rewrite Edm, prod_int_num. exact Hf.
Qed.

(** ** The other records *)
Theorem records_added w e : ev_crash e = None ->
  let s := sim_of w e in let d := w_db w in let d' := w_db (step w e) in
  match ev_op e with
  | OpSave _ _ => True
  | OpComment text => t_comments d' = t_comments d ++ [{| cr_value := one_line text; cr_sim := s |}] /\ t_attr d' = t_attr d /\ t_text d' = t_text d /\ t_series d' = t_series d
  | OpAttr kv => t_attr d' = t_attr d ++ map (fun e => {| ar_key := fst e; ar_value := snd e; ar_sim := s |}) kv /\ t_comments d' = t_comments d /\ t_text d' = t_text d /\ t_series d' = t_series d
  | OpText kv => t_text d' = t_text d ++ map (fun e => {| tr_key := fst e; tr_value := snd e; tr_sim := s |}) kv /\ t_attr d' = t_attr d /\ t_comments d' = t_comments d /\ t_series d' = t_series d
  | OpSeries kv ts => t_series d' = t_series d ++ map (fun e => {| sr_key := fst e; sr_value := snd e; sr_ts := ts; sr_sim := s |}) kv /\ t_attr d' = t_attr d /\ t_comments d' = t_comments d /\ t_text d' = t_text d
  end.
Proof.
  intros Hcr s d d'. destruct (exec (w_handles w (ev_who e)) (ev_rnd e) (ev_op e) (w_db w)) as [[h txs] ok] eqn:E.
  destruct (step_db w e h txs ok E) as [Ed Es]. unfold d', s, d. rewrite Ed, Es. unfold done_txns. rewrite Hcr. clear Ed Es d' s d.
  unfold exec in E. assert (H0 : forall x, t_comments (apply_txns x (snd (ensure_init (w_handles w (ev_who e)) (ev_rnd e)))) = t_comments x
    /\ t_attr (apply_txns x (snd (ensure_init (w_handles w (ev_who e)) (ev_rnd e)))) = t_attr x
    /\ t_text (apply_txns x (snd (ensure_init (w_handles w (ev_who e)) (ev_rnd e)))) = t_text x
    /\ t_series (apply_txns x (snd (ensure_init (w_handles w (ev_who e)) (ev_rnd e)))) = t_series x).
  { intros x. unfold ensure_init, initialize. destruct (h_init _); [cbn; auto|]. destruct (_ =? _)%Z; destruct x; cbn; auto. }
  destruct (ensure_init (w_handles w (ev_who e)) (ev_rnd e)) as [h1 t0]. cbn [snd] in H0. specialize (H0 (w_db w)). destruct H0 as (A & B & C & D).
  destruct (ev_op e); [exact I| | | |]; injection E as <- <- <-; rewrite apply_txns_app; rewrite <- A, <- B, <- C, <- D;
    destruct (apply_txns (w_db w) t0); cbn; auto.
Qed.

