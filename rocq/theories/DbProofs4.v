From Verif Require Import ListAux IndexSpec IndexProofs ParseProofs DbSpec DbProofs DbProofs2 DbProofs3.
From Coq Require Import Sorting.Permutation.
Open Scope nat_scope.

Definition reachable (k : nat) (w0 w : world) : Prop := new_world k w0 /\ exists hist, w = run w0 hist.
Lemma reachable_ok k w0 w : reachable k w0 w -> world_ok k w0 w.
Proof. intros (H & hist & ->). apply run_ok, new_world_ok, H. Qed.

Lemma world_doms_ok k w0 w : world_ok k w0 w -> forall dom, world_doms w0 dom -> dom_ok k dom.
Proof. intros (Hd & Hh & _) dom (i & E). destruct (Hh i) as (dom' & E' & H). rewrite Hd in E'. congruence. Qed.

(** ** What stays loadable *)
Lemma load_no_rows s ts d : rows_at s ts d = [] -> load s ts d = Some [].
Proof. intros E. unfold load, names_at. rewrite E. reflexivity. Qed.

Theorem load_kept k w0 w es s ts : world_ok k w0 w -> ~ saved_at w es s ts ->
  load s ts (w_db (run w es)) = load s ts (w_db w).
Proof.
  intros Hw Hno. assert (E := run_rows k w0 s ts es w Hw Hno). destruct (rows_at s ts (w_db w)) as [|r rows] eqn:Er.
  - rewrite !load_no_rows; auto.
  - assert (Hpos : t_pos (w_db (run w es)) = t_pos (w_db w)).
    { apply run_pos. assert (Hw' := Hw). destruct Hw' as (_ & _ & [[_ Hf]|(dom0 & HP & Hf)]).
      - unfold rows_at in Er. rewrite Hf in Er. discriminate.
      - destruct (world_doms_ok k w0 w Hw dom0 HP) as (_ & _ & Hn). destruct Hf as [(_ & L & _) _]. lia. }
    unfold load, names_at. rewrite E, Er, Hpos. reflexivity.
Qed.

Lemma not_writing_not_saved s ts es : forall w, ~ In s (sims_writing w es) -> ~ saved_at w es s ts.
Proof.
  induction es as [|e es IH]; intros w H; [intros []|]. cbn [sims_writing saved_at] in *. intros [[E _]|Hs].
  - apply H. left. exact E.
  - revert Hs. apply IH. intros H'. apply H. right. exact H'.
Qed.

Lemma rows_nonempty_pos k w0 w : world_ok k w0 w -> t_fields (w_db w) <> [] -> 1 < length (t_pos (w_db w)).
Proof.
  intros Hw Hne. assert (Hw' := Hw). destruct Hw' as (_ & _ & [[_ Hf]|(dom0 & HP & Hf)]); [contradiction|].
  destruct (world_doms_ok k w0 w Hw dom0 HP) as (_ & _ & Hn). destruct Hf as [(_ & L & _) _]. lia.
Qed.

Theorem isolated_loads k w0 w es s : world_ok k w0 w -> ~ In s (sims_writing w es) ->
  stored_for s (w_db (run w es)) = stored_for s (w_db w)
  /\ (forall ts, load s ts (w_db (run w es)) = load s ts (w_db w)) /\ load_last s (w_db (run w es)) = load_last s (w_db w).
Proof.
  intros Hw Hno. assert (Hl : forall ts, load s ts (w_db (run w es)) = load s ts (w_db w)).
  { intros ts. apply (load_kept k w0); [exact Hw|]. apply not_writing_not_saved, Hno. }
  assert (Hs := isolation w es s Hno). split; [exact Hs|]. split; [exact Hl|].
  unfold load_last. rewrite Hl. f_equal. unfold last_step.
  change (filter (fun r => (fr_sim r =? s)%Z) (t_fields ?d)) with (sd_fields (stored_for s d)).
  change (filter (fun r => (fr_sim r =? s)%Z) (t_fields (w_db w))) with (sd_fields (stored_for s (w_db w))).
  rewrite <- Hs. reflexivity.
Qed.

(** ** What a call of SaveFields leaves behind *)
Lemma save_step k w0 w e fields epoch : world_ok k w0 w -> ev_op e = OpSave fields epoch ->
  exists j, j <= length fields /\ (completes w e -> j = length fields)
  /\ t_fields (w_db (step w e)) = t_fields (w_db w) ++ all_rows (sim_of w e) epoch (firstn j fields)
  /\ Forall (fun f => length (snd f) = length (t_pos (w_db (step w e))) /\ 2 <= length (snd f)) (firstn j fields).
Proof.
  intros Hw Ho. destruct (step_ok k w0 w e Hw) as (_ & _ & Hs). assert (Hw' := Hw). destruct Hw' as (Hd & Hh & Hdb).
  set (h := w_handles w (ev_who e)) in *.
  destruct (exec_save h (ev_rnd e) fields epoch (w_db w) k (Hh _)) as (dom & t0 & t1 & j & Ed & Hdom & Eh & Edm & Etx & _ & Hpl & Hc1 & Hc2 & Hj & Hg & Hok & Hful & _).
  destruct (exec h (ev_rnd e) (OpSave fields epoch) (w_db w)) as [[h1 txs] ok] eqn:E. cbn [fst snd] in *.
  assert (E' : exec (w_handles w (ev_who e)) (ev_rnd e) (ev_op e) (w_db w) = (h1, txs, ok)) by (rewrite Ho; exact E).
  destruct (step_db w e h1 txs ok E') as [Edb Esim]. rewrite Esim. rewrite Edb in *. clear Edb. subst h1.
  set (h1 := fst (ensure_init h (ev_rnd e))) in *.
  assert (Edl : dom_list h1 = dom) by (unfold dom_list; rewrite Edm; reflexivity).
  destruct (done_firstn e txs) as (n & Hn). set (m := n - length t0 - length t1).
  assert (Ed1 : done_txns e txs = firstn n t0 ++ firstn (n - length t0) t1 ++ map (field_txn h1 epoch) (firstn m (firstn j fields))).
  { rewrite Hn, Etx, !firstn_app, firstn_map. reflexivity. }
  set (d1 := apply_txns (w_db w) (firstn n t0)). set (d2 := apply_txns d1 (firstn (n - length t0) t1)).
  assert (E2 : t_fields d2 = t_fields (w_db w)).
  { transitivity (t_fields d1).
    - unfold d2. destruct (le_lt_dec (length (t_pos (w_db w))) 1) as [Hle|Hgt].
      + destruct (Hc2 Hle) as (rows & -> & _). destruct (n - length t0) as [|m']; [reflexivity|]. cbn [firstn]. rewrite firstn_nil. cbn [apply_txns].
        destruct d1; reflexivity.
      + rewrite (Hc1 Hgt), firstn_nil. reflexivity.
    - apply (plain_keep (firstn n t0) (Forall_firstn _ n _ Hpl) (w_db w)). }
  rewrite Ed1, !apply_txns_app in Hs |- *. fold d1 d2 in Hs |- *.
  destruct (apply_fields h1 epoch (firstn m (firstn j fields)) d2) as [E3 E4].
  exists (Nat.min m j). rewrite <- firstn_firstn. split; [lia|]. split.
  { intros [Hc Hr]. fold h in Hr. rewrite Ho, E in Hr. cbn [snd] in Hr. apply Hful in Hr. subst j.
    assert (Hm : done_txns e txs = txs) by (unfold done_txns; rewrite Hc; reflexivity). rewrite Hm in Hn.
    assert (Hl : length txs = length t0 + length t1 + length fields).
    { rewrite Etx, !app_length, map_length, firstn_all. lia. }
    assert (length txs <= n). { rewrite Hn in Hl at 1. rewrite Hn. destruct (le_lt_dec (length txs) n) as [?|Hlt]; [rewrite <- Hn; assumption|].
      exfalso. assert (Hx : length (firstn n txs) = n) by (apply firstn_length_le; lia). rewrite <- Hn in Hx. lia. }
    unfold m. lia. }
  split.
  { rewrite E4, E2. reflexivity. }
  destruct (firstn m (firstn j fields)) as [|f fs] eqn:Ef; [constructor|].
  assert (Hne : firstn j fields <> []). { intros E0. rewrite E0, firstn_nil in Ef. discriminate. }
  assert (Hm : 0 < m) by (destruct m; [discriminate Ef|lia]).
  assert (Ea : firstn n t0 = t0) by (apply firstn_all2; unfold m in Hm; lia).
  assert (Eb : firstn (n - length t0) t1 = t1) by (apply firstn_all2; unfold m in Hm; lia).
  assert (Hd2 : d2 = apply_txns (apply_txns (w_db w) t0) t1) by (unfold d2, d1; rewrite Ea, Eb; reflexivity).
  apply Hok in Hne. rewrite <- Hd2 in Hne.
  destruct Hs as [[Hp0 Hf0]|(dom0 & HP0 & Hf0)].
  { exfalso. rewrite E4 in Hf0. apply app_eq_nil in Hf0. destruct Hf0 as [_ Hf0]. rewrite E3 in Hp0.
    (* the domain check cannot succeed on an empty table *)
    assert (Hlen : length (t_pos d2) <> 0); [|rewrite Hp0 in Hlen; apply Hlen; reflexivity].
    destruct (le_lt_dec (length (t_pos (w_db w))) 1) as [Hle|Hgt].
    - destruct (Hc2 Hle) as (rows & Et1 & Er). destruct Hdom as (V & _ & Hnn).
      destruct (position_rows_spec dom (Z.to_nat (num_nodes dom)) V) as (rows' & Er' & L & _); [lia|]. rewrite Er in Er'. injection Er' as <-.
      rewrite Hd2, Et1. cbn [apply_txns]. destruct (apply_txns (w_db w) t0) as [x1 x2 x3 x4 x5 x6 x7]. cbn [apply_txn t_pos]. rewrite app_length. lia.
    - rewrite Hd2, (Hc1 Hgt). cbn [apply_txns]. destruct (plain_keep t0 Hpl (w_db w)) as [-> _]. lia. }
  assert (Hf2 : positions_of dom0 d2).
  { destruct Hf0 as [Hpp _]. unfold positions_of in *. rewrite E3 in Hpp. exact Hpp. }
  rewrite (domain_ok_same dom0 dom h1 d2 Hf2 Edm) in Hne.
  2:{ destruct (world_doms_ok k w0 w Hw dom0 HP0) as (_ & L0 & _). destruct Hdom as (_ & L1 & _). congruence. }
  subst dom0. destruct Hf2 as (_ & L & _). rewrite E3, L.
  assert (Hg' : Forall (good_field h1) (f :: fs)) by (rewrite <- Ef; apply Forall_firstn, Hg).
  revert Hg'. apply Forall_impl. intros x Hgx. unfold good_field in Hgx. rewrite Edl, prod_int_num in Hgx.
  destruct Hdom as (_ & _ & Hnn). lia.
Qed.

Lemma NoDup_firstn {A} (l : list A) : forall n, NoDup l -> NoDup (firstn n l).
Proof.
  induction l as [|x l IH]; intros [|n] H; cbn; try constructor.
  - inversion H as [|? ? Hx Hl]; subst. intros Hi. apply Hx. rewrite <- (firstn_skipn n l). apply in_or_app. left. exact Hi.
  - inversion H; subst. apply IH. assumption.
Qed.

Lemma all_rows_names s ts fs n : Forall (fun f : str * list C => snd f <> []) fs ->
  In n (map fr_name (all_rows s ts fs)) <-> In n (map fst fs).
Proof.
  intros H. split.
  - intros Hin. apply in_map_iff in Hin. destruct Hin as (r & <- & Hr). assert (Ha := all_rows_at s ts fs). rewrite Forall_forall in Ha.
    apply Ha, Hr.
  - intros Hin. apply in_map_iff in Hin. destruct Hin as ([m vs] & E & Hf). cbn in E. subst m. rewrite Forall_forall in H. specialize (H _ Hf). cbn in H.
    destruct vs as [|v vs]; [congruence|]. apply in_map_iff. exists {| fr_name := n; fr_value := fst v; fr_pos := 0; fr_ts := ts; fr_sim := s |}.
    split; [reflexivity|]. unfold all_rows. apply in_flat_map. exists (n, v :: vs). split; [exact Hf|]. left. reflexivity.
Qed.

Lemma map_fst_as_saved fs : map fst (as_saved fs) = map fst fs.
Proof. unfold as_saved. rewrite map_map. reflexivity. Qed.

Theorem save_then_load k w0 w e fields epoch later :
  world_ok k w0 w -> ev_op e = OpSave fields epoch -> NoDup (map fst fields) ->
  ~ saved_at (step w e) later (sim_of w e) epoch ->
  exists j r, j <= length fields /\ (completes w e -> j = length fields)
  /\ load (sim_of w e) epoch (w_db (run (step w e) later)) = Some r /\ in_order (map fst r)
  /\ (forall f, In f (as_saved (firstn j fields)) -> In f r)
  /\ (rows_at (sim_of w e) epoch (w_db w) = [] -> Permutation r (as_saved (firstn j fields))).
Proof.
  intros Hw Ho Hnd Hno. assert (Hs := step_ok k w0 w e Hw). set (s := sim_of w e) in *.
  destruct (save_step k w0 w e fields epoch Hw Ho) as (j & Hj & Hfull & Ef & Hlen). fold s in Ef.
  set (fs := firstn j fields) in *. set (w1 := step w e) in *.
  assert (Er : rows_at s epoch (w_db w1) = rows_at s epoch (w_db w) ++ all_rows s epoch fs).
  { rewrite (rows_at_fields s epoch (w_db w) (w_db w1) _ Ef), all_rows_filter. reflexivity. }
  rewrite (load_kept k w0 w1 later s epoch Hs Hno).
  destruct Hs as (_ & _ & Hdb). destruct (load_spec (world_doms w0) s epoch (w_db w1) Hdb) as (r & El & Hord & Hn & Hin).
  rewrite Er in *. exists j, r. split; [exact Hj|]. split; [exact Hfull|]. split; [exact El|]. split; [exact Hord|].
  assert (Hndf : NoDup (map fst fs)) by (unfold fs; rewrite <- firstn_map; apply NoDup_firstn, Hnd).
  assert (Hold : Forall (fun r => fr_pos r < length (repeat C0 (length (t_pos (w_db w1))))) (rows_at s epoch (w_db w))).
  { rewrite repeat_length. destruct Hdb as [[_ Hf0]|(dom0 & _ & _ & Hf0)].
    - rewrite Hf0 in Ef. symmetry in Ef. apply app_eq_nil in Ef. destruct Ef as [Ef _]. unfold rows_at. rewrite Ef. constructor.
    - rewrite Ef in Hf0. apply Forall_app in Hf0. destruct Hf0 as [Hf0 _]. rewrite Forall_forall in *. intros x Hx. apply Hf0.
      unfold rows_at in Hx. apply filter_In in Hx. apply Hx. }
  assert (Hsub : forall f, In f (as_saved fs) -> In f r).
  { intros f Hf. unfold as_saved in Hf. apply in_map_iff in Hf. destruct Hf as ([n vs] & <- & Hf). cbn [fst snd].
    rewrite Forall_forall in Hlen. destruct (Hlen _ Hf) as [Hl _]. cbn [snd] in Hl.
    apply Hin. split.
    - rewrite map_app. apply in_or_app. right. apply all_rows_names.
      + apply Forall_forall. intros g Hg E0. destruct (Hlen _ Hg) as [_ Hl']. rewrite E0 in Hl'. cbn in Hl'. lia.
      + apply (in_map fst) in Hf. exact Hf.
    - rewrite fill_app. destruct (fill_some n _ _ Hold) as (data & -> & Ld). rewrite repeat_length in Ld.
      apply fill_all with (vs := vs); [exact Hndf|exact Hf|congruence]. }
  split; [exact Hsub|]. intros E0. apply NoDup_Permutation.
  - apply (NoDup_map_inv fst). apply Hord.
  - apply (NoDup_map_inv fst). rewrite map_fst_as_saved. exact Hndf.
  - intros [n data]. split; [|apply Hsub]. intros Hr. apply Hin in Hr. destruct Hr as [Hr Hfill]. rewrite E0 in *. cbn [app] in *.
    assert (Hnm : In n (map fst fs)).
    { apply in_map_iff in Hr. destruct Hr as (x & <- & Hx). assert (Ha := all_rows_at s epoch fs). rewrite Forall_forall in Ha. apply Ha, Hx. }
    apply in_map_iff in Hnm. destruct Hnm as ([m vs] & Em & Hf). cbn in Em. subst m.
    rewrite Forall_forall in Hlen. destruct (Hlen _ Hf) as [Hl _]. cbn [snd] in Hl.
    rewrite (fill_all s epoch fs n vs) in Hfill; [|exact Hndf|exact Hf|rewrite repeat_length; congruence].
    injection Hfill as <-. unfold as_saved. apply in_map_iff. exists (n, vs). split; [reflexivity|exact Hf].
Qed.
