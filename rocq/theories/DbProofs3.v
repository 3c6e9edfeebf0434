From Verif Require Import ListAux IndexSpec IndexProofs ParseProofs DbSpec DbProofs DbProofs2.
From Coq Require Import Sorting.Permutation.
Open Scope nat_scope.

(** ** The invariant is kept at every crash point *)
Lemma field_rows_pos name ts s vs : forall i, Forall (fun r => fr_pos r < i + length vs) (field_rows name ts s vs i).
Proof.
  induction vs as [|v vs IH]; intros i; constructor; [cbn; lia|]. cbn [length].
  specialize (IH (S i)). revert IH. apply Forall_impl. intros r. lia.
Qed.

Lemma filled_more dom0 h ts d fs : filled dom0 d -> Forall (fun f => length (snd f) <= length (t_pos d)) fs ->
  filled dom0 (apply_txns d (map (field_txn h ts) fs)).
Proof.
  intros [H1 H2] Hf. destruct (apply_fields h ts fs d) as [E1 E2]. unfold filled, positions_of. rewrite E1, E2. split; [exact H1|].
  apply Forall_app. split; [exact H2|]. unfold all_rows. apply Forall_flat_map. revert Hf. apply Forall_impl.
  intros [n vs] Hl. cbn [fst snd] in *. assert (Hr := field_rows_pos n ts (h_sim h) vs 0). revert Hr. apply Forall_impl. intros r. cbn. lia.
Qed.

Lemma rows_positions_of dom d rows : dom_ok (length dom) dom -> t_pos d = [] ->
  position_rows dom (Z.to_nat (num_nodes dom)) = Some rows ->
  positions_of dom (apply_txn d (TxPos rows)) /\ t_pos (apply_txn d (TxPos rows)) = rows.
Proof.
  intros (V & _ & Hn) E Er. destruct d as [ids ps fs at_ tx cs ss]. cbn in E. subst ps. cbn [apply_txn t_pos app].
  split; [|reflexivity]. destruct (position_rows_spec dom (Z.to_nat (num_nodes dom)) V) as (rows' & Er' & L & H); [lia|].
  rewrite Er in Er'. injection Er' as <-. split; [exact V|]. cbn [t_pos]. split; [exact L|]. rewrite L. exact H.
Qed.

Lemma firstn_map {A B} (f : A -> B) n l : firstn n (map f l) = map f (firstn n l).
Proof. revert n. induction l as [|x l IH]; intros [|n]; cbn; congruence. Qed.
Lemma Forall_firstn {A} (P : A -> Prop) n l : Forall P l -> Forall P (firstn n l).
Proof. intros H. revert n. induction H; intros [|n]; cbn; constructor; auto. Qed.

(** Any prefix of what an operation commits leaves the tables consistent. *)
Lemma exec_keeps k (P : list Z -> Prop) h rnd o d n :
  handle_ok k h -> (forall dom, h_dom h = Some dom -> P dom) -> (forall dom, P dom -> dom_ok k dom) -> db_ok P d ->
  db_ok P (apply_txns d (firstn n (snd (fst (exec h rnd o d))))).
Proof.
  intros Hh HP Hk Hd.
  assert (Hplain : forall ts, Forall plain ts -> db_ok P (apply_txns d ts)).
  { intros ts Ht. destruct (plain_keep ts Ht d) as [E1 E2]. apply (db_ok_ext P d); auto. }
  assert (Hi := ensure_init_plain h rnd).
  destruct o as [fields epoch|text|kv|kv|kv ts].
  2-5: unfold exec; destruct (ensure_init h rnd) as [h1 t0]; cbn [fst snd] in *; apply Hplain, Forall_firstn;
       apply Forall_app; split; [exact Hi|repeat constructor].
  destruct (exec_save h rnd fields epoch d k Hh) as (dom & t0 & t1 & j & Ed & Hdom & _ & Edm & Etx & _ & Hpl & Hc1 & Hc2 & Hj & Hg & Hok & _).
  rewrite Etx. clear Etx. set (h1 := fst (ensure_init h rnd)) in *.
  rewrite firstn_app. rewrite apply_txns_app.
  destruct (plain_keep (firstn n t0) (Forall_firstn _ n _ Hpl) d) as [E1 E2].
  destruct (n - length t0) as [|n1] eqn:En1; [rewrite firstn_O; cbn [apply_txns]; apply (db_ok_ext P d); auto|].
  assert (Efull : firstn n t0 = t0) by (apply firstn_all2; lia). rewrite Efull in *.
  assert (Edl : dom_list h1 = dom) by (unfold dom_list; rewrite Edm; reflexivity).
  (* the domain of the table *)
  assert (Hlen : forall dom0, P dom0 -> filled dom0 (apply_txns (apply_txns d t0) t1) -> firstn j fields <> [] ->
                 Forall (fun f => length (snd f) <= length (t_pos (apply_txns (apply_txns d t0) t1))) (firstn j fields)).
  { intros dom0 Hp0 Hf Hne. apply Hok in Hne. assert (Hf0 := Hf). destruct Hf0 as [Hpos _].
    rewrite (domain_ok_same dom0 dom h1 _ Hpos Edm) in Hne.
    2:{ destruct (Hk dom0 Hp0) as (_ & L0 & _). destruct Hdom as (_ & L1 & _). congruence. }
    subst dom0. destruct Hpos as (_ & L & _). rewrite L. revert Hg. apply Forall_impl. intros f Hgf. unfold good_field in Hgf.
    rewrite Edl, prod_int_num in Hgf. lia. }
  assert (Hafter : forall dom0 m, P dom0 -> filled dom0 (apply_txns (apply_txns d t0) t1) ->
                   filled dom0 (apply_txns (apply_txns (apply_txns d t0) t1) (map (field_txn h1 epoch) (firstn m (firstn j fields))))).
  { intros dom0 m Hp0 Hf. apply filled_more; [exact Hf|]. destruct (firstn j fields) as [|f fs] eqn:Ef.
    - rewrite firstn_nil. constructor.
    - apply Forall_firstn. rewrite <- Ef in *. apply Hlen with (dom0 := dom0); [exact Hp0|exact Hf|rewrite Ef; discriminate]. }
  destruct (le_lt_dec (length (t_pos d)) 1) as [Hle|Hgt].
  - destruct (Hc2 Hle) as (rows & -> & Er). cbn [app firstn apply_txns] in *.
    destruct Hd as [[Hp0 Hf0]|(dom0 & HP0 & (V0 & L0 & _) & _)].
    2:{ destruct (Hk dom0 HP0) as (_ & _ & H2). lia. }
    assert (Hd1 : dom_ok (length dom) dom) by (destruct Hdom as (V & _ & Hn); exact (conj V (conj eq_refl Hn))).
    destruct (rows_positions_of dom (apply_txns d t0) rows Hd1) as [Hpos Epos]; [congruence|exact Er|].
    assert (Hfill : filled dom (apply_txn (apply_txns d t0) (TxPos rows))).
    { split; [exact Hpos|]. assert (Ex : t_fields (apply_txn (apply_txns d t0) (TxPos rows)) = []).
      { transitivity (t_fields (apply_txns d t0)); [destruct (apply_txns d t0); reflexivity|congruence]. }
      rewrite Ex. constructor. }
    right. exists dom. split; [apply HP; exact Ed|]. rewrite firstn_map. apply Hafter; [apply HP; exact Ed|exact Hfill].
  - rewrite (Hc1 Hgt) in *. cbn [app apply_txns] in *. destruct Hd as [[Hp0 Hf0]|(dom0 & HP0 & Hfil)].
    + rewrite Hp0 in Hgt. cbn in Hgt. lia.
    + right. exists dom0. split; [exact HP0|]. rewrite firstn_map. apply Hafter; [exact HP0|].
      apply (filled_ext dom0 d); [symmetry; exact E1|symmetry; exact E2|exact Hfil].
Qed.

Definition world_doms (w : world) (dom : list Z) : Prop := exists i, h_dom (w_handles w i) = Some dom.
Definition world_ok (k : nat) (w0 w : world) : Prop :=
  (forall i, h_dom (w_handles w i) = h_dom (w_handles w0 i)) /\ (forall i, handle_ok k (w_handles w i)) /\ db_ok (world_doms w0) (w_db w).

Lemma exec_dom h rnd o d : h_dom (fst (fst (exec h rnd o d))) = h_dom h.
Proof.
  unfold exec. assert (H := ensure_init_dom h rnd). destruct (ensure_init h rnd) as [h1 t0]. cbn [fst] in H.
  destruct o; cbn [fst]; try exact H. destruct (if positions_populated _ then _ else _); [|exact H].
  destruct (save_loop _ _ _ _). exact H.
Qed.

Lemma done_firstn e txs : exists n, done_txns e txs = firstn n txs.
Proof.
  unfold done_txns. destruct (ev_crash e) as [n|]; [exists n; reflexivity|]. exists (length txs). symmetry. apply firstn_all.
Qed.

Lemma step_ok k w0 w e : world_ok k w0 w -> world_ok k w0 (step w e).
Proof.
  intros (Hd & Hh & Hdb).
  assert (Hdom : forall i, h_dom (w_handles (step w e) i) = h_dom (w_handles w i)).
  { intros i. unfold step. assert (He := exec_dom (w_handles w (ev_who e)) (ev_rnd e) (ev_op e) (w_db w)).
    destruct (exec _ _ _ _) as [[h txs] ok]. cbn [w_handles fst] in *. destruct (Nat.eqb_spec i (ev_who e)) as [->|]; [exact He|reflexivity]. }
  split; [intros i; rewrite Hdom; apply Hd|]. split.
  - intros i. destruct (Hh i) as (dom & E & H). exists dom. rewrite Hdom. auto.
  - destruct (exec (w_handles w (ev_who e)) (ev_rnd e) (ev_op e) (w_db w)) as [[h txs] ok] eqn:E.
    destruct (step_db w e h txs ok E) as [-> _]. destruct (done_firstn e txs) as (n & ->).
    assert (H := exec_keeps k (world_doms w0) (w_handles w (ev_who e)) (ev_rnd e) (ev_op e) (w_db w) n (Hh _)).
    rewrite E in H. apply H; [|clear H|exact Hdb].
    + intros dom Ed. exists (ev_who e). rewrite <- Hd. exact Ed.
    + intros dom (i & Ed). rewrite <- Hd in Ed. destruct (Hh i) as (dom' & E' & Hok). congruence.
Qed.

Lemma run_ok k w0 es : forall w, world_ok k w0 w -> world_ok k w0 (run w es).
Proof. induction es as [|e es IH]; intros w H; [exact H|]. apply IH, step_ok, H. Qed.

Lemma new_world_ok k w : new_world k w -> world_ok k w w.
Proof.
  intros [E H]. split; [reflexivity|]. split.
  - intros i. destruct (H i) as (_ & _ & dom & Ed & V & L & Hn). exists dom. split; [exact Ed|]. exact (conj V (conj L Hn)).
  - rewrite E. left. split; reflexivity.
Qed.

(** ** Rows of a time step *)
Lemma rows_at_app s ts d fs : rows_at s ts {| t_ids := t_ids d; t_pos := t_pos d; t_fields := t_fields d ++ fs; t_attr := t_attr d;
    t_text := t_text d; t_comments := t_comments d; t_series := t_series d |}
  = rows_at s ts d ++ filter (fun r => (fr_sim r =? s)%Z && (fr_ts r =? ts)%Z) fs.
Proof. unfold rows_at. apply filter_app. Qed.

Lemma rows_at_fields s ts d d' fs : t_fields d' = t_fields d ++ fs ->
  rows_at s ts d' = rows_at s ts d ++ filter (fun r => (fr_sim r =? s)%Z && (fr_ts r =? ts)%Z) fs.
Proof. unfold rows_at. intros ->. apply filter_app. Qed.

Lemma filter_all' {A} (p : A -> bool) l : Forall (fun x => p x = true) l -> filter p l = l.
Proof. induction 1 as [|x l H _ IH]; [reflexivity|]. cbn. rewrite H, IH. reflexivity. Qed.

Lemma field_rows_at name ts s vs : forall i, Forall (fun r => fr_sim r = s /\ fr_ts r = ts /\ fr_name r = name) (field_rows name ts s vs i).
Proof. induction vs as [|v vs IH]; intros i; constructor; [repeat split|apply IH]. Qed.

Lemma all_rows_at s ts fs : Forall (fun r => fr_sim r = s /\ fr_ts r = ts /\ In (fr_name r) (map fst fs)) (all_rows s ts fs).
Proof.
  unfold all_rows. apply Forall_flat_map. apply Forall_forall. intros [n vs] Hin. assert (H := field_rows_at n ts s vs 0).
  revert H. apply Forall_impl. intros r (H1 & H2 & H3). rewrite H3. repeat split; auto. apply (in_map fst) in Hin. exact Hin.
Qed.

Lemma all_rows_filter s ts fs : filter (fun r => (fr_sim r =? s)%Z && (fr_ts r =? ts)%Z) (all_rows s ts fs) = all_rows s ts fs.
Proof.
  apply filter_all'. assert (H := all_rows_at s ts fs). revert H. apply Forall_impl. intros r (-> & -> & _). rewrite !Z.eqb_refl. reflexivity.
Qed.
Lemma all_rows_filter_other s ts s' ts' fs : s <> s' \/ ts <> ts' ->
  filter (fun r => (fr_sim r =? s')%Z && (fr_ts r =? ts')%Z) (all_rows s ts fs) = [].
Proof.
  intros Hne. apply filter_none. assert (H := all_rows_at s ts fs). revert H. apply Forall_impl. intros r (-> & -> & _).
  apply andb_false_iff. destruct Hne as [Hne|Hne]; [left|right]; apply Z.eqb_neq, Hne.
Qed.

Definition op_saves (o : dbop) (ts : Z) : bool := match o with OpSave _ ts' => (ts' =? ts)%Z | _ => false end.

Lemma exec_rows k h rnd o d n s ts : handle_ok k h ->
  ~ (h_sim (fst (fst (exec h rnd o d))) = s /\ exists fields, o = OpSave fields ts) ->
  rows_at s ts (apply_txns d (firstn n (snd (fst (exec h rnd o d))))) = rows_at s ts d.
Proof.
  intros Hh Hno.
  assert (Hplain : forall ps, Forall plain ps -> rows_at s ts (apply_txns d ps) = rows_at s ts d).
  { intros ps Hp. unfold rows_at. destruct (plain_keep ps Hp d) as [_ ->]. reflexivity. }
  assert (Hi := ensure_init_plain h rnd).
  destruct o as [fields epoch|text|kv|kv|kv ts'].
  2-5: unfold exec; destruct (ensure_init h rnd) as [h1 t0]; cbn [fst snd] in *; apply Hplain, Forall_firstn;
       apply Forall_app; split; [exact Hi|repeat constructor].
  destruct (exec_save h rnd fields epoch d k Hh) as (dom & t0 & t1 & j & Ed & Hdom & Eh & Edm & Etx & _ & Hpl & Hc1 & Hc2 & _).
  rewrite Etx. rewrite Eh in Hno. set (h1 := fst (ensure_init h rnd)) in *.
  assert (Hne : h_sim h1 <> s \/ epoch <> ts).
  { destruct (Z.eq_dec (h_sim h1) s) as [E1|E1]; [|left; exact E1]. destruct (Z.eq_dec epoch ts) as [E2|E2]; [|right; exact E2].
    exfalso. apply Hno. split; [exact E1|]. exists fields. congruence. }
  rewrite !firstn_app, !apply_txns_app, firstn_map. set (d1 := apply_txns d (firstn n t0)). set (d2 := apply_txns d1 _).
  assert (E1 : t_fields d1 = t_fields d) by apply (plain_keep (firstn n t0) (Forall_firstn _ n _ Hpl) d).
  assert (E2 : t_fields d2 = t_fields d1).
  { unfold d2. destruct (le_lt_dec (length (t_pos d)) 1) as [Hle|Hgt].
    - destruct (Hc2 Hle) as (rows & -> & _). destruct (n - length t0) as [|m]; [reflexivity|]. cbn [firstn]. rewrite firstn_nil. cbn [apply_txns].
      destruct d1; reflexivity.
    - rewrite (Hc1 Hgt), firstn_nil. reflexivity. }
  match goal with |- rows_at s ts (apply_txns d2 (map _ ?fs)) = _ => destruct (apply_fields h1 epoch fs d2) as [_ E3] end.
  erewrite rows_at_fields; [|rewrite E3, E2, E1; reflexivity]. rewrite all_rows_filter_other by exact Hne. apply app_nil_r.
Qed.

Lemma step_rows k w0 w e s ts : world_ok k w0 w ->
  ~ (sim_of w e = s /\ exists fields, ev_op e = OpSave fields ts) ->
  rows_at s ts (w_db (step w e)) = rows_at s ts (w_db w).
Proof.
  intros (_ & Hh & _). destruct (exec (w_handles w (ev_who e)) (ev_rnd e) (ev_op e) (w_db w)) as [[h txs] ok] eqn:E.
  destruct (step_db w e h txs ok E) as [-> ->]. destruct (done_firstn e txs) as (n & ->). intros Hno.
  assert (H := exec_rows k (w_handles w (ev_who e)) (ev_rnd e) (ev_op e) (w_db w) n s ts (Hh _)). rewrite E in H. apply H. exact Hno.
Qed.

Lemma run_rows k w0 s ts es : forall w, world_ok k w0 w -> ~ saved_at w es s ts ->
  rows_at s ts (w_db (run w es)) = rows_at s ts (w_db w).
Proof.
  induction es as [|e es IH]; intros w Hw H; [reflexivity|]. cbn [run saved_at] in *. rewrite IH.
  - apply (step_rows k w0); [exact Hw|]. intros H'. apply H. left. exact H'.
  - apply step_ok, Hw.
  - intros H'. apply H. right. exact H'.
Qed.

(** ** Load *)
Lemma set_nth_app {A} (a : list A) x b v : set_nth (length a) v (a ++ x :: b) = Some (a ++ v :: b).
Proof. induction a as [|y a IH]; cbn; [reflexivity|]. rewrite IH. reflexivity. Qed.
Lemma set_nth_some {A} (l : list A) : forall i v, i < length l -> exists l', set_nth i v l = Some l' /\ length l' = length l.
Proof.
  induction l as [|x l IH]; intros i v Hi; [cbn in Hi; lia|]. destruct i as [|i]; cbn.
  - eexists. split; reflexivity.
  - destruct (IH i v) as (l' & -> & L); [cbn in Hi; lia|]. eexists. split; [reflexivity|]. cbn. congruence.
Qed.

Lemma fill_app n a : forall b data, fill n (a ++ b) data = match fill n a data with Some x => fill n b x | None => None end.
Proof.
  induction a as [|r a IH]; intros b data; [reflexivity|]. cbn [app fill]. destruct (str_eqb (fr_name r) n); [|apply IH].
  destruct (set_nth _ _ _); [apply IH|reflexivity].
Qed.
Lemma fill_some n rows : forall data, Forall (fun r => fr_pos r < length data) rows -> exists data', fill n rows data = Some data' /\ length data' = length data.
Proof.
  induction rows as [|r rows IH]; intros data H; [exists data; split; reflexivity|]. inversion H as [|? ? H1 H2]; subst. cbn [fill].
  destruct (str_eqb (fr_name r) n); [|apply IH, H2]. destruct (set_nth_some data (fr_pos r) (RtoC (fr_value r)) H1) as (l' & -> & L).
  destruct (IH l') as (d' & -> & L'); [rewrite L; exact H2|]. exists d'. split; [reflexivity|congruence].
Qed.
Lemma fill_other n rows data : Forall (fun r => fr_name r <> n) rows -> fill n rows data = Some data.
Proof.
  intros H. revert data. induction H as [|r rows Hr _ IH]; intros data; [reflexivity|]. cbn [fill].
  destruct (str_eqb (fr_name r) n) eqn:E; [apply str_eqb_eq in E; contradiction|]. apply IH.
Qed.
Lemma fill_rows n ts s vs : forall a b c, length c = length vs ->
  fill n (field_rows n ts s vs (length a)) (a ++ c ++ b) = Some (a ++ real_parts vs ++ b).
Proof.
  induction vs as [|v vs IH]; intros a b c Hc.
  - destruct c; [reflexivity|discriminate].
  - destruct c as [|x c]; [discriminate|]. cbn [field_rows fill fr_name fr_pos fr_value]. rewrite str_eqb_refl.
    cbn [app]. rewrite set_nth_app. specialize (IH (a ++ [RtoC (fst v)]) b c).
    rewrite app_length in IH. cbn [length] in IH. rewrite Nat.add_1_r in IH. rewrite <- !app_assoc in IH. cbn [app] in IH.
    rewrite IH by (cbn in Hc; lia). reflexivity.
Qed.

Lemma fill_all s ts fs n vs data : NoDup (map fst fs) -> In (n, vs) fs -> length data = length vs ->
  fill n (all_rows s ts fs) data = Some (real_parts vs).
Proof.
  intros Hnd Hin L. induction fs as [|[m us] fs IH]; [destruct Hin|]. inversion Hnd as [|? ? Hm Hnd']; subst.
  change (all_rows s ts ((m, us) :: fs)) with (field_rows m ts s us 0 ++ all_rows s ts fs). rewrite fill_app. destruct Hin as [E|Hin].
  - injection E as -> ->. assert (Hf := fill_rows n ts s vs [] [] data L). cbn [app length] in Hf. rewrite !app_nil_r in Hf. rewrite Hf.
    apply fill_other. assert (H := all_rows_at s ts fs). revert H. apply Forall_impl. intros r (_ & _ & Hr) E. apply Hm. cbn. rewrite <- E. exact Hr.
  - rewrite fill_other; [apply IH; assumption|]. assert (H := field_rows_at m ts s us 0). revert H. apply Forall_impl.
    intros r (_ & _ & ->) E. apply Hm. subst m. apply (in_map fst) in Hin. exact Hin.
Qed.

Lemma distinct_In l x : In x (distinct l) <-> In x l.
Proof.
  induction l as [|y l IH]; [reflexivity|]. cbn [distinct]. destruct (existsb (str_eqb y) l) eqn:E.
  - rewrite IH. split; [right; assumption|]. intros [->|H]; [|exact H]. apply existsb_exists in E. destruct E as (z & Hz & Ez).
    apply str_eqb_eq in Ez. congruence.
  - cbn. rewrite IH. reflexivity.
Qed.
Lemma distinct_NoDup l : NoDup (distinct l).
Proof.
  induction l as [|y l IH]; [constructor|]. cbn [distinct]. destruct (existsb (str_eqb y) l) eqn:E; [exact IH|]. constructor; [|exact IH].
  rewrite distinct_In. intros H. assert (existsb (str_eqb y) l = true); [|congruence]. apply existsb_exists. exists y. split; [exact H|]. apply str_eqb_refl.
Qed.
Lemma names_at_In s ts d n : In n (names_at s ts d) <-> In n (map fr_name (rows_at s ts d)).
Proof.
  unfold names_at. rewrite <- (distinct_In (map fr_name _)). split; apply Permutation_in; [apply sort_perm|apply Permutation_sym, sort_perm].
Qed.
Lemma names_at_order s ts d : in_order (names_at s ts d).
Proof.
  split.
  - eapply Permutation_NoDup; [apply Permutation_sym, sort_perm|]. apply distinct_NoDup.
  - intros i j x y. apply sorted_s_nth. apply sort_sorted.
Qed.

Lemma load_names_spec names rows n : Forall (fun r => fr_pos r < n) rows ->
  exists r, load_names names rows n = Some r /\ map fst r = names
  /\ forall m data, In (m, data) r <-> In m names /\ fill m rows (repeat C0 n) = Some data.
Proof.
  intros H. assert (H' : Forall (fun r => fr_pos r < length (repeat C0 n)) rows) by (rewrite repeat_length; exact H).
  induction names as [|a names IH].
  - exists []. split; [reflexivity|]. split; [reflexivity|]. intros m data. cbn. tauto.
  - destruct IH as (r & E & M & Hr). destruct (fill_some a rows _ H') as (da & Ea & _). exists ((a, da) :: r).
    cbn [load_names]. rewrite Ea, E. split; [reflexivity|]. split; [cbn; congruence|]. intros m data. cbn [In]. rewrite Hr. split.
    + intros [E1|[H1 H2]]; [injection E1 as <- <-; auto|auto].
    + intros [[->|H1] H2]; [left; congruence|right; auto].
Qed.

(** Load on consistent tables. *)
Lemma load_spec P s ts d : db_ok P d ->
  exists r, load s ts d = Some r /\ in_order (map fst r) /\ (forall n, In n (map fst r) <-> In n (map fr_name (rows_at s ts d)))
  /\ forall m data, In (m, data) r <-> In m (map fr_name (rows_at s ts d)) /\ fill m (rows_at s ts d) (repeat C0 (length (t_pos d))) = Some data.
Proof.
  intros Hd. assert (H : Forall (fun r => fr_pos r < length (t_pos d)) (rows_at s ts d)).
  { unfold rows_at. destruct Hd as [[_ E]|(dom0 & _ & _ & H)]; [rewrite E; constructor|].
    rewrite Forall_forall in *. intros r Hr. apply filter_In in Hr. apply H, Hr. }
  destruct (load_names_spec (names_at s ts d) _ _ H) as (r & E & M & Hr). exists r. split; [exact E|]. rewrite M.
  split; [apply names_at_order|]. split; [intros n; apply names_at_In|]. intros m data. rewrite Hr, names_at_In. reflexivity.
Qed.
