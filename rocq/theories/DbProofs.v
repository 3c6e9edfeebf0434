From Verif Require Import ListAux IndexSpec IndexProofs ParseProofs DbSpec.
From Coq Require Import Sorting.Permutation FunctionalExtensionality.
Open Scope nat_scope.

(** ** Isolation *)
Definition txn_of (s : Z) (t : txn) : Prop :=
  match t with
  | TxId _ | TxPos _ => True
  | TxFields rows => Forall (fun r => fr_sim r = s) rows
  | TxAttr rows => Forall (fun r => ar_sim r = s) rows
  | TxText rows => Forall (fun r => tr_sim r = s) rows
  | TxComment r => cr_sim r = s
  | TxSeries rows => Forall (fun r => sr_sim r = s) rows
  end.

Lemma filter_none {A} (p : A -> bool) l : Forall (fun x => p x = false) l -> filter p l = [].
Proof. induction 1 as [|x l H _ IH]; [reflexivity|]. cbn. rewrite H. exact IH. Qed.

Lemma filter_other {A} (f : A -> Z) (rows old : list A) s s' : s <> s' -> Forall (fun r => f r = s) rows ->
  filter (fun r => Z.eqb (f r) s') (old ++ rows) = filter (fun r => Z.eqb (f r) s') old.
Proof.
  intros Hne H. rewrite filter_app, (filter_none _ rows), app_nil_r; [reflexivity|].
  revert H. apply Forall_impl. intros r ->. apply Z.eqb_neq, Hne.
Qed.

Lemma apply_txn_other s s' d t : s <> s' -> txn_of s t -> stored_for s' (apply_txn d t) = stored_for s' d.
Proof.
  intros Hne Ht. destruct d as [ids ps fs at_ tx cs ss]. destruct t; cbn [apply_txn txn_of] in *;
    unfold stored_for; cbn [t_fields t_attr t_text t_comments t_series]; try reflexivity; f_equal;
    try (apply filter_other with (s := s); assumption).
  apply filter_other with (s := s); [assumption|constructor; [assumption|constructor]].
Qed.

Lemma apply_txns_other s s' ts d : s <> s' -> Forall (txn_of s) ts -> stored_for s' (apply_txns d ts) = stored_for s' d.
Proof.
  intros Hne H. revert d. induction H as [|t ts Ht _ IH]; intros d; [reflexivity|]. cbn [apply_txns].
  rewrite IH. apply apply_txn_other with (s := s); assumption.
Qed.

Lemma field_rows_sim name ts s vs i : Forall (fun r => fr_sim r = s) (field_rows name ts s vs i).
Proof. revert i. induction vs as [|v vs IH]; intros i; constructor; [reflexivity|apply IH]. Qed.

Lemma save_loop_txns h ts fs d : Forall (txn_of (h_sim h)) (fst (save_loop h ts fs d)).
Proof.
  revert d. induction fs as [|[n vs] fs IH]; intros d; [constructor|]. cbn [save_loop].
  unfold insert_real_part. destruct (domain_size_ok h d) as [[|]|]; try constructor.
  destruct (Z.of_nat (length vs) =? prod_int (dom_list h))%Z; [|constructor].
  set (t := TxFields _). specialize (IH (apply_txn d t)). destruct (save_loop h ts fs (apply_txn d t)) as [txs ok].
  cbn [fst] in *. constructor; [|exact IH]. apply field_rows_sim.
Qed.

Lemma ensure_init_txns h rnd s : Forall (txn_of s) (snd (ensure_init h rnd)).
Proof. unfold ensure_init, initialize. destruct (h_init h); [constructor|]. destruct (_ =? _)%Z; repeat constructor. Qed.

Lemma exec_txns h rnd o d h' txs ok : exec h rnd o d = (h', txs, ok) -> Forall (txn_of (h_sim h')) txs.
Proof.
  unfold exec. assert (H0 := ensure_init_txns h rnd). destruct (ensure_init h rnd) as [h1 t0] eqn:E1. cbn [snd] in H0.
  destruct o as [fields epoch|text|kv|kv|kv ts].
  - set (pops := if positions_populated _ then _ else _).
    assert (Hp : forall t1, pops = Some t1 -> Forall (txn_of (h_sim h1)) t1).
    { intros t1. unfold pops. destruct (positions_populated _); [intros E; injection E as <-; constructor|].
      destruct (position_rows _ _); [|discriminate]. intros E; injection E as <-. repeat constructor. }
    destruct pops as [t1|].
    + assert (H2 := save_loop_txns h1 epoch fields (apply_txns (apply_txns d t0) t1)).
      destruct (save_loop h1 epoch fields _) as [t2 ok2]. cbn [fst] in H2. intros E; injection E as <- <- <-.
      apply Forall_app. split; [apply H0|]. apply Forall_app. split; [apply Hp; reflexivity|exact H2].
    + intros E; injection E as <- <- <-. apply H0.
  - intros E; injection E as <- <- <-. apply Forall_app. split; [apply H0|]. repeat constructor.
  - intros E; injection E as <- <- <-. apply Forall_app. split; [apply H0|]. constructor; [|constructor]. cbn [txn_of].
    apply Forall_map. apply Forall_forall. reflexivity.
  - intros E; injection E as <- <- <-. apply Forall_app. split; [apply H0|]. constructor; [|constructor]. cbn [txn_of].
    apply Forall_map. apply Forall_forall. reflexivity.
  - intros E; injection E as <- <- <-. apply Forall_app. split; [apply H0|]. constructor; [|constructor]. cbn [txn_of].
    apply Forall_map. apply Forall_forall. reflexivity.
Qed.

Definition done_txns (e : event) (txs : list txn) : list txn :=
  match ev_crash e with Some n => firstn n txs | None => txs end.
Lemma done_incl e txs : incl (done_txns e txs) txs.
Proof.
  unfold done_txns. destruct (ev_crash e) as [n|]; [|apply incl_refl].
  intros t Ht. rewrite <- (firstn_skipn n txs). apply in_or_app. left. exact Ht.
Qed.

Lemma step_db w e h txs ok : exec (w_handles w (ev_who e)) (ev_rnd e) (ev_op e) (w_db w) = (h, txs, ok) ->
  w_db (step w e) = apply_txns (w_db w) (done_txns e txs) /\ sim_of w e = h_sim h.
Proof.
  intros E. unfold sim_of, step. rewrite E. cbn [w_db w_handles]. rewrite Nat.eqb_refl. split; reflexivity.
Qed.

Lemma step_other w e s : sim_of w e <> s -> stored_for s (w_db (step w e)) = stored_for s (w_db w).
Proof.
  destruct (exec (w_handles w (ev_who e)) (ev_rnd e) (ev_op e) (w_db w)) as [[h txs] ok] eqn:E. destruct (step_db w e h txs ok E) as [-> ->].
  intros Hne. apply apply_txns_other with (s := h_sim h); [exact Hne|].
  apply Forall_forall. intros t Ht. apply exec_txns in E. rewrite Forall_forall in E. apply E, (done_incl e), Ht.
Qed.

Theorem isolation w es s : ~ In s (sims_writing w es) -> stored_for s (w_db (run w es)) = stored_for s (w_db w).
Proof.
  revert w. induction es as [|e es IH]; intros w H; [reflexivity|]. cbn [run sims_writing] in *.
  rewrite IH by (intros H'; apply H; right; exact H'). apply step_other. intros E. apply H. left. exact E.
Qed.

(** ** Positions never change once present *)
Lemma apply_txns_app d a b : apply_txns d (a ++ b) = apply_txns (apply_txns d a) b.
Proof. revert d. induction a as [|t a IH]; intros d; [reflexivity|]. apply IH. Qed.

Definition no_pos (t : txn) : Prop := match t with TxPos _ => False | _ => True end.
Lemma no_pos_keep d ts : Forall no_pos ts -> t_pos (apply_txns d ts) = t_pos d.
Proof.
  intros H. revert d. induction H as [|t ts Ht _ IH]; intros d; [reflexivity|]. cbn [apply_txns]. rewrite IH.
  destruct d, t; try reflexivity. destruct Ht.
Qed.

Lemma save_loop_no_pos h ts fs d : Forall no_pos (fst (save_loop h ts fs d)).
Proof.
  revert d. induction fs as [|[n vs] fs IH]; intros d; [constructor|]. cbn [save_loop].
  unfold insert_real_part. destruct (domain_size_ok h d) as [[|]|]; try constructor.
  destruct (Z.of_nat (length vs) =? prod_int (dom_list h))%Z; [|constructor].
  set (t := TxFields _). specialize (IH (apply_txn d t)). destruct (save_loop h ts fs (apply_txn d t)) as [txs ok].
  cbn [fst] in *. constructor; [exact I|exact IH].
Qed.

Lemma ensure_init_no_pos h rnd : Forall no_pos (snd (ensure_init h rnd)).
Proof. unfold ensure_init, initialize. destruct (h_init h); [constructor|]. destruct (_ =? _)%Z; repeat constructor. Qed.

Lemma init_pos h rnd h1 t0 d : ensure_init h rnd = (h1, t0) -> t_pos (apply_txns d t0) = t_pos d.
Proof. intros E. apply no_pos_keep. assert (H := ensure_init_no_pos h rnd). rewrite E in H. exact H. Qed.

Lemma exec_no_pos h rnd o d h' txs ok : exec h rnd o d = (h', txs, ok) -> 1 < length (t_pos d) -> Forall no_pos txs.
Proof.
  unfold exec. assert (H0 := ensure_init_no_pos h rnd). destruct (ensure_init h rnd) as [h1 t0] eqn:E1. cbn [snd] in H0.
  intros E Hp. destruct o as [fields epoch|text|kv|kv|kv ts].
  - unfold positions_populated in E. rewrite (init_pos h rnd h1 t0 d E1) in E.
    destruct (Nat.ltb_spec 1 (length (t_pos d))) as [_|Hx]; [|lia].
    assert (H2 := save_loop_no_pos h1 epoch fields (apply_txns (apply_txns d t0) [])).
    destruct (save_loop h1 epoch fields _) as [t2 ok2]. injection E as <- <- <-. apply Forall_app. split; [exact H0|]. exact H2.
  - injection E as <- <- <-. apply Forall_app. split; [exact H0|repeat constructor].
  - injection E as <- <- <-. apply Forall_app. split; [exact H0|repeat constructor].
  - injection E as <- <- <-. apply Forall_app. split; [exact H0|repeat constructor].
  - injection E as <- <- <-. apply Forall_app. split; [exact H0|repeat constructor].
Qed.

Lemma step_pos w e : 1 < length (t_pos (w_db w)) -> t_pos (w_db (step w e)) = t_pos (w_db w).
Proof.
  intros Hp. destruct (exec (w_handles w (ev_who e)) (ev_rnd e) (ev_op e) (w_db w)) as [[h txs] ok] eqn:E. destruct (step_db w e h txs ok E) as [-> _].
  apply no_pos_keep. apply Forall_forall. intros t Ht. apply (exec_no_pos _ _ _ _ _ _ _ E) in Hp. rewrite Forall_forall in Hp.
  apply Hp, (done_incl e), Ht.
Qed.

Lemma run_pos es : forall w, 1 < length (t_pos (w_db w)) -> t_pos (w_db (run w es)) = t_pos (w_db w).
Proof.
  induction es as [|e es IH]; intros w H; [reflexivity|]. cbn [run]. rewrite IH; rewrite step_pos by exact H; auto.
Qed.

(** Load only looks at the rows of the simulation and the number of positions. *)
Lemma rows_at_view s ts d : rows_at s ts d = filter (fun r => Z.eqb (fr_ts r) ts) (sd_fields (stored_for s d)).
Proof.
  unfold rows_at, stored_for. cbn [sd_fields]. induction (t_fields d) as [|r l IH]; [reflexivity|]. cbn [filter].
  destruct (Z.eqb (fr_sim r) s); cbn [andb filter]; [destruct (Z.eqb (fr_ts r) ts); rewrite IH; reflexivity|exact IH].
Qed.

Lemma load_view s ts d d' : stored_for s d = stored_for s d' -> length (t_pos d) = length (t_pos d') -> load s ts d = load s ts d'.
Proof. intros E H. unfold load, names_at. rewrite !rows_at_view, E, H. reflexivity. Qed.

Lemma load_last_view s d d' : stored_for s d = stored_for s d' -> length (t_pos d) = length (t_pos d') -> load_last s d = load_last s d'.
Proof.
  intros E H. unfold load_last, last_step. change (filter (fun r => (fr_sim r =? s)%Z) (t_fields d)) with (sd_fields (stored_for s d)).
  change (filter (fun r => (fr_sim r =? s)%Z) (t_fields d')) with (sd_fields (stored_for s d')). rewrite E.
  apply load_view; assumption.
Qed.
