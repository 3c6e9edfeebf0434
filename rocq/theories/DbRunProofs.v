(** Lemmas for C113. *)
From Verif Require Import ListAux IndexSpec ParseProofs SolverSpec SolverProofs CheckpointProofs CsvRunModel CsvRunProofs DbRunModel.
From Verif Require Import DbSpec DbProofs DbProofs2 DbProofs3 DbProofs4 DbProofs5.
From Coq Require Import ZArith Lia Permutation.
Open Scope nat_scope.

Lemma saved_at_app s ts a b : forall w, saved_at w (a ++ b) s ts <-> saved_at w a s ts \/ saved_at (run w a) b s ts.
Proof. induction a as [|e a IH]; intros w; cbn [app saved_at run]; [tauto|]. rewrite IH. tauto. Qed.
Lemma run_app a b : forall w, run w (a ++ b) = run (run w a) b.
Proof. induction a as [|e a IH]; intros w; [reflexivity|]. cbn [app run]. apply IH. Qed.

Lemma exec_handle h rnd o d : fst (fst (exec h rnd o d)) = fst (ensure_init h rnd).
Proof.
  unfold exec. destruct (ensure_init h rnd) as [h1 t0]. destruct o; cbn [fst]; try reflexivity.
  destruct (if positions_populated _ then _ else _); [|reflexivity]. destruct (save_loop _ _ _ _). reflexivity.
Qed.
Lemma step_handle w e i : w_handles (step w e) i = if Nat.eqb i (ev_who e) then fst (ensure_init (w_handles w (ev_who e)) (ev_rnd e)) else w_handles w i.
Proof.
  unfold step. pose proof (exec_handle (w_handles w (ev_who e)) (ev_rnd e) (ev_op e) (w_db w)) as H. destruct (exec _ _ _ _) as [[h txs] ok]. cbn [fst] in H. cbn [w_handles]. rewrite H. reflexivity.
Qed.
Lemma sim_of_init w e : sim_of w e = h_sim (fst (ensure_init (w_handles w (ev_who e)) (ev_rnd e))).
Proof. unfold sim_of. rewrite step_handle, Nat.eqb_refl. reflexivity. Qed.
Lemma ensure_twice h rnd : fst (ensure_init (fst (ensure_init h rnd)) rnd) = fst (ensure_init h rnd).
Proof. unfold ensure_init, initialize. destruct (h_init h) eqn:E; cbn [fst]; [rewrite E; reflexivity|]. destruct (h_sim h =? 0)%Z; reflexivity. Qed.

Section Run.
  Variables (names : list str) (who : nat) (rnd : Z) (between : Z -> list DbModel.event) (c : nat) (s : Z).

  (** The number of the object is s, and no other object has it. *)
  Definition own (w : world) : Prop := h_sim (fst (ensure_init (w_handles w who) rnd)) = s /\ forall i, i <> who -> h_sim (w_handles w i) <> s.
  Lemma own_save w e : own w -> ev_who e = who -> ev_rnd e = rnd -> own (step w e) /\ sim_of w e = s.
  Proof.
    intros [H1 H2] Ew Er. split; [|rewrite sim_of_init, Ew, Er; exact H1]. split.
    - rewrite step_handle, Ew, Nat.eqb_refl, Er, ensure_twice. exact H1.
    - intros i Hi. rewrite step_handle, Ew. destruct (Nat.eqb_spec i who) as [->|_]; [contradiction|]. apply H2, Hi.
  Qed.
  Lemma own_other w e : own w -> ev_who e <> who -> ev_rnd e <> s -> own (step w e) /\ sim_of w e <> s.
  Proof.
    intros [H1 H2] Ew Er. assert (H : h_sim (fst (ensure_init (w_handles w (ev_who e)) (ev_rnd e))) <> s).
    { unfold ensure_init, initialize. destruct (h_init _); [apply H2, Ew|]. destruct (h_sim _ =? 0)%Z; cbn [fst h_sim]; [exact Er|apply H2, Ew]. }
    split; [|rewrite sim_of_init; exact H]. split.
    - rewrite step_handle. destruct (Nat.eqb_spec who (ev_who e)) as [E|_]; [congruence|exact H1].
    - intros i Hi. rewrite step_handle. destruct (Nat.eqb_spec i (ev_who e)) as [->|_]; [exact H|apply H2, Hi].
  Qed.
  Definition strangers (es : list DbModel.event) : Prop := forall e, In e es -> ev_who e <> who /\ ev_rnd e <> s.
  Lemma own_others es : forall w, own w -> strangers es -> own (run w es) /\ forall ts, ~ saved_at w es s ts.
  Proof.
    induction es as [|e es IH]; intros w Hw Hs; [split; [exact Hw|intros ts []]|]. cbn [run saved_at].
    destruct (own_other w e Hw) as [Hw1 Hn]; [apply Hs; left; reflexivity|apply Hs; left; reflexivity|].
    destruct (IH (step w e) Hw1 (fun x Hx => Hs x (or_intror Hx))) as [H1 H2]. split; [exact H1|]. intros ts [[E _]|H]; [exact (Hn E)|exact (H2 ts H)].
  Qed.

  (** The events of a list of calls. *)
  Fixpoint events_of (calls : list (Z * env)) : list DbModel.event :=
    match calls with [] => [] | (epoch, e) :: calls' => between epoch ++ save_event names who rnd epoch e :: events_of calls' end.
  Lemma own_events calls : forall w, own w -> (forall q, In q calls -> strangers (between (fst q))) ->
    own (run w (events_of calls)) /\ forall ts, saved_at w (events_of calls) s ts -> In ts (map fst calls).
  Proof.
    induction calls as [|[epoch e] calls IH]; intros w Hw Hs; [split; [exact Hw|intros ts []]|]. cbn [events_of].
    destruct (own_others (between epoch) w Hw (Hs _ (or_introl eq_refl))) as [Hw1 Hn1].
    destruct (own_save (run w (between epoch)) (save_event names who rnd epoch e) Hw1 eq_refl eq_refl) as [Hw2 _].
    destruct (IH _ Hw2 (fun q Hq => Hs q (or_intror Hq))) as [H1 H2]. split; [rewrite run_app; exact H1|].
    intros ts H. apply saved_at_app in H. destruct H as [H|H]; [destruct (Hn1 ts H)|]. cbn [saved_at] in H. destruct H as [[_ (fields & E)]|H].
    - left. cbn in E. injection E as _ E. cbn. exact E.
    - right. apply H2, H.
  Qed.

  (** SaveFields succeeds on a file that is used for one domain. *)
  Lemma save_completes k w0 w e fields epoch dom : world_ok k w0 w -> (forall i, h_dom (w_handles w0 i) = Some dom) -> ev_op e = OpSave fields epoch -> ev_crash e = None ->
    Forall (fun f => Z.of_nat (length (snd f)) = num_nodes dom) fields -> completes w e.
  Proof.
    intros (Hd & Hh & Hdb) Hdom Ho Hcr Hf. split; [exact Hcr|]. rewrite Ho.
    destruct (exec_save _ (ev_rnd e) fields epoch (w_db w) k (Hh (ev_who e))) as (dom' & t0 & t1 & j & Ed' & Hdm & Eh & Edm & Etx & _ & Hpl & Hc1 & Hc2 & _ & _ & _ & _ & Hiff).
    assert (dom' = dom). { rewrite Hd, Hdom in Ed'. congruence. } subst dom'. apply Hiff. right. destruct (plain_keep t0 Hpl (w_db w)) as [Ep _].
    assert (Hg : Forall (good_field (fst (ensure_init (w_handles w (ev_who e)) (ev_rnd e)))) fields).
    { revert Hf. apply Forall_impl. intros f Hf. unfold good_field, dom_list. rewrite Edm, prod_int_num. exact Hf. }
    split; [|exact Hg]. assert (Hk := Hdm). destruct Hdm as (V & Lk & Hn). destruct Hdb as [[P1 P2]|(dom0 & (i & Hi) & [Hp _])].
    - destruct Hc2 as (rows & -> & Er); [rewrite P1; cbn; lia|].
      destruct (rows_positions_of dom (apply_txns (w_db w) t0) rows) as [Hp _]; [exact (conj V (conj eq_refl Hn))|rewrite Ep; exact P1|exact Er|].
      apply (domain_ok_same dom dom _ _ Hp Edm eq_refl). reflexivity.
    - rewrite Hdom in Hi. injection Hi as <-. assert (Hl : 1 < length (t_pos (w_db w))) by (destruct Hp as (_ & L & _); lia). rewrite (Hc1 Hl). cbn [apply_txns].
      apply (domain_ok_same dom dom); [|exact Edm|reflexivity|reflexivity]. destruct Hp as (Q1 & Q2 & Q3). unfold positions_of. rewrite Ep. split; [exact Q1|]. split; [exact Q2|exact Q3].
  Qed.

  Fixpoint save_calls (calls : list (Z * env)) (w : world) : option world :=
    match calls with
    | [] => Some w
    | (epoch, e) :: calls' =>
        let w1 := run w (between epoch) in let ev := save_event names who rnd epoch e in
        if snd (exec (w_handles w1 who) rnd (ev_op ev) (w_db w1)) then save_calls calls' (step w1 ev) else None
    end.
  Lemma db_calls : forall tr w, db_after names who rnd between c tr w = save_calls (calls_of c tr) w.
  Proof.
    induction tr as [|ev tr IH]; intros w; [reflexivity|]. destruct ev as [t r x|k epoch x|q x]; cbn [db_after calls_of flat_map]; try apply IH.
    destruct (Nat.eqb k c); [|apply IH]. cbn [app save_calls]. cbv zeta. destruct (snd _); [apply IH|reflexivity].
  Qed.
  Lemma save_calls_run k w0 dom calls : (forall i, h_dom (w_handles w0 i) = Some dom) ->
    (forall q, In q calls -> Forall (fun f => Z.of_nat (length (snd f)) = num_nodes dom) (combine names (e_fields (snd q)))) ->
    forall w, world_ok k w0 w -> save_calls calls w = Some (run w (events_of calls)).
  Proof.
    intros Hdom. induction calls as [|[epoch e] calls IH]; intros Hf w Hw; [reflexivity|]. cbn [save_calls events_of]. cbv zeta.
    assert (Hw1 := run_ok k w0 (between epoch) w Hw).
    destruct (save_completes k w0 _ (save_event names who rnd epoch e) (combine names (e_fields e)) epoch dom Hw1 Hdom eq_refl eq_refl (Hf _ (or_introl eq_refl))) as [_ Hc].
    cbn [ev_who ev_rnd save_event] in Hc. rewrite Hc, run_app. cbn [run]. apply IH; [intros q Hq; apply Hf; right; exact Hq|]. apply step_ok, Hw1.
  Qed.
  Lemma events_app a b : events_of (a ++ b) = events_of a ++ events_of b.
  Proof. induction a as [|[epoch e] a IH]; [reflexivity|]. cbn [app events_of]. rewrite IH, <- app_assoc. reflexivity. Qed.
  (** What is read for one of the calls. *)
  Lemma call_read k w0 before dom pre epoch e post : new_world k w0 -> (forall i, h_dom (w_handles w0 i) = Some dom) -> own (run w0 before) ->
    (forall q, In q (pre ++ (epoch, e) :: post) -> strangers (between (fst q))) -> NoDup (map fst (pre ++ (epoch, e) :: post)) ->
    Forall (fun f => Z.of_nat (length (snd f)) = num_nodes dom) (combine names (e_fields e)) -> NoDup (map fst (combine names (e_fields e))) ->
    ~ saved_at w0 before s epoch ->
    exists r, load s epoch (w_db (run (run w0 before) (events_of (pre ++ (epoch, e) :: post)))) = Some r /\ in_order (map fst r) /\ Permutation r (as_saved (combine names (e_fields e))).
  Proof.
    intros HN Hdom Ho Hst ND Hl Hnd Hno. rewrite events_app. cbn [events_of].
    destruct (own_events pre (run w0 before) Ho) as [Ho1 Hp]; [intros q Hq; apply Hst, in_or_app; left; exact Hq|].
    destruct (own_others (between epoch) _ Ho1) as [Ho2 Hb]; [apply (Hst (epoch, e)), in_or_app; right; left; reflexivity|].
    set (h := before ++ events_of pre ++ between epoch). set (ev := save_event names who rnd epoch e).
    assert (Ew : run w0 h = run (run (run w0 before) (events_of pre)) (between epoch)) by (unfold h; rewrite !run_app; reflexivity).
    destruct (own_save _ ev Ho2 eq_refl eq_refl) as [Ho3 Es].
    assert (Hc : completes (run w0 h) ev). { apply (save_completes k w0 (run w0 h) ev (combine names (e_fields e)) epoch dom); [apply run_ok, new_world_ok, HN|exact Hdom|reflexivity|reflexivity|exact Hl]. }
    rewrite map_app in ND. cbn [map fst] in ND.
    assert (Hlater : ~ saved_at (step (run w0 h) ev) (events_of post) s epoch).
    { intros H. rewrite Ew in H. destruct (own_events post _ Ho3) as [_ Hq]; [intros q Hq; apply Hst, in_or_app; right; right; exact Hq|].
      apply Hq in H. apply NoDup_remove_2 in ND. apply ND, in_or_app. right. exact H. }
    assert (Hbefore : ~ saved_at w0 h s epoch).
    { intros H. unfold h in H. apply saved_at_app in H. destruct H as [H|H]; [exact (Hno H)|]. apply saved_at_app in H. destruct H as [H|H]; [|exact (Hb epoch H)].
      apply Hp in H. apply NoDup_remove_2 in ND. apply ND, in_or_app. left. exact H. }
    destruct (read_back k w0 h ev (combine names (e_fields e)) epoch (events_of post) HN) as (r & E & H1 & _ & H2); [reflexivity|exact Hnd|exact Hc|rewrite Ew, Es, <- Ew; exact Hlater|].
    rewrite Ew, Es in E, H2. exists r. rewrite !run_app. cbn [run]. split; [exact E|]. split; [exact H1|]. apply H2. rewrite <- Es. rewrite Es. exact Hbefore.
  Qed.
End Run.

(** LoadLast reads the last step. *)
Lemma load_nonempty P s ts d : db_ok P d -> (load s ts d <> Some [] <-> exists r, In r (t_fields d) /\ fr_sim r = s /\ fr_ts r = ts).
Proof.
  intros Hd. split.
  - intros H. destruct (rows_at s ts d) as [|r rows] eqn:E; [exfalso; apply H, load_no_rows, E|]. exists r. assert (Hin : In r (rows_at s ts d)) by (rewrite E; left; reflexivity).
    unfold rows_at in Hin. apply filter_In in Hin. destruct Hin as [Hin Hb]. apply andb_prop in Hb. destruct Hb as [B1 B2]. apply Z.eqb_eq in B1, B2. auto.
  - intros (r & Hin & E1 & E2) H. destruct (load_spec P s ts d Hd) as (l & El & _ & Hn & _). rewrite H in El. injection El as <-.
    apply (proj2 (Hn (fr_name r))). apply in_map. unfold rows_at. apply filter_In. split; [exact Hin|]. rewrite E1, E2, !Z.eqb_refl. reflexivity.
Qed.
Lemma last_is P s d ts : db_ok P d -> load s ts d <> Some [] -> (forall t, load s t d <> Some [] -> (t <= ts)%Z) -> last_step s d = ts.
Proof.
  intros Hd H Hle. unfold last_step. apply list_max_eq.
  - apply (load_nonempty P s ts d Hd) in H. destruct H as (r & H1 & H2 & H3). rewrite <- H3. apply in_map. apply filter_In. split; [exact H1|]. apply Z.eqb_eq, H2.
  - intros x Hx. apply in_map_iff in Hx. destruct Hx as (r & <- & Hr). apply filter_In in Hr. destruct Hr as [Hr E]. apply Z.eqb_eq in E.
    apply Hle. apply (load_nonempty P s (fr_ts r) d Hd). exists r. auto.
Qed.
