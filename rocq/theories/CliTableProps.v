(** Property C50, continued: the table of all comments and the list of names
    and number of simulations of info. *)
From Verif Require Import CliSpec CliProofs CliProofs3 CliProps.
From Coq Require Import Lia.
Open Scope nat_scope.

(** The lines shown for a stored comment. *)
Definition comment_shown (r : crow) (block : list str) : Prop :=
  exists first more l ls, block = l :: ls /\ table_line l (dec (cr_sim r)) first
  /\ Forall2 (fun line text => table_line line (lit " ") text) ls more /\ wrapped (cr_value r) (first :: more).

(** The table of all comments has a block for each stored comment, in the order
    in which they were stored, under the identifier of its simulation. *)
Theorem C50_all_comments_partial : forall d printed,
  Forall (fun r => length (cr_value r) < 96 \/ In blank (firstn 97 (cr_value r))) (t_comments d) ->
  print_all_comments d = Some printed ->
  exists blocks, printed = concat blocks /\ Forall2 comment_shown (t_comments d) blocks.
Proof.
  intros d printed H. unfold print_all_comments. revert printed. induction H as [|r rows Hr _ IH]; intros printed E.
  - injection E as <-. exists []. split; [reflexivity|constructor].
  - cbn [print_comments] in E. destruct (print_comment (cr_sim r) (cr_value r)) as [a|] eqn:A; [|discriminate]. destruct (print_comments rows) as [b|] eqn:B; [|discriminate]. injection E as <-.
    destruct (IH b eq_refl) as (blocks & -> & F). exists (a :: blocks). split; [reflexivity|]. constructor; [|exact F]. exact (C50_comment_table_partial _ _ _ Hr A).
Qed.
Print Assumptions C50_all_comments_partial.

(** If all comments fit on a line, the table is printed and has one line for
    each comment, with the identifier and the whole text. *)
Theorem C50_short_comments : forall d, Forall (fun r => length (cr_value r) < 96) (t_comments d) ->
  exists printed, print_all_comments d = Some printed /\ Forall2 (fun r line => table_line line (dec (cr_sim r)) (cr_value r)) (t_comments d) printed.
Proof.
  intros d. unfold print_all_comments. induction 1 as [|r rows Hr _ IH].
  - exists []. split; [reflexivity|constructor].
  - destruct IH as (b & B & F). destruct (C50_short_comment (cr_sim r) _ Hr) as (l & A & T). exists (l :: b). cbn [print_comments]. rewrite A, B. split; [reflexivity|]. constructor; assumption.
Qed.
Print Assumptions C50_short_comments.

(** info shows all names, in order, with a comma and a blank between them. *)
Theorem C50_info_names : forall name x rest, exists p ps l ls,
  print_list name (x :: rest) = l :: ls /\ table_line l name p /\ Forall2 (fun line text => table_line line [] text) ls ps
  /\ concat (p :: ps) = x ++ concat (map (fun y => lit ", " ++ y) rest) /\ Forall (fun q => length q <= 60) (p :: ps).
Proof.
  intros name x rest. destruct (C50_info_list_complete name (x :: rest)) as (p & ps & l & ls & A & B & C & D & E). exists p, ps, l, ls. rewrite D. repeat split; try assumption.
  clear. revert x. induction rest as [|y rest IH]; intros x; [cbn; rewrite app_nil_r; reflexivity|]. cbn [join_list map concat]. rewrite <- app_assoc. f_equal. unfold comma_blank. f_equal. apply IH.
Qed.
Print Assumptions C50_info_names.

(** info shows the number of different simulations that registered themselves. *)
Lemma ids_after txs : forall d, NoDup (t_ids d) -> NoDup (t_ids (apply_txns d txs)) /\ (forall s, In s (t_ids (apply_txns d txs)) <-> In s (t_ids d) \/ In (TxId s) txs).
Proof.
  induction txs as [|t txs IH]; intros d Hd; [cbn; tauto|]. cbn [apply_txns].
  assert (Q : NoDup (t_ids (apply_txn d t)) /\ forall s, In s (t_ids (apply_txn d t)) <-> In s (t_ids d) \/ t = TxId s).
  { destruct d as [ids ps fs at_ tx cs ss]. cbn [t_ids] in *. destruct t as [s0| | | | | |]; cbn [apply_txn t_ids]; try (split; [exact Hd|]; intros s; split; [tauto|intros [H|H]; [exact H|discriminate]]).
    destruct (existsb (Z.eqb s0) ids) eqn:E.
    - apply existsb_exists in E. destruct E as (z & Hz & Ez). apply Z.eqb_eq in Ez. subst z. split; [exact Hd|]. intros s. split; [tauto|]. intros [H|H]; [exact H|]. injection H as <-. exact Hz.
    - assert (N : ~ In s0 ids) by (intros H; assert (existsb (Z.eqb s0) ids = true) by (apply existsb_exists; exists s0; split; [exact H|apply Z.eqb_refl]); congruence).
      split.
      + apply NoDup_Add with (a := s0) (l := ids); [|split; assumption]. replace ids with (ids ++ []) at 1 by apply app_nil_r. apply Add_app.
      + intros s. rewrite in_app_iff. cbn. split; [intros [H|[H|[]]]; subst; auto|intros [H|H]; [auto|injection H as <-; auto]]. }
  destruct Q as [Q1 Q2]. destruct (IH _ Q1) as [I1 I2]. split; [exact I1|]. intros s. rewrite I2, Q2. cbn [In]. tauto.
Qed.
Theorem C50_info_count : forall txs sims, NoDup sims -> (forall s, In s sims <-> In (TxId s) txs) ->
  info_count (apply_txns empty_db txs) = length sims.
Proof.
  intros txs sims N H. destruct (ids_after txs empty_db ltac:(constructor)) as [A B]. unfold info_count.
  apply Nat.le_antisymm; apply NoDup_incl_length; try assumption; intros s Hs.
  - apply H. apply B in Hs. destruct Hs as [[]|Hs]. exact Hs.
  - apply B. right. apply H. exact Hs.
Qed.
Print Assumptions C50_info_count.

Example C50_tables_nonvacuous :
  let d := Build_db [1; 2]%Z [] [] [] [] [{| cr_value := lit "first run"; cr_sim := 1 |}; {| cr_value := lit "finer grid"; cr_sim := 2 |}] [] in
  Forall (fun r => length (cr_value r) < 96) (t_comments d)
  /\ Forall (fun r => length (cr_value r) < 96 \/ In blank (firstn 97 (cr_value r))) (t_comments d)
  /\ (exists printed, print_all_comments d = Some printed)
  /\ info_count (apply_txns empty_db [TxId 1; TxPos [[0; 0; 0]%Z]; TxId 2; TxId 1]%Z) = 2.
Proof.
  cbv zeta. split; [|split; [|split]].
  - repeat constructor; cbn; lia.
  - repeat constructor; cbn; lia.
  - eexists. vm_compute. reflexivity.
  - apply (C50_info_count _ [1; 2]%Z).
    + constructor; [intros [H|[]]; discriminate|]. constructor; [intros []|constructor].
    + intros s. split.
      * intros [<-|[<-|[]]]; cbn; auto.
      * cbn. intros [H|[H|[H|[H|[]]]]]; try discriminate; injection H as <-; auto.
Qed.
