(** Proofs about wrapped texts and tables of attributes. *)
From Verif Require Import ParseProofs IndexProofs FileProofs DbProofs DbProofs2 DbProofs3 CliSpec CliProofs.
Open Scope nat_scope.

(** ** Wrapped comments *)
Lemma cws_spec line : forall i e, closest_white_space line i = Some e ->
  i < length line /\ e <= i
  /\ (nth_error line e = Some blank \/ e = 0 /\ forall j, j <= i -> nth_error line j <> Some blank).
Proof.
  induction i as [|i IH]; intros e H; cbn [closest_white_space] in H.
  - destruct (nth_error line 0) as [c|] eqn:E; [|discriminate].
    assert (0 < length line) by (apply nth_error_Some; rewrite E; discriminate).
    destruct (Ascii.eqb c blank) eqn:Ec; inversion H; subst e; repeat split; auto.
    + left. rewrite E. f_equal. apply Ascii.eqb_eq. exact Ec.
    + right. split; [reflexivity|]. intros j Hj. assert (j = 0) by lia. subst j. rewrite E. intros C. inversion C. subst c.
      rewrite Ascii.eqb_refl in Ec. discriminate.
  - destruct (nth_error line (S i)) as [c|] eqn:E; [|discriminate].
    assert (S i < length line) by (apply nth_error_Some; rewrite E; discriminate).
    destruct (Ascii.eqb c blank) eqn:Ec.
    + inversion H; subst e. repeat split; auto. left. rewrite E. f_equal. apply Ascii.eqb_eq. exact Ec.
    + destruct (IH e H) as (H1 & H2 & H3). repeat split; [lia|lia|]. destruct H3 as [H3|[H3 H4]]; [left; exact H3|].
      right. split; [exact H3|]. intros j Hj. destruct (Nat.eq_dec j (S i)) as [->|]; [|apply H4; lia].
      rewrite E. intros C. inversion C. subst c. rewrite Ascii.eqb_refl in Ec. discriminate.
Qed.

Lemma slice_some {A} (s : list A) a b x : slice s a b = Some x -> a <= b /\ b <= length s /\ x = firstn (b - a) (skipn a s).
Proof.
  unfold slice. destruct ((a <=? b) && (b <=? length s)) eqn:E; [|discriminate]. intros H. inversion H.
  apply andb_prop in E. destruct E as [E1 E2]. apply Nat.leb_le in E1. apply Nat.leb_le in E2. auto.
Qed.

Lemma skipn_add {A} : forall a b (s : list A), skipn b (skipn a s) = skipn (b + a) s.
Proof.
  induction a as [|a IH]; intros b s; [rewrite Nat.add_0_r; reflexivity|].
  destruct s as [|x s]; [rewrite !skipn_nil; reflexivity|]. rewrite Nat.add_succ_r. cbn [skipn]. apply IH.
Qed.

Lemma skipn_cut {A} (s : list A) a e c : a <= e -> nth_error s e = Some c ->
  skipn a s = firstn (e - a) (skipn a s) ++ c :: skipn (e + 1) s.
Proof.
  intros Ha He. rewrite <- (firstn_skipn (e - a) (skipn a s)) at 1. f_equal.
  rewrite skipn_add. replace (e - a + a) with e by lia.
  apply nth_error_split in He. destruct He as (l1 & l2 & -> & <-).
  rewrite skipn_app, skipn_all, Nat.sub_diag. cbn [skipn app]. f_equal.
  rewrite skipn_app, skipn_all2 by lia. replace (length l1 + 1 - length l1) with 1 by lia. reflexivity.
Qed.

Lemma join_cons_ne (c : ascii) x l : l <> [] -> join_char c (x :: l) = x ++ c :: join_char c l.
Proof. destruct l; [contradiction|reflexivity]. Qed.

Lemma tail_lines c start : length c < start + comment_width -> start <= length c -> forall n,
  comment_lines n c start = Some (repeat (skipn start c) n).
Proof.
  intros H Hs. assert (E : slice c start (length c) = Some (skipn start c)).
  { unfold slice. rewrite (proj2 (Nat.leb_le _ _) Hs), Nat.leb_refl. cbn [andb]. f_equal. apply firstn_all2. rewrite skipn_length. lia. }
  induction n as [|n IH]; cbn [comment_lines repeat]; [reflexivity|].
  rewrite (proj2 (Nat.ltb_lt _ _) H), E, IH. reflexivity.
Qed.

Lemma lines_wrapped c : (forall t e, comment_width <= t -> closest_white_space c t = Some e -> nth_error c e = Some blank) ->
  forall n start ls, 0 < n -> start <= length c -> comment_lines n c start = Some ls -> wrapped (skipn start c) ls.
Proof.
  intros G. induction n as [|n IH]; intros start ls Hn Hs H; [lia|].
  destruct (length c <? start + comment_width) eqn:E.
  - apply Nat.ltb_lt in E. rewrite (tail_lines c start E Hs) in H. inversion H. right.
    exists [skipn start c], n. split; [discriminate|]. split; reflexivity.
  - cbn [comment_lines] in H. rewrite E in H. apply Nat.ltb_ge in E.
    destruct (closest_white_space c (start + comment_width)) as [e|] eqn:Ec; [|discriminate].
    destruct (slice c start e) as [x|] eqn:Es; [|discriminate].
    destruct (comment_lines n c (e + 1)) as [r|] eqn:Er; [|discriminate]. inversion H; subst ls. clear H.
    destruct (slice_some _ _ _ _ Es) as (S1 & S2 & S3).
    pose proof (cws_spec c _ _ Ec) as (C1 & C2 & _).
    assert (Cb : nth_error c e = Some blank) by (apply (G (start + comment_width)); [lia|exact Ec]).
    assert (Cut : skipn start c = x ++ blank :: skipn (e + 1) c) by (rewrite S3; apply skipn_cut; assumption).
    assert (He : e + 1 <= length c) by (assert (e < length c) by (apply nth_error_Some; rewrite Cb; discriminate); lia).
    destruct n as [|n].
    + cbn in Er. inversion Er. left. exists (skipn (e + 1) c). split; [discriminate|]. rewrite Cut. reflexivity.
    + destruct (IH (e + 1) r ltac:(lia) He Er) as [(tail & Hne & Ht)|(whole & m & Hne & Hr & Ht)].
      * left. exists tail. split; [discriminate|]. rewrite Cut, Ht, join_cons_ne by exact Hne. rewrite <- app_assoc. reflexivity.
      * right. exists (x :: whole), m. split; [discriminate|]. split.
        -- rewrite Hr. cbn [app]. f_equal. f_equal. f_equal. destruct whole; [contradiction|reflexivity].
        -- rewrite join_cons_ne, Ht, Cut by exact Hne. reflexivity.
Qed.

Lemma comment_wrapped c ls : length c < comment_width \/ In blank (firstn (comment_width + 1) c) ->
  wrap_comment c = Some ls -> wrapped c ls.
Proof.
  intros [H|H] E.
  - unfold wrap_comment in E. rewrite (Nat.div_small _ _ H) in E. change (0 + 1) with 1 in E.
    rewrite (tail_lines c 0) in E by lia. inversion E. right. exists [c], 0. split; [discriminate|]. split; reflexivity.
  - apply In_nth_error in H. destruct H as [j Hj].
    assert (Hl : j < length (firstn (comment_width + 1) c)) by (apply nth_error_Some; rewrite Hj; discriminate).
    rewrite firstn_length in Hl.
    assert (Hb : nth_error c j = Some blank).
    { rewrite <- (firstn_skipn (comment_width + 1) c). rewrite nth_error_app1; [exact Hj|]. rewrite firstn_length. lia. }
    apply (lines_wrapped c) with (n := length c / comment_width + 1) (start := 0); [|lia|lia|exact E].
    intros t e Ht Ec. destruct (cws_spec _ _ _ Ec) as (C1 & C2 & [C3|[C3 C4]]); [exact C3|].
    exfalso. apply (C4 j); [lia|exact Hb].
Qed.

Lemma exactly_96_panics c : length c = comment_width -> wrap_comment c = None.
Proof.
  intros H. unfold wrap_comment. rewrite H. change (comment_width / comment_width + 1) with 2. cbn [comment_lines].
  rewrite H. change (comment_width <? 0 + comment_width) with false. cbn [closest_white_space].
  destruct (closest_white_space c (0 + comment_width)) as [e|] eqn:E; [|reflexivity].
  destruct (cws_spec _ _ _ E) as (C & _). rewrite H in C. cbn in C. lia.
Qed.

Lemma short_comment c : length c < comment_width -> wrap_comment c = Some [c].
Proof.
  intros H. unfold wrap_comment. rewrite (Nat.div_small _ _ H). change (0 + 1) with 1.
  rewrite (tail_lines c 0) by lia. reflexivity.
Qed.
