(** Proofs about the commands that list data. *)
From Verif Require Import ParseProofs IndexProofs FileProofs DbProofs DbProofs2 DbProofs3 CliSpec.
Open Scope nat_scope.

(** ** The last match *)
Fixpoint lastval {A V} (p : A -> bool) (g : A -> V) (rows : list A) (cur : V) : V :=
  match rows with [] => cur | r :: rows' => lastval p g rows' (if p r then g r else cur) end.

Lemma lastval_spec {A V} (p : A -> bool) (g : A -> V) rows : forall cur,
  (exists x, last_with (fun r => p r = true) rows x /\ lastval p g rows cur = g x)
  \/ ((forall y, In y rows -> p y = false) /\ lastval p g rows cur = cur).
Proof.
  induction rows as [|r rows IH]; intros cur; cbn [lastval].
  - right. split; [intros y []|reflexivity].
  - destruct (IH (if p r then g r else cur)) as [(x & (b & a & E & Hp & Ha) & Hx)|[Hn Hx]].
    + left. exists x. split; [|exact Hx]. exists (r :: b), a. rewrite E. repeat split; auto.
    + destruct (p r) eqn:Ep.
      * left. exists r. split; [|exact Hx]. exists [], rows. repeat split; auto.
        intros y Hy C. rewrite (Hn y Hy) in C. discriminate.
      * right. split; [|exact Hx]. intros y [<-|Hy]; auto.
Qed.

Lemma last_with_ext {A} (P Q : A -> Prop) l x : (forall y, In y l -> (P y <-> Q y)) -> last_with P l x -> last_with Q l x.
Proof.
  intros H (b & a & E & Hp & Ha). exists b, a. split; [exact E|].
  assert (I : forall y, In y (x :: a) -> In y l) by (intros y Hy; rewrite E; apply in_or_app; now right).
  split; [apply H; [apply I; now left|exact Hp]|]. intros y Hy C. apply (Ha y Hy). apply H; [apply I; now right|exact C].
Qed.

Lemma filter_split {A} (q : A -> bool) l : forall b x a, filter q l = b ++ x :: a ->
  exists b' a', l = b' ++ x :: a' /\ filter q b' = b /\ filter q a' = a /\ q x = true.
Proof.
  induction l as [|y l IH]; intros b x a E; [destruct b; discriminate|].
  cbn [filter] in E. destruct (q y) eqn:Eq.
  - destruct b as [|b0 b]; cbn [app] in E; inversion E as [[E1 E2]].
    + subst y. exists [], l. repeat split; auto.
    + destruct (IH b x a E2) as (b' & a' & F1 & F2 & F3 & F4).
      exists (y :: b'), a'. rewrite F1. cbn [filter app]. rewrite <- E1, Eq, F2. repeat split; auto.
  - destruct (IH b x a E) as (b' & a' & F1 & F2 & F3 & F4).
    exists (y :: b'), a'. rewrite F1. cbn [filter app]. rewrite Eq. repeat split; auto.
Qed.

Lemma last_with_filter {A} (q : A -> bool) (P : A -> Prop) l x :
  last_with P (filter q l) x -> last_with (fun y => q y = true /\ P y) l x.
Proof.
  intros (b & a & E & Hp & Ha). destruct (filter_split q l b x a E) as (b' & a' & F1 & F2 & F3 & F4).
  exists b', a'. repeat split; auto. intros y Hy [C1 C2]. apply (Ha y); [|exact C2]. rewrite <- F3. apply filter_In. auto.
Qed.

Lemma last_with_unique {A} (P : A -> Prop) l x y : last_with P l x -> last_with P l y -> x = y.
Proof.
  intros (b & a & E & Hp & Ha) (b' & a' & E' & Hp' & Ha'). rewrite E in E'. clear E l.
  revert b' E'. induction b as [|z b IH]; intros [|z' b'] E'; cbn [app] in E'; inversion E'.
  - reflexivity.
  - exfalso. subst. apply (Ha y); [apply in_or_app; right; now left|exact Hp'].
  - exfalso. subst. apply (Ha' x); [apply in_or_app; right; now left|exact Hp].
  - eapply IH; eassumption.
Qed.

(** ** Comments *)
Lemma scan_comment_lastval rows sim : forall cur, scan_comment rows sim cur = lastval (fun r => (cr_sim r =? sim)%Z) cr_value rows cur.
Proof. induction rows as [|r rows IH]; intros cur; cbn; [reflexivity|apply IH]. Qed.

Lemma scan_comment_has d sim cur :
  (exists text, has_comment d sim text /\ scan_comment (t_comments d) sim cur = text)
  \/ (no_comment d sim /\ scan_comment (t_comments d) sim cur = cur).
Proof.
  rewrite scan_comment_lastval.
  destruct (lastval_spec (fun r => (cr_sim r =? sim)%Z) cr_value (t_comments d) cur) as [(x & L & E)|[N E]].
  - left. exists (cr_value x). split; [|exact E]. exists x. split; [|reflexivity].
    eapply last_with_ext; [|exact L]. intros y _. apply Z.eqb_eq.
  - right. split; [|exact E]. intros r Hr C. apply N in Hr. apply Z.eqb_neq in Hr. contradiction.
Qed.

Lemma has_comment_unique d sim a b : has_comment d sim a -> has_comment d sim b -> a = b.
Proof. intros (r & L & E) (r' & L' & E'). rewrite <- E, <- E'. f_equal. eapply last_with_unique; eassumption. Qed.

Lemma has_no_comment d sim a : has_comment d sim a -> no_comment d sim -> False.
Proof. intros (r & (b & a' & E & H & _) & _) N. apply (N r); [rewrite E; apply in_or_app; right; now left|exact H]. Qed.

Lemma comment_of_spec d sim : (forall text, has_comment d sim text -> comment_of d sim = text)
  /\ (no_comment d sim -> comment_of d sim = []).
Proof.
  unfold comment_of. split.
  - intros text H. destruct (scan_comment_has d sim []) as [(t & Ht & E)|[N _]].
    + rewrite E. exact (has_comment_unique d sim _ _ Ht H).
    + exfalso. exact (has_no_comment _ _ _ H N).
  - intros N. destruct (scan_comment_has d sim []) as [(t & Ht & E)|[_ E]]; [exfalso; exact (has_no_comment _ _ _ Ht N)|exact E].
Qed.

Lemma show_comments_loop_ids d ids : forall cur, map fst (show_comments_loop d ids cur) = ids.
Proof. induction ids as [|v ids IH]; intros cur; cbn; [reflexivity|]. f_equal. apply IH. Qed.

Lemma show_comments_loop_own d v c text : has_comment d v text -> forall ids cur,
  In (v, c) (show_comments_loop d ids cur) -> c = text.
Proof.
  intros H. induction ids as [|u ids IH]; intros cur; cbn; [intros []|].
  intros [E|E]; [|exact (IH _ E)]. inversion E; subst u.
  destruct (scan_comment_has d v cur) as [(t & Ht & E')|[N _]].
  - rewrite E'. exact (has_comment_unique d v _ _ Ht H).
  - exfalso. exact (has_no_comment _ _ _ H N).
Qed.

Lemma show_comments_own d answer max : map fst (show_comments d answer max) = map fst (limit max answer)
  /\ forall v c text, In (v, c) (show_comments d answer max) -> has_comment d v text -> c = text.
Proof.
  split; [apply show_comments_loop_ids|]. intros v c text I H. exact (show_comments_loop_own d v c text H _ _ I).
Qed.

(** An update changes the comment of the simulation and of no other. *)
Lemma scan_map_other rows sim sim' text : sim <> sim' -> forall cur,
  scan_comment (map (fun r => if (cr_sim r =? sim)%Z then {| cr_value := text; cr_sim := cr_sim r |} else r) rows) sim' cur
  = scan_comment rows sim' cur.
Proof.
  intros Hne. induction rows as [|r rows IH]; intros cur; cbn [map scan_comment]; [reflexivity|].
  destruct (cr_sim r =? sim)%Z eqn:E; cbn [cr_sim cr_value].
  - apply Z.eqb_eq in E. replace (cr_sim r =? sim')%Z with false by (symmetry; apply Z.eqb_neq; congruence). apply IH.
  - apply IH.
Qed.
Lemma scan_map_same rows sim text : (exists r, In r rows /\ cr_sim r = sim) -> forall cur,
  scan_comment (map (fun r => if (cr_sim r =? sim)%Z then {| cr_value := text; cr_sim := cr_sim r |} else r) rows) sim cur = text.
Proof.
  assert (K : forall rows, scan_comment (map (fun r => if (cr_sim r =? sim)%Z then {| cr_value := text; cr_sim := cr_sim r |} else r) rows) sim text = text).
  { clear. induction rows as [|r rows IH]; cbn [map scan_comment]; [reflexivity|].
    destruct (cr_sim r =? sim)%Z eqn:E; cbn [cr_sim cr_value]; rewrite E; exact IH. }
  induction rows as [|r rows IH]; intros (x & I & E) cur; [destruct I|]. cbn [map scan_comment].
  destruct (cr_sim r =? sim)%Z eqn:Er; cbn [cr_sim cr_value]; rewrite Er; [apply K|].
  destruct I as [<-|I]; [apply Z.eqb_neq in Er; contradiction|]. apply IH. exists x. auto.
Qed.

Lemma update_comment_spec d sim text :
  (forall old, has_comment d sim old -> comment_of (update_comment d sim text) sim = text)
  /\ forall s, s <> sim -> comment_of (update_comment d sim text) s = comment_of d s.
Proof.
  unfold comment_of, update_comment. destruct d as [ids ps fs at_ tx cs ss]. cbn [t_comments]. split.
  - intros old (r & (b & a & E & H & _) & _). cbn [t_comments] in E. apply scan_map_same.
    exists r. split; [rewrite E; apply in_or_app; right; now left|exact H].
  - intros s Hs. apply scan_map_other. congruence.
Qed.

(** ** The list of simulations *)
Lemma limit_nonneg {A} max (l : list A) : (0 <= max)%Z -> limit max l = firstn (Z.to_nat max) l.
Proof. intros H. unfold limit. destruct (max <? 0)%Z eqn:E; [apply Z.ltb_lt in E; lia|reflexivity]. Qed.

Lemma show_ids_spec rows answer max : newest_first rows answer -> (0 <= max)%Z ->
  exists shown hidden, snd (show_ids answer max) = map id_line shown
  /\ Permutation (shown ++ hidden) rows
  /\ length shown = Nat.min (Z.to_nat max) (length rows)
  /\ (forall a b, In a shown -> In b hidden -> str_le (snd b) (snd a) = true)
  /\ (forall i j a b, i < j -> nth_error shown i = Some a -> nth_error shown j = Some b -> str_le (snd b) (snd a) = true)
  /\ (fst (show_ids answer max) = None <-> hidden = [])
  /\ (hidden <> [] -> fst (show_ids answer max)
       = Some (lit "Showing " ++ dec (Z.of_nat (length shown)) ++ lit " of " ++ dec (Z.of_nat (length rows)) ++ lit " rows")).
Proof.
  intros [P S] Hm. set (n := Z.to_nat max).
  exists (firstn n answer), (skipn n answer). unfold show_ids. cbn [fst snd]. rewrite (limit_nonneg max answer Hm). fold n.
  assert (L : length answer = length rows) by (apply Permutation_length; exact P).
  split; [reflexivity|]. split; [rewrite firstn_skipn; exact P|]. split; [rewrite firstn_length, L; reflexivity|].
  split; [|split; [|split]].
  - intros a b Ia Ib. apply In_nth_error in Ia. destruct Ia as [i Ei]. apply In_nth_error in Ib. destruct Ib as [j Ej].
    assert (Hi : i < length (firstn n answer)) by (apply nth_error_Some; rewrite Ei; discriminate).
    rewrite firstn_length in Hi.
    apply (S i (n + j)); [lia| |].
    + rewrite <- Ei. rewrite <- (firstn_skipn n answer) at 1. rewrite nth_error_app1; [reflexivity|]. rewrite firstn_length. lia.
    + assert (Hj : j < length (skipn n answer)) by (apply nth_error_Some; rewrite Ej; discriminate).
      rewrite skipn_length in Hj. rewrite <- Ej. rewrite <- (firstn_skipn n answer) at 1.
      rewrite nth_error_app2; rewrite firstn_length; [|lia]. f_equal. lia.
  - intros i j a b Hij Ei Ej. apply (S i j); [exact Hij| |].
    + rewrite <- (firstn_skipn n answer). rewrite nth_error_app1; [exact Ei|]. apply nth_error_Some. rewrite Ei. discriminate.
    + rewrite <- (firstn_skipn n answer). rewrite nth_error_app1; [exact Ej|]. apply nth_error_Some. rewrite Ej. discriminate.
  - unfold notice. destruct (max <? Z.of_nat (length answer))%Z eqn:E.
    + apply Z.ltb_lt in E. split; [discriminate|]. intros C. apply (f_equal (@length _)) in C. rewrite skipn_length in C. cbn in C. lia.
    + apply Z.ltb_ge in E. split; [intros _|reflexivity]. apply skipn_all2. lia.
  - intros H. unfold notice. destruct (max <? Z.of_nat (length answer))%Z eqn:E.
    + apply Z.ltb_lt in E. rewrite firstn_length, L. replace (Z.of_nat (Nat.min n (length rows))) with max by (rewrite <- L; lia). reflexivity.
    + exfalso. apply Z.ltb_ge in E. apply H. apply skipn_all2. lia.
Qed.

Lemma newest_simulation_spec rows answer : newest_first rows answer ->
  match rows with
  | [] => newest_simulation answer = 0%Z
  | _ => exists t, In (newest_simulation answer, t) rows /\ forall e, In e rows -> str_le (snd e) t = true \/ e = (newest_simulation answer, t)
  end.
Proof.
  intros [P S]. destruct answer as [|[id t] answer].
  - apply Permutation_nil in P. rewrite P. reflexivity.
  - destruct rows as [|r rows]; [apply Permutation_sym, Permutation_nil in P; discriminate|].
    exists t. cbn. split; [apply (Permutation_in _ P); now left|]. intros e He.
    apply (Permutation_in _ (Permutation_sym P)) in He. apply In_nth_error in He. destruct He as [[|j] Ej].
    + right. cbn in Ej. injection Ej as Ej. symmetry. exact Ej.
    + left. exact (S 0 (Datatypes.S j) (id, t) e ltac:(lia) eq_refl Ej).
Qed.
