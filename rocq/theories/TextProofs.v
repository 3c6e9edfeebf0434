(** Occurrences of a text inside joined texts. *)
From Verif Require Import ListAux ParseProofs EquationModel EquationSpec.
Open Scope nat_scope.

Lemma app_app_cases {A} : forall (a b c d : list A), a ++ b = c ++ d ->
  (exists l, a = c ++ l /\ d = l ++ b) \/ (exists l, c = a ++ l /\ b = l ++ d).
Proof.
  induction a as [|x a IH]; intros b c d E.
  - right. exists c. auto.
  - destruct c as [|y c].
    + left. exists (x :: a). auto.
    + injection E as -> E. destruct (IH _ _ _ E) as [(l & -> & ->)|(l & -> & ->)]; [left|right]; exists l; auto.
Qed.

Lemma occ_split : forall (c : ascii) (x a y u v : str), ~ In c a -> x ++ a ++ y = u ++ c :: v ->
  (exists y', u = x ++ a ++ y' /\ y = y' ++ c :: v) \/ (exists x', x = u ++ c :: x' /\ v = x' ++ a ++ y).
Proof.
  intros c x a y u v Hc E. destruct (app_app_cases x (a ++ y) u (c :: v) E) as [(l & -> & E1)|(l & -> & E1)].
  - destruct l as [|h l].
    + rewrite app_nil_r. cbn in E1. destruct a as [|h a].
      * left. exists []. cbn in *. rewrite app_nil_r. auto.
      * injection E1 as <- _. exfalso. apply Hc. left. reflexivity.
    + cbn in E1. injection E1 as -> E1. right. exists l. auto.
  - left. destruct (app_app_cases a y l (c :: v) E1) as [(k & -> & E2)|(k & -> & E2)].
    + destruct k as [|h k].
      * rewrite app_nil_r. cbn in E2. exists []. rewrite app_nil_r. cbn. auto.
      * cbn in E2. injection E2 as <- _. exfalso. apply Hc. apply in_or_app. right. left. reflexivity.
    + exists k. auto.
Qed.

Lemma occ_skip : forall (p n x : str) (c : ascii) (a y : str), ~ In c p -> p ++ n = x ++ (c :: a) ++ y ->
  exists x', x = p ++ x' /\ n = x' ++ (c :: a) ++ y.
Proof.
  intros p n x c a y Hc E. destruct (app_app_cases p n x ((c :: a) ++ y) E) as [(l & -> & E1)|(l & -> & E1)].
  - destruct l as [|h l].
    + exists []. cbn in *. rewrite !app_nil_r. auto.
    + cbn in E1. injection E1 as <- _. exfalso. apply Hc. apply in_or_app. right. left. reflexivity.
  - exists l. auto.
Qed.

Lemma contains_false : forall s a, contains s a = false <-> ~ occurs a s.
Proof.
  intros s a. unfold occurs. rewrite <- contains_iff. destruct (contains s a); intuition congruence.
Qed.
Lemma contains_true : forall s a, contains s a = true <-> occurs a s.
Proof. intros s a. apply contains_iff. Qed.

Definition lead_text (l : list str) : str := flat_map (fun s => s ++ [star_c]) l.
Definition tail_text (l : list str) : str := flat_map (fun s => star_c :: s) l.

Lemma join_cons : forall s l, join_char star_c (s :: l) = s ++ tail_text l.
Proof.
  intros s l. revert s. induction l as [|t l IH]; intros s; [cbn; rewrite app_nil_r; reflexivity|].
  change (join_char star_c (s :: t :: l)) with (s ++ star_c :: join_char star_c (t :: l)).
  rewrite IH. reflexivity.
Qed.

Lemma join_mid : forall l1 s l2, join_char star_c (l1 ++ s :: l2) = lead_text l1 ++ s ++ tail_text l2.
Proof.
  induction l1 as [|t l1 IH]; intros s l2; [apply join_cons|].
  cbn [app]. rewrite join_cons.
  assert (E : tail_text (l1 ++ s :: l2) = star_c :: join_char star_c (l1 ++ s :: l2)).
  { destruct (l1 ++ s :: l2) as [|h r] eqn:El; [destruct l1; discriminate|]. rewrite join_cons. reflexivity. }
  rewrite E, IH. cbn [lead_text flat_map]. rewrite <- !app_assoc. reflexivity.
Qed.

Lemma occ_join : forall (l : list str) (x a y : str), l <> [] -> ~ In star_c a -> join_char star_c l = x ++ a ++ y ->
  exists l1 s l2 x' y', l = l1 ++ s :: l2 /\ s = x' ++ a ++ y' /\ x = lead_text l1 ++ x' /\ y = y' ++ tail_text l2.
Proof.
  induction l as [|s l IH]; intros x a y Hne Hs E; [congruence|].
  destruct l as [|t l].
  - cbn in E. exists [], s, [], x, y. cbn. rewrite app_nil_r. auto.
  - change (join_char star_c (s :: t :: l)) with (s ++ star_c :: join_char star_c (t :: l)) in E.
    symmetry in E. destruct (occ_split star_c x a y _ _ Hs E) as [(y' & E1 & E2)|(x' & E1 & E2)].
    + exists [], s, (t :: l), x, y'. cbn [app lead_text flat_map]. repeat split; [exact E1|].
      rewrite E2. f_equal. rewrite join_cons. reflexivity.
    + destruct (IH x' a y ltac:(discriminate) Hs E2) as (l1 & s' & l2 & x'' & y'' & El & Es & Ex & Ey).
      exists (s :: l1), s', l2, x'', y''. rewrite El. repeat split; try assumption.
      rewrite E1, Ex. cbn [lead_text flat_map]. rewrite <- !app_assoc. reflexivity.
Qed.

Lemma occurs_join : forall l a, l <> [] -> a <> [] -> ~ In star_c a ->
  (occurs a (join_char star_c l) <-> exists s, In s l /\ occurs a s).
Proof.
  intros l a Hl Ha Hs. split.
  - intros (x & y & E). destruct (occ_join l x a y Hl Hs E) as (l1 & s & l2 & x' & y' & -> & Es & _).
    exists s. split; [apply in_or_app; right; left; reflexivity|exists x', y'; exact Es].
  - intros (s & Hin & x & y & ->). apply in_split in Hin. destruct Hin as (l1 & l2 & ->).
    rewrite join_mid. exists (lead_text l1 ++ x), (y ++ tail_text l2). rewrite <- !app_assoc. reflexivity.
Qed.

(** An occurrence cannot start inside texts that do not contain it. *)
Lemma occ_lead : forall (l : list str) (rest x a y : str), a <> [] -> ~ In star_c a -> (forall s, In s l -> ~ occurs a s) ->
  lead_text l ++ rest = x ++ a ++ y -> exists x', x = lead_text l ++ x' /\ rest = x' ++ a ++ y.
Proof.
  induction l as [|s l IH]; intros rest x a y Ha Hs Hno E; [exists x; auto|].
  cbn [lead_text flat_map] in E. rewrite <- !app_assoc in E. cbn [app] in E. symmetry in E.
  destruct (occ_split star_c x a y _ _ Hs E) as [(y' & E1 & E2)|(x' & E1 & E2)].
  - exfalso. apply (Hno s (or_introl eq_refl)). exists x, y'. exact E1.
  - destruct (IH rest x' a y Ha Hs (fun t Ht => Hno t (or_intror Ht)) E2) as (x'' & -> & Er).
    exists x''. split; [|exact Er]. rewrite E1. cbn [lead_text flat_map]. rewrite <- !app_assoc. reflexivity.
Qed.

(** ** First occurrence *)
Lemma has_prefix_at : forall (p y : str), has_prefix (p ++ y) p = true.
Proof. exact has_prefix_app. Qed.

Lemma after_lit_first : forall (x p y : str), (forall x' y', x ++ p ++ y = x' ++ p ++ y' -> length x <= length x') ->
  after_lit (x ++ p ++ y) p = Some y.
Proof.
  induction x as [|c x IH]; intros p y H.
  - cbn [app].
    assert (Hp : has_prefix (p ++ y) p = true) by apply has_prefix_app.
    destruct (p ++ y) as [|z l] eqn:E.
    + cbn [after_lit]. rewrite Hp. destruct p; [cbn in E; subst; reflexivity|discriminate].
    + cbn [after_lit]. rewrite Hp. rewrite <- E. rewrite skipn_app_exact. reflexivity.
  - cbn [app after_lit]. destruct (has_prefix (c :: x ++ p ++ y) p) eqn:Hp.
    + apply has_prefix_iff in Hp. destruct Hp as (r & E). specialize (H [] r E). cbn in H. lia.
    + apply IH. intros x' y' E. specialize (H (c :: x') y'). cbn in H. rewrite E in H. specialize (H eq_refl). lia.
Qed.

Lemma after_lit_none : forall s p, ~ occurs p s -> after_lit s p = None.
Proof.
  induction s as [|c s IH]; intros p H.
  - cbn [after_lit]. destruct (has_prefix [] p) eqn:E; [|reflexivity]. exfalso. apply H.
    apply has_prefix_iff in E. destruct E as (r & E). exists [], r. exact E.
  - cbn [after_lit]. destruct (has_prefix (c :: s) p) eqn:E.
    + exfalso. apply H. apply has_prefix_iff in E. destruct E as (r & E). exists [], r. exact E.
    + apply IH. intros (x & y & Es). apply H. exists (c :: x), y. rewrite Es. reflexivity.
Qed.

Lemma after_lit_some : forall s p r, after_lit s p = Some r -> exists x, s = x ++ p ++ r.
Proof.
  induction s as [|c s IH]; intros p r H; cbn [after_lit] in H.
  - destruct (has_prefix [] p) eqn:E; [|discriminate]. apply has_prefix_iff in E. destruct E as (q & E).
    injection H as <-. exists []. cbn. rewrite E at 2. rewrite skipn_app_exact. exact E.
  - destruct (has_prefix (c :: s) p) eqn:E.
    + apply has_prefix_iff in E. destruct E as (q & E). injection H as <-. exists []. rewrite E. rewrite skipn_app_exact. reflexivity.
    + destruct (IH p r H) as (x & ->). exists (c :: x). reflexivity.
Qed.

(** ** Deletion *)
Lemma delete_none_fuel : forall n s d, d <> [] -> ~ occurs d s -> delete_all_fuel n s d = s.
Proof.
  induction n as [|n IH]; intros s d Hd H; [reflexivity|].
  destruct s as [|c s]; [reflexivity|]. cbn [delete_all_fuel].
  destruct (has_prefix (c :: s) d) eqn:E.
  - exfalso. apply H. apply has_prefix_iff in E. destruct E as (r & E). exists [], r. exact E.
  - f_equal. apply IH; [exact Hd|]. intros (x & y & Es). apply H. exists (c :: x), y. rewrite Es. reflexivity.
Qed.

Lemma delete_once_fuel : forall (pre : str) n (d post : str), d <> [] -> length (pre ++ d ++ post) <= n ->
  (forall x y, pre ++ d ++ post = x ++ d ++ y -> length pre <= length x) -> ~ occurs d post ->
  delete_all_fuel n (pre ++ d ++ post) d = pre ++ post.
Proof.
  induction pre as [|c pre IH]; intros n d post Hd Hn H Hpost.
  - cbn [app] in *. destruct d as [|h d]; [congruence|]. destruct n as [|n]; [cbn in Hn; lia|].
    cbn [app delete_all_fuel]. change (h :: d ++ post) with ((h :: d) ++ post).
    rewrite has_prefix_app, skipn_app_exact. apply delete_none_fuel; [discriminate|exact Hpost].
  - destruct n as [|n]; [cbn in Hn; lia|]. cbn [app delete_all_fuel].
    destruct (has_prefix (c :: pre ++ d ++ post) d) eqn:E.
    + apply has_prefix_iff in E. destruct E as (r & E). specialize (H [] r E). cbn in H. lia.
    + f_equal. apply IH; try assumption; [cbn in Hn; lia|].
      intros x y Ex. specialize (H (c :: x) y). cbn in H. rewrite Ex in H. specialize (H eq_refl). lia.
Qed.

Lemma delete_once : forall (pre d post : str), d <> [] ->
  (forall x y, pre ++ d ++ post = x ++ d ++ y -> length pre <= length x) -> ~ occurs d post ->
  delete_all (pre ++ d ++ post) d = pre ++ post.
Proof. intros pre d post Hd H Hp. unfold delete_all. apply delete_once_fuel; auto. Qed.

(** ** Literal patterns *)
Lemma compile_ident : forall n, forallb name_char n = true -> compile n = map RLit n.
Proof.
  induction n as [|c n IH]; intros H; [reflexivity|].
  cbn [forallb] in H. apply andb_true_iff in H. destruct H as [Hc Hn].
  assert (Hdot : Ascii.eqb c dot_c = false /\ Ascii.eqb c hat_c = false).
  { split; apply not_true_is_false; intros E; apply Ascii.eqb_eq in E; subst; vm_compute in Hc; discriminate. }
  destruct Hdot as [E1 E2]. cbn [compile]. destruct n as [|d n].
  - cbn [map]. rewrite E1, E2. reflexivity.
  - destruct (Ascii.eqb d star_c) eqn:Ed.
    + apply Ascii.eqb_eq in Ed. subst. cbn [forallb] in Hn. apply andb_true_iff in Hn. destruct Hn as [Hn _]. vm_compute in Hn. discriminate.
    + rewrite E1, E2. rewrite IH by exact Hn. reflexivity.
Qed.

Lemma match_lits : forall n s b, match_here (map RLit n) s b = has_prefix s n.
Proof.
  induction n as [|c n IH]; intros s b; [destruct s; reflexivity|].
  cbn [map match_here]. destruct s as [|x s]; [reflexivity|]. cbn [has_prefix]. rewrite IH. reflexivity.
Qed.

Lemma re_hit_ident : forall n s, ident n -> re_hit n s = contains s n.
Proof.
  intros n s Hn. unfold re_hit. rewrite compile_ident by (destruct n; [destruct Hn|apply Hn]).
  generalize true. induction s as [|c s IH]; intros b; cbn [re_search contains]; rewrite match_lits; [reflexivity|].
  rewrite IH. reflexivity.
Qed.

Lemma count_one_occurs : forall s p, count_lit s p = 1 -> occurs p s.
Proof.
  intros s p H. unfold count_lit in H. cbn [count_fuel] in H. destruct (after_lit s p) as [r|] eqn:E; [|discriminate].
  apply after_lit_some in E. destruct E as (x & E). exists x, r. exact E.
Qed.
