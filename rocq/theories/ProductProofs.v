(** Proofs about the Product iterator. *)
From Verif Require Import ListAux IndexModel IndexSpec.

Definition zeros (e : list Z) : list Z := map (fun _ => 0) e.

(** Odometer successor on the box, most significant digit first, with an
    overflow flag. *)
Fixpoint succ (e c : list Z) : list Z * bool :=
  match e, c with
  | n :: e', x :: c' =>
      let '(r, o) := succ e' c' in
      if o then (if x + 1 <? n then (x + 1 :: r, false) else (0 :: r, true))
      else (x :: r, false)
  | _, _ => ([], true)
  end.

Lemma succ_overflow_zeros e : forall c r, in_box e c -> succ e c = (r, true) -> r = zeros e.
Proof.
  induction e as [|n e IH]; intros c r Hb; inversion Hb as [|? x ? c' Hx Hc]; subst; cbn.
  - intros [= <-]. reflexivity.
  - destruct (succ e c') as [r' o] eqn:E. destruct o.
    + destruct (x + 1 <? n); intros [= <-]. rewrite (IH _ _ Hc E). reflexivity.
    + intros [=].
Qed.

Lemma succ_in_box e : forall c r o, in_box e c -> succ e c = (r, o) -> in_box e r.
Proof.
  induction e as [|n e IH]; intros c r o Hb; inversion Hb as [|? x ? c' Hx Hc]; subst; cbn.
  - intros [= <- <-]. constructor.
  - destruct (succ e c') as [r' o'] eqn:E. pose proof (IH _ _ _ Hc E) as Hr'. destruct o'.
    + destruct (Z.ltb_spec (x + 1) n); intros [= <- <-]; constructor; try assumption; lia.
    + intros [= <- <-]; constructor; assumption.
Qed.

Lemma succ_nonzero e : forall c r, in_box e c -> succ e c = (r, false) -> any_nonzero r = true.
Proof.
  induction e as [|n e IH]; intros c r Hb; inversion Hb as [|? x ? c' Hx Hc]; subst; cbn.
  - intros [=].
  - destruct (succ e c') as [r' o'] eqn:E. destruct o'.
    + destruct (Z.ltb_spec (x + 1) n); intros [= <-]. cbn.
      destruct (Z.eqb_spec (x + 1) 0); [lia|reflexivity].
    + intros [= <-]. cbn. fold (any_nonzero r'). rewrite (IH _ _ Hc E). apply orb_true_r.
Qed.

Lemma any_nonzero_zeros e : any_nonzero (zeros e) = false.
Proof. induction e; cbn; auto. Qed.

Lemma any_nonzero_rev l : any_nonzero (rev l) = any_nonzero l.
Proof.
  unfold any_nonzero. induction l as [|a l IH]; cbn; [reflexivity|].
  rewrite existsb_app, IH. cbn. rewrite orb_false_r. apply orb_comm.
Qed.

Lemma succ_snoc e : forall c n x, length c = length e -> x < n ->
  succ (e ++ [n]) (c ++ [x]) =
  if x + 1 =? n then let '(r, o) := succ e c in (r ++ [0], o) else (c ++ [x + 1], false).
Proof.
  induction e as [|m e IH]; intros [|y c] n x Hl Hx; cbn in Hl; try discriminate; cbn.
  - destruct (Z.ltb_spec (x + 1) n), (Z.eqb_spec (x + 1) n); try lia; reflexivity.
  - injection Hl as Hl. rewrite (IH _ _ _ Hl Hx).
    destruct (x + 1 =? n).
    + destruct (succ e c) as [r o]. destruct o; [destruct (y + 1 <? m)|]; reflexivity.
    + reflexivity.
Qed.

(** The carry loop on the reversed lists is the successor. *)
Lemma carry_succ : forall e c, in_box e c ->
  forall r o, succ e c = (r, o) -> carry (rev c) (rev e) = (rev r, negb o).
Proof.
  intros e. induction e as [|n e IH] using rev_ind; intros c Hb r o Hs.
  - inversion Hb; subst. cbn in Hs. injection Hs as <- <-. reflexivity.
  - apply Forall2_app_inv_l in Hb. destruct Hb as (c0 & cx & Hb & Hx & ->).
    inversion Hx as [|? x ? ? Hxn Hnil]; subst. inversion Hnil; subst.
    assert (Hl : length c0 = length e) by (symmetry; eapply Forall2_length; eassumption).
    rewrite succ_snoc in Hs by (auto; lia).
    rewrite !rev_app_distr. cbn.
    destruct (Z.eqb_spec (x + 1) n), (Z.ltb_spec (x + 1) n); try lia.
    + destruct (succ e c0) as [r0 o0] eqn:E. injection Hs as <- <-.
      rewrite (IH _ Hb _ _ E). rewrite rev_app_distr. reflexivity.
    + injection Hs as <- <-. rewrite rev_app_distr. reflexivity.
Qed.

(** One call of Next on a running iterator. *)
Lemma next_succ e c r o : e <> [] -> in_box e c -> succ e c = (r, o) ->
  next {| p_end := e; p_cur := c; p_first := false |} =
  Some ((if o then None else Some r), {| p_end := e; p_cur := r; p_first := false |}).
Proof.
  intros He Hb Hs.
  destruct (exists_last He) as (e0 & n & ->).
  pose proof Hb as Hb0.
  apply Forall2_app_inv_l in Hb. destruct Hb as (c0 & cx & Hb & Hx & ->).
  inversion Hx as [|? x ? ? Hxn Hnil]; subst. inversion Hnil; subst.
  assert (Hl : length c0 = length e0) by (symmetry; eapply Forall2_length; eassumption).
  pose proof Hs as Hs0.
  rewrite succ_snoc in Hs by (auto; lia).
  unfold next. cbn [p_first p_cur p_end].
  rewrite !rev_app_distr. cbn [rev app].
  destruct (Z.eqb_spec (x + 1) n) as [E1|E1].
  - destruct (succ e0 c0) as [r0 o0] eqn:E. injection Hs as <- <-.
    rewrite (carry_succ _ _ Hb _ _ E). rewrite rev_involutive.
    destruct o0; cbn [negb]; [|reflexivity].
    rewrite (succ_overflow_zeros _ _ _ Hb E).
    replace (zeros e0 ++ [0]) with (zeros (e0 ++ [n])) by (unfold zeros; rewrite map_app; reflexivity).
    rewrite any_nonzero_zeros. reflexivity.
  - injection Hs as <- <-. cbn [app]. rewrite rev_involutive.
    rewrite (succ_nonzero _ _ _ Hb0 Hs0). reflexivity.
Qed.

(** ** The box in lexicographic order *)
Definition zseq (i : Z) (m : nat) : list Z := map (fun k => i + Z.of_nat k) (seq 0 m).

Lemma zseq_S i m : zseq i (S m) = i :: zseq (i + 1) m.
Proof.
  unfold zseq. cbn. f_equal; [lia|].
  rewrite <- seq_shift, map_map. apply map_ext. intros; lia.
Qed.

Fixpoint box (e : list Z) : list (list Z) :=
  match e with
  | [] => [[]]
  | n :: e' => flat_map (fun i => map (cons i) (box e')) (zseq 0 (Z.to_nat n))
  end.

Lemma zseq_In i m x : In x (zseq i m) <-> i <= x < i + Z.of_nat m.
Proof.
  unfold zseq. rewrite in_map_iff. setoid_rewrite in_seq. split.
  - intros (k & <- & Hk). lia.
  - intros H. exists (Z.to_nat (x - i)). lia.
Qed.

Lemma box_In e : forall x, In x (box e) <-> in_box e x.
Proof.
  induction e as [|n e IH]; cbn; intros x.
  - split; [intros [<-|[]]; constructor | intros H; inversion H; auto].
  - rewrite in_flat_map. split.
    + intros (i & Hi & Hx). apply zseq_In in Hi. apply in_map_iff in Hx.
      destruct Hx as (y & <- & Hy). apply IH in Hy. constructor; [lia|assumption].
    + intros H. inversion H as [|? i ? y Hi Hy]; subst. exists i. split.
      * apply zseq_In. lia.
      * apply in_map. apply IH. assumption.
Qed.

Lemma lex_sorted_app l1 l2 : lex_sorted l1 -> lex_sorted l2 ->
  (forall a b, In a l1 -> In b l2 -> lex_lt a b) -> lex_sorted (l1 ++ l2).
Proof.
  induction l1 as [|x l1 IH]; cbn; [auto|]. intros [H1 H2] H3 H4. split.
  - apply Forall_app. split; [assumption|]. apply Forall_forall. intros b Hb. apply H4; auto.
  - apply IH; auto.
Qed.

Lemma lex_sorted_map_cons i l : lex_sorted l -> lex_sorted (map (cons i) l).
Proof.
  induction l as [|x l IH]; cbn; [auto|]. intros [H1 H2]. split; [|auto].
  apply Forall_forall. intros b Hb. apply in_map_iff in Hb. destruct Hb as (y & <- & Hy).
  cbn. right. split; [reflexivity|]. rewrite Forall_forall in H1. auto.
Qed.

Lemma box_sorted e : lex_sorted (box e).
Proof.
  induction e as [|n e IH]; cbn [box]; [cbn; auto|].
  generalize 0 (Z.to_nat n). intros i m. revert i.
  induction m as [|m IHm]; intros i; [cbn; auto|].
  rewrite zseq_S. cbn [flat_map]. apply lex_sorted_app.
  - apply lex_sorted_map_cons. assumption.
  - apply IHm.
  - intros a b Ha Hb. apply in_map_iff in Ha. destruct Ha as (a' & <- & _).
    apply in_flat_map in Hb. destruct Hb as (j & Hj & Hb). apply zseq_In in Hj.
    apply in_map_iff in Hb. destruct Hb as (b' & <- & _). cbn. left. lia.
Qed.

Lemma box_length e : Forall (fun d => 0 < d) e -> Z.of_nat (length (box e)) = num_nodes e.
Proof.
  induction e as [|n e IH]; intros H; [reflexivity|].
  inversion H as [|? ? Hn He]; subst. cbn [box num_nodes fold_right]. fold (num_nodes e).
  assert (G : forall m i, length (flat_map (fun i => map (cons i) (box e)) (zseq i m)) = (m * length (box e))%nat).
  { induction m as [|m IHm]; intros i; [reflexivity|].
    rewrite zseq_S. cbn [flat_map]. rewrite app_length, map_length, IHm. reflexivity. }
  rewrite G, Nat2Z.inj_mul, (IH He). lia.
Qed.

(** [run e c L]: the successors of [c] are the elements of [L], then overflow. *)
Fixpoint run (e c : list Z) (L : list (list Z)) : Prop :=
  match L with
  | [] => succ e c = (zeros e, true)
  | b :: L' => succ e c = (b, false) /\ run e b L'
  end.

Lemma run_block n e i : forall T c rest, run e c T ->
  (if i + 1 <? n then exists rest', rest = (i + 1 :: zeros e) :: rest' /\ run (n :: e) (i + 1 :: zeros e) rest'
   else rest = []) ->
  run (n :: e) (i :: c) (map (cons i) T ++ rest).
Proof.
  induction T as [|b T IH]; intros c rest Hr Hrest; cbn [map app].
  - cbn in Hr. destruct (i + 1 <? n) eqn:E.
    + destruct Hrest as (rest' & -> & Hr'). split; [|assumption].
      cbn. rewrite Hr, E. reflexivity.
    + subst rest. cbn. rewrite Hr, E. reflexivity.
  - destruct Hr as [H1 H2]. split.
    + cbn. rewrite H1. reflexivity.
    + apply IH; assumption.
Qed.

Lemma box_run e : Forall (fun d => 0 < d) e ->
  exists T, box e = zeros e :: T /\ run e (zeros e) T.
Proof.
  induction e as [|n e IH]; intros H.
  - exists []. cbn. auto.
  - inversion H as [|? ? Hn He]; subst. destruct (IH He) as (T & HT & HR). cbn [box].
    assert (G : forall m i, i + Z.of_nat (S m) = n ->
      exists T', flat_map (fun i => map (cons i) (box e)) (zseq i (S m)) = (i :: zeros e) :: T'
                 /\ run (n :: e) (i :: zeros e) T').
    { induction m as [|m IHm]; intros i Hi.
      - rewrite zseq_S. cbn [flat_map zseq seq map]. rewrite HT. cbn [map app].
        eexists. split; [reflexivity|]. apply run_block; [assumption|].
        destruct (Z.ltb_spec (i + 1) n); [lia|reflexivity].
      - rewrite zseq_S. cbn [flat_map].
        destruct (IHm (i + 1)) as (T' & HT' & HR'); [lia|].
        rewrite HT', HT. cbn [map app]. eexists. split; [reflexivity|].
        apply run_block; [assumption|].
        destruct (Z.ltb_spec (i + 1) n); [|lia]. eexists. split; [reflexivity|assumption]. }
    destruct (Z.to_nat n) as [|m] eqn:E; [lia|].
    destruct (G m 0) as (T' & HT' & HR'); [lia|]. exists T'. split; assumption.
Qed.

Lemma zeros_in_box e : Forall (fun d => 0 < d) e -> in_box e (zeros e).
Proof. induction 1; constructor; [lia|assumption]. Qed.

Lemma run_calls e : e <> [] -> forall L c, in_box e c -> run e c L ->
  calls (S (length L)) {| p_end := e; p_cur := c; p_first := false |} =
  Some (map Some L ++ [None]).
Proof.
  intros He. induction L as [|b L IH]; intros c Hb Hr.
  - cbn in Hr. cbn [length calls]. rewrite (next_succ _ _ _ _ He Hb Hr). reflexivity.
  - destruct Hr as [H1 H2]. cbn [length]. cbn [calls].
    rewrite (next_succ _ _ _ _ He Hb H1).
    specialize (IH b (succ_in_box _ _ _ _ Hb H1) H2). cbn [calls length] in IH.
    rewrite IH. reflexivity.
Qed.

Lemma product_enumerates e : e <> [] -> Forall (fun d => 0 < d) e ->
  exists L, calls (S (length L)) (new_product e) = Some (map Some L ++ [None])
            /\ lex_sorted L /\ (forall x, In x L <-> in_box e x)
            /\ Z.of_nat (length L) = num_nodes e.
Proof.
  intros He Hp. destruct (box_run e Hp) as (T & HT & HR). exists (box e).
  split; [|split; [apply box_sorted|split; [apply box_In|apply box_length; assumption]]].
  rewrite HT. cbn [length]. cbn [calls]. unfold new_product, next at 1. cbn [p_first].
  cbn [p_end p_cur]. fold (zeros e).
  pose proof (run_calls e He T (zeros e) (zeros_in_box e Hp) HR) as G.
  cbn [calls length] in G. rewrite G. reflexivity.
Qed.

Lemma lex_sorted_NoDup L : lex_sorted L -> NoDup L.
Proof.
  assert (Irr : forall a, ~ lex_lt a a).
  { induction a as [|x a IH]; cbn; [tauto|]. intros [H|[_ H]]; [lia|tauto]. }
  induction L as [|x L IH]; cbn; [constructor|]. intros [H1 H2]. constructor; [|auto].
  intros Hin. rewrite Forall_forall in H1. exact (Irr _ (H1 _ Hin)).
Qed.

(** An empty list of end values panics on the second call. *)
Lemma product_empty_panics : calls 2 (new_product []) = None.
Proof. reflexivity. Qed.

