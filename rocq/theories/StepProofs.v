From Verif Require Import ListAux StepModel StepSpec.

(** ** List lemmas *)

Lemma nth_error_ext {A} (l l' : list A) : (forall i, nth_error l i = nth_error l' i) -> l = l'.
Proof.
  revert l'. induction l as [|x l IH]; intros [|y l'] H.
  - reflexivity.
  - specialize (H 0%nat). discriminate.
  - specialize (H 0%nat). discriminate.
  - f_equal; [specialize (H 0%nat); cbn in H; congruence|]. apply IH. intros i. exact (H (S i)).
Qed.

Lemma set_nth_length {A} i (x : A) l : length (set_nth i x l) = length l.
Proof. revert i. induction l as [|y l IH]; intros [|i]; cbn; auto. Qed.

Lemma nth_error_set_nth_eq {A} i (x : A) l : (i < length l)%nat -> nth_error (set_nth i x l) i = Some x.
Proof. revert i. induction l as [|y l IH]; intros [|i]; cbn; intros H; try lia; auto. apply IH. lia. Qed.

Lemma nth_error_set_nth_neq {A} i j (x : A) l : i <> j -> nth_error (set_nth i x l) j = nth_error l j.
Proof. revert i j. induction l as [|y l IH]; intros [|i] [|j]; cbn; intros H; try lia; auto. Qed.

Lemma map3_length {A B D E} (f : A -> B -> D -> E) a b d n :
  length a = n -> length b = n -> length d = n -> length (map3 f a b d) = n.
Proof. revert b d n. induction a as [|x a IH]; intros [|y b] [|z d] [|n]; cbn; try lia. intros. f_equal. apply IH; lia. Qed.

Lemma map2_length {A B D} (f : A -> B -> D) a b n : length a = n -> length b = n -> length (map2 f a b) = n.
Proof. revert b n. induction a as [|x a IH]; intros [|y b] [|n]; cbn; try lia. intros. f_equal. apply IH; lia. Qed.

Lemma vadd_length d s : length (vadd d s) = length d.
Proof. revert s. induction d as [|x d IH]; intros [|y s]; cbn; auto. Qed.

Lemma mapi_from_length {A B} i (f : nat -> A -> B) l : length (mapi_from i f l) = length l.
Proof. revert i. induction l as [|x l IH]; intros i; cbn; auto. Qed.

Lemma apply_filter_length filt ft d : length (apply_filter filt ft d) = length d.
Proof. destruct filt; [apply mapi_from_length|reflexivity]. Qed.

Lemma div_real_length d x : length (div_real d x) = length d.
Proof. apply map_length. Qed.

(** ** GetRHS *)

Lemma node_sum_snoc n vs v : length v = n -> node_sum n (vs ++ [v]) = vadd (node_sum n vs) v.
Proof.
  intros H. apply nth_error_ext. intros i. unfold node_sum.
  assert (K : forall d s, length d = length s -> forall i,
     nth_error (vadd d s) i = match nth_error d i, nth_error s i with Some a, Some b => Some (Cadd a b) | _, _ => None end).
  { clear. induction d as [|x d IH]; intros [|y s] Hl [|i]; cbn in *; try lia; auto. }
  rewrite K by (rewrite map_length, seq_length; lia).
  rewrite !nth_error_map.
  destruct (Nat.lt_ge_cases i n) as [Hi|Hi].
  - rewrite (nth_error_nth' (seq 0 n) 0%nat) by (rewrite seq_length; exact Hi).
    rewrite seq_nth by exact Hi. cbn [option_map Nat.add].
    rewrite map_app, Csum_app. cbn [map Csum].
    rewrite (nth_error_nth' v C0) by lia. f_equal. ring.
  - rewrite (proj2 (nth_error_None (seq 0 n) i)) by (rewrite seq_length; exact Hi). reflexivity.
Qed.

Lemma node_sum_nil n : node_sum n [] = repeat C0 n.
Proof.
  unfold node_sum. cbn [map Csum]. rewrite <- (seq_length n 0) at 2. generalize (seq 0 n). intros l.
  induction l as [|x l IH]; cbn; [reflexivity|]. f_equal. exact IH.
Qed.

Lemma fold_terms n e t fs vs : forall ws tmp, length tmp = n ->
  Forall2 (fun f v => writes n (f e t) v) fs vs ->
  exists tmp', length tmp' = n /\
    fold_left (add_term e t) fs (node_sum n ws, tmp) = (node_sum n (ws ++ vs), tmp').
Proof.
  intros ws tmp Ht H. revert ws tmp Ht. induction H as [|f v fs vs [Hv Hf] H IH]; intros ws tmp Ht.
  - exists tmp. rewrite app_nil_r. auto.
  - cbn [fold_left].
    assert (A : add_term e t (node_sum n ws, tmp) f = (node_sum n (ws ++ [v]), v)).
    { unfold add_term. cbn [fst snd]. rewrite (Hf tmp Ht), node_sum_snoc by exact Hv. reflexivity. }
    rewrite A. destruct (IH (ws ++ [v]) v Hv) as (tmp' & Hl & E). exists tmp'. split; [exact Hl|]. etransitivity; [exact E|]. rewrite <- app_assoc. reflexivity.
Qed.

Lemma fold_sources n t fs vs : forall ws tmp, length tmp = n ->
  Forall2 (fun f v => writes n (f t) v) fs vs ->
  exists tmp', length tmp' = n /\
    fold_left (add_source t) fs (node_sum n ws, tmp) = (node_sum n (ws ++ vs), tmp').
Proof.
  intros ws tmp Ht H. revert ws tmp Ht. induction H as [|f v fs vs [Hv Hf] H IH]; intros ws tmp Ht.
  - exists tmp. rewrite app_nil_r. auto.
  - cbn [fold_left].
    assert (A : add_source t (node_sum n ws, tmp) f = (node_sum n (ws ++ [v]), v)).
    { unfold add_source. cbn [fst snd]. rewrite (Hf tmp Ht), node_sum_snoc by exact Hv. reflexivity. }
    rewrite A. destruct (IH (ws ++ [v]) v Hv) as (tmp' & Hl & E). exists tmp'. split; [exact Hl|]. etransitivity; [exact E|]. rewrite <- app_assoc. reflexivity.
Qed.

Lemma apply_mods_filter regs i : forall d,
  apply_mods regs i d = fold_left (fun d m => m d) (modifiers_for i regs) d.
Proof.
  unfold apply_mods, modifiers_for. induction regs as [|m regs IH]; intros d; cbn; [reflexivity|].
  destruct (Nat.eqb (fst m) i); cbn; apply IH.
Qed.

Lemma registered_mods regs : forall p,
  let p' := fold_left (fun p r => register_modifier p (fst r) (snd r)) regs p in
  p_mods p' = p_mods p ++ regs /\ p_eqns p' = p_eqns p /\ p_calc p' = p_calc p.
Proof.
  induction regs as [|r regs IH]; intros p; cbn [fold_left]; [rewrite app_nil_r; auto|].
  destruct (IH (register_modifier p (fst r) (snd r))) as (E1 & E2 & E3).
  rewrite E1, E2, E3. cbn. rewrite <- app_assoc. destruct r. auto.
Qed.

Lemma get_rhs_sum p regs e i t n q tv sv :
  p_mods p = [] -> nth_error (p_eqns p) i = Some q ->
  Forall2 (fun f v => writes n (f e t) v) (q_terms q) tv ->
  Forall2 (fun s v => writes n (s t) v) (q_sources q) sv ->
  get_rhs (fold_left (fun p r => register_modifier p (fst r) (snd r)) regs p) e i t n =
  Some (fold_left (fun d m => m d) (modifiers_for i regs) (node_sum n (tv ++ sv))).
Proof.
  intros Hm Hq Ht Hs. destruct (registered_mods regs p) as (E1 & E2 & _).
  unfold get_rhs. rewrite E2, Hq, E1, Hm. cbn [app].
  assert (Z : (repeat C0 n, repeat C0 n) = (node_sum n [], repeat C0 n)) by (rewrite node_sum_nil; reflexivity).
  rewrite Z. destruct (fold_terms n e t _ _ [] (repeat C0 n) (repeat_length _ _) Ht) as (tmp & Hl & E). rewrite E.
  destruct (fold_sources n t _ _ tv tmp Hl Hs) as (tmp' & _ & E'). cbn [app]. rewrite E'. cbn [fst].
  rewrite apply_mods_filter. reflexivity.
Qed.

Lemma get_denum_sum p e i t n q tv :
  nth_error (p_eqns p) i = Some q ->
  Forall2 (fun f v => writes n (f e t) v) (q_denum q) tv ->
  get_denum p e i t n = Some (node_sum n tv).
Proof.
  intros Hq Ht. unfold get_denum. rewrite Hq.
  assert (Z : (repeat C0 n, repeat C0 n) = (node_sum n [], repeat C0 n)) by (rewrite node_sum_nil; reflexivity).
  rewrite Z. destruct (fold_terms n e t _ _ [] (repeat C0 n) (repeat_length _ _) Ht) as (tmp & Hl & E). rewrite E.
  reflexivity.
Qed.

(** ** Lengths *)

Lemma fold_terms_length n e t fs : forall st, length (fst st) = n -> length (snd st) = n ->
  (forall f tmp, In f fs -> length tmp = n -> length (f e t tmp) = n) ->
  length (fst (fold_left (add_term e t) fs st)) = n /\ length (snd (fold_left (add_term e t) fs st)) = n.
Proof.
  induction fs as [|f fs IH]; intros st H1 H2 Hf; cbn [fold_left]; [auto|]. apply IH.
  - unfold add_term. cbn. rewrite vadd_length. exact H1.
  - unfold add_term. cbn. apply Hf; [left; reflexivity|exact H2].
  - intros g tmp Hg. apply Hf. right. exact Hg.
Qed.

Lemma fold_sources_length n t fs : forall st, length (fst st) = n -> length (snd st) = n ->
  (forall f tmp, In f fs -> length tmp = n -> length (f t tmp) = n) ->
  length (fst (fold_left (add_source t) fs st)) = n.
Proof.
  induction fs as [|f fs IH]; intros st H1 H2 Hf; cbn [fold_left]; [auto|]. apply IH.
  - unfold add_source. cbn. rewrite vadd_length. exact H1.
  - unfold add_source. cbn. apply Hf; [left; reflexivity|exact H2].
  - intros g tmp Hg. apply Hf. right. exact Hg.
Qed.

Lemma apply_mods_length n (regs : list (nat * (data -> data))) i : forall d : data, length d = n ->
  (forall (m : nat * (data -> data)) (d : data), In m regs -> length d = n -> length (snd m d) = n) -> length (apply_mods regs i d) = n.
Proof.
  unfold apply_mods. induction regs as [|m regs IH]; intros d Hd Hm; cbn; [exact Hd|]. apply IH.
  - destruct (Nat.eqb (fst m) i); [apply Hm; [left; reflexivity|exact Hd]|exact Hd].
  - intros m' d' H. apply Hm. right. exact H.
Qed.

Lemma get_rhs_length n p e i t r : keeps_length n p -> get_rhs p e i t n = Some r -> length r = n.
Proof.
  intros K H. unfold get_rhs in H. destruct (nth_error (p_eqns p) i) as [q|] eqn:Eq; [|discriminate].
  apply nth_error_In in Eq. injection H as <-. apply apply_mods_length; [|intros; eapply kl_mod; eauto].
  destruct (fold_terms_length n e t (q_terms q) (repeat C0 n, repeat C0 n)) as [A B];
    try (cbn; apply repeat_length); [intros; eapply kl_term; eauto|].
  apply fold_sources_length; auto. intros; eapply kl_source; eauto.
Qed.

Lemma get_denum_length n p e i t r : keeps_length n p -> get_denum p e i t n = Some r -> length r = n.
Proof.
  intros K H. unfold get_denum in H. destruct (nth_error (p_eqns p) i) as [q|] eqn:Eq; [|discriminate].
  apply nth_error_In in Eq. injection H as <-.
  apply fold_terms_length; try (cbn; apply repeat_length). intros; eapply kl_term; eauto.
Qed.

Lemma sync_from_fields calcs : forall i e, e_fields (sync_from i calcs e) = e_fields e.
Proof. induction calcs as [|c calcs IH]; intros i e; cbn; [reflexivity|]. rewrite IH. reflexivity. Qed.

Lemma sync_fields p e : e_fields (sync p e) = e_fields e.
Proof. apply sync_from_fields. Qed.

Lemma sync_from_count calcs : forall i e, length (e_derived (sync_from i calcs e)) = length (e_derived e).
Proof. induction calcs as [|c calcs IH]; intros i e; cbn; [reflexivity|]. rewrite IH. cbn. apply set_nth_length. Qed.

(** ** Euler *)

Lemma nth_error_firstn_lt {A} (l : list A) i k : (k < i)%nat -> nth_error (firstn i l) k = nth_error l k.
Proof. revert i k. induction l as [|x l IH]; intros [|i] [|k] H; cbn; try lia; auto. apply IH. lia. Qed.

Lemma skipn_set_nth {A} (l : list A) i j x : (i < j)%nat -> skipn j (set_nth i x l) = skipn j l.
Proof. revert i j. induction l as [|y l IH]; intros [|i] [|j] H; cbn; try lia; auto. apply IH. lia. Qed.

Section Euler.
  Variables (p : pde) (ft : transform) (filt : option (R -> R)) (dt t : R).

  (** Value of a field after the update, given the bricks [s] at the start. *)
  Definition updated (s : env) (i : nat) (d : data) : option data :=
    match get_rhs p s i t (length d), get_denum p s i t (length d) with
    | Some r, Some a => Some (apply_filter filt ft (map3 (semi_implicit dt) d r a))
    | _, _ => None
    end.

  Lemma euler_fields_inv s : unaffected_by_earlier p t s ->
    (length (e_fields s) <= length (p_eqns p))%nat ->
    forall todo i e, (i + todo = length (e_fields s))%nat ->
      e_derived e = e_derived s -> length (e_fields e) = length (e_fields s) ->
      (forall j, (i <= j)%nat -> nth_error (e_fields e) j = nth_error (e_fields s) j) ->
      (forall j d, (j < i)%nat -> nth_error (e_fields s) j = Some d -> nth_error (e_fields e) j = updated s j d) ->
      exists e', euler_fields p ft filt dt t todo i e = Some e' /\
        length (e_fields e') = length (e_fields s) /\ e_derived e' = e_derived s /\
        forall j d, nth_error (e_fields s) j = Some d -> nth_error (e_fields e') j = updated s j d.
  Proof.
    intros Hu Hlen. induction todo as [|todo IH]; intros i e Hi Hd Hl Hge Hlt.
    - exists e. repeat split; auto. intros j d Hj. apply Hlt; [|exact Hj].
      assert (j < length (e_fields s))%nat by (apply nth_error_Some; congruence). lia.
    - cbn [euler_fields].
      destruct (nth_error (e_fields s) i) as [d|] eqn:Ed.
      2:{ apply nth_error_None in Ed. lia. }
      rewrite (Hge i) by lia. rewrite Ed.
      destruct (Hu i e d Ed Hd Hl Hge) as [E1 E2]. rewrite E1, E2.
      assert (Hq : exists q, nth_error (p_eqns p) i = Some q).
      { destruct (nth_error (p_eqns p) i) eqn:E; [eauto|]. apply nth_error_None in E. lia. }
      destruct Hq as (q & Hq).
      assert (Hr : exists r, get_rhs p s i t (length d) = Some r) by (unfold get_rhs; rewrite Hq; eauto).
      assert (Ha : exists a, get_denum p s i t (length d) = Some a) by (unfold get_denum; rewrite Hq; eauto).
      destruct Hr as (r & Hr). destruct Ha as (a & Ha). rewrite Hr, Ha.
      apply IH.
      + lia.
      + exact Hd.
      + cbn. rewrite set_nth_length. exact Hl.
      + intros j Hj. cbn. rewrite nth_error_set_nth_neq by lia. apply Hge. lia.
      + intros j d' Hj Hd'. cbn. destruct (Nat.eq_dec i j) as [<-|Hne].
        * rewrite nth_error_set_nth_eq by lia. rewrite Ed in Hd'. injection Hd' as <-.
          unfold updated. rewrite Hr, Ha. reflexivity.
        * rewrite nth_error_set_nth_neq by exact Hne. apply Hlt; [lia|exact Hd'].
  Qed.

  Lemma euler_step_scheme e : let s := spectrum p ft e in
    (length (e_fields e) <= length (p_eqns p))%nat -> unaffected_by_earlier p t s ->
    exists e', euler_step p ft filt dt t e = Some e' /\
      length (e_fields e') = length (e_fields e) /\
      forall i y r a, nth_error (e_fields s) i = Some y ->
        get_rhs p s i t (length y) = Some r -> get_denum p s i t (length y) = Some a ->
        nth_error (e_fields e') i = Some (to_real ft (apply_filter filt ft (map3 (semi_implicit dt) y r a))).
  Proof.
    intros s Hlen Hu. unfold euler_step.
    replace {| e_fields := map (fft ft) (e_fields (sync p e)); e_derived := map (fft ft) (e_derived (sync p e)) |} with s
      by (unfold s, spectrum; rewrite sync_fields; reflexivity).
    assert (Hs : length (e_fields s) = length (e_fields e)) by (unfold s; cbn; apply map_length).
    destruct (euler_fields_inv s Hu ltac:(lia) (length (e_fields e)) 0 s) as (e' & E & L & _ & N); [rewrite Hs; reflexivity|reflexivity|reflexivity|reflexivity|intros; lia|].
    rewrite E. eexists. split; [reflexivity|]. cbn [e_fields]. rewrite map_length. split; [lia|].
    intros i y r a Hy Hr Ha. rewrite nth_error_map, (N i y Hy). unfold updated. rewrite Hr, Ha. reflexivity.
  Qed.

  Lemma euler_fields_keeps : forall todo i e e', euler_fields p ft filt dt t todo i e = Some e' ->
    e_derived e' = e_derived e /\ length (e_fields e') = length (e_fields e) /\
    forall j, (j < i)%nat -> nth_error (e_fields e') j = nth_error (e_fields e) j.
  Proof.
    induction todo as [|todo IH]; intros i e e' H; cbn [euler_fields] in H; [injection H as <-; auto|].
    destruct (nth_error (e_fields e) i) as [d|]; [|discriminate].
    destruct (get_rhs p e i t (length d)); [|discriminate]. destruct (get_denum p e i t (length d)); [|discriminate].
    apply IH in H. destruct H as (H1 & H2 & H3). cbn in H1, H2. rewrite set_nth_length in H2.
    split; [exact H1|]. split; [exact H2|]. intros j Hj. rewrite H3 by lia. cbn. apply nth_error_set_nth_neq. lia.
  Qed.

  Lemma euler_fields_sequential : forall todo i e e', euler_fields p ft filt dt t todo i e = Some e' ->
    (i + todo = length (e_fields e))%nat ->
    forall j d, (i <= j)%nat -> nth_error (e_fields e) j = Some d ->
      let mix := {| e_fields := firstn j (e_fields e') ++ skipn j (e_fields e); e_derived := e_derived e |} in
      exists r a, get_rhs p mix j t (length d) = Some r /\ get_denum p mix j t (length d) = Some a /\
        nth_error (e_fields e') j = Some (apply_filter filt ft (map3 (semi_implicit dt) d r a)).
  Proof.
    induction todo as [|todo IH]; intros i e e' H Hi j d Hj Hd.
    - assert (j < length (e_fields e))%nat by (apply nth_error_Some; congruence). lia.
    - cbn [euler_fields] in H.
      destruct (nth_error (e_fields e) i) as [di|] eqn:Ei; [|discriminate].
      destruct (get_rhs p e i t (length di)) as [r|] eqn:Er; [|discriminate].
      destruct (get_denum p e i t (length di)) as [a|] eqn:Ea; [|discriminate].
      pose proof (euler_fields_keeps _ _ _ _ H) as (K1 & K2 & K3). cbn in K2. rewrite set_nth_length in K2.
      destruct (Nat.eq_dec i j) as [<-|Hne].
      + rewrite Ei in Hd. injection Hd as <-.
        assert (M : firstn i (e_fields e') ++ skipn i (e_fields e) = e_fields e).
        { rewrite <- (firstn_skipn i (e_fields e)) at 2. f_equal. apply nth_error_ext. intros k.
          destruct (Nat.lt_ge_cases k i) as [Hk|Hk].
          - rewrite !nth_error_firstn_lt by exact Hk. rewrite K3 by lia. cbn. apply nth_error_set_nth_neq. lia.
          - rewrite (proj2 (nth_error_None _ _)) by (rewrite firstn_length; lia).
            rewrite (proj2 (nth_error_None _ _)) by (rewrite firstn_length; lia). reflexivity. }
        rewrite M. exists r, a. destruct e as [fs ds]. cbn in *. split; [exact Er|]. split; [exact Ea|].
        rewrite K3 by lia. apply nth_error_set_nth_eq. lia.
      + assert (P : nth_error (e_fields (set_field e i (apply_filter filt ft (map3 (semi_implicit dt) di r a)))) j = Some d).
        { cbn. rewrite nth_error_set_nth_neq by exact Hne. exact Hd. }
        assert (P' : (S i + todo = length (e_fields (set_field e i (apply_filter filt ft (map3 (semi_implicit dt) di r a)))))%nat).
        { cbn. rewrite set_nth_length. lia. }
        assert (P'' : (S i <= j)%nat) by lia.
        pose proof (IH _ _ _ H P' j d P'' P) as Q. cbn [set_field e_fields e_derived] in Q.
        rewrite skipn_set_nth in Q by lia. exact Q.
  Qed.

  Lemma euler_step_sequential e : let s := spectrum p ft e in
    (length (e_fields e) <= length (p_eqns p))%nat ->
    exists e' Y', euler_step p ft filt dt t e = Some e' /\ e_fields e' = map (to_real ft) Y' /\
      length Y' = length (e_fields e) /\
      forall i y, nth_error (e_fields s) i = Some y ->
        let mix := {| e_fields := firstn i Y' ++ skipn i (e_fields s); e_derived := e_derived s |} in
        exists r a, get_rhs p mix i t (length y) = Some r /\ get_denum p mix i t (length y) = Some a /\
          nth_error Y' i = Some (apply_filter filt ft (map3 (semi_implicit dt) y r a)).
  Proof.
    intros s Hlen. unfold euler_step.
    replace {| e_fields := map (fft ft) (e_fields (sync p e)); e_derived := map (fft ft) (e_derived (sync p e)) |} with s
      by (unfold s, spectrum; rewrite sync_fields; reflexivity).
    assert (Hs : length (e_fields s) = length (e_fields e)) by (unfold s; cbn; apply map_length).
    assert (P : forall todo k e, (k + todo <= length (e_fields e))%nat ->
      (length (e_fields e) <= length (p_eqns p))%nat -> exists e', euler_fields p ft filt dt t todo k e = Some e').
    { induction todo as [|todo IH]; intros k e0 Hk Hq; cbn [euler_fields]; [eauto|].
      destruct (nth_error (e_fields e0) k) as [d|] eqn:Ed; [|apply nth_error_None in Ed; lia].
      destruct (nth_error (p_eqns p) k) as [q|] eqn:Eq; [|apply nth_error_None in Eq; lia].
      unfold get_rhs, get_denum. rewrite Eq. apply IH; cbn; rewrite set_nth_length; lia. }
    destruct (P (length (e_fields e)) 0%nat s) as (e' & E); [lia|lia|]. rewrite E.
    pose proof (euler_fields_keeps _ _ _ _ E) as (_ & L & _).
    eexists _, (e_fields e'). split; [reflexivity|]. split; [reflexivity|]. split; [lia|].
    intros i y Hy. apply (euler_fields_sequential _ _ _ _ E); [lia|lia|exact Hy].
  Qed.
End Euler.

Lemma single_field_unaffected p t s : length (e_fields s) = 1%nat -> unaffected_by_earlier p t s.
Proof.
  intros H1 i e' d Hd Hder Hl Hge.
  assert (Hi : i = 0%nat).
  { assert (i < length (e_fields s))%nat by (apply nth_error_Some; congruence). lia. }
  subst i. assert (E : e' = s).
  { destruct e' as [f' d'], s as [f0 d0]. cbn in *. subst d'. f_equal. apply nth_error_ext. intros j. apply Hge. lia. }
  subst e'. auto.
Qed.

Lemma semi_implicit_solves h y k a : Csub C1 (Cmul (RtoC h) a) <> C0 ->
  semi_implicit h y k a = Cadd y (Cmul (RtoC h) (Cadd (Cmul a (semi_implicit h y k a)) k)).
Proof. intros H. unfold semi_implicit. field. exact H. Qed.

Lemma euler_time p ft filt dt nsteps : forall step e e' step',
  euler_propagate p ft filt dt nsteps step e = Some (e', step') -> step' = (step + nsteps)%nat.
Proof.
  induction nsteps as [|n IH]; intros step e e' step' H; cbn in H.
  - injection H as _ <-. lia.
  - destruct (euler_step p ft filt dt (time_of dt step) e); [|discriminate]. apply IH in H. lia.
Qed.

Lemma rk4_time p ft filt dt nsteps : forall step e e' step',
  rk4_propagate p ft filt dt nsteps step e = Some (e', step') -> step' = (step + nsteps)%nat.
Proof.
  induction nsteps as [|n IH]; intros step e e' step' H; cbn in H.
  - injection H as _ <-. lia.
  - destruct (rk4_step p ft filt dt (time_of dt step) e); [|discriminate]. apply IH in H. lia.
Qed.

(** ** RK4 *)

Section RK4.
  Variables (n : nat) (p : pde) (ft : transform) (filt : option (R -> R)) (dt t : R).
  Hypothesis GT : good_transform n ft.
  Hypothesis KL : keeps_length n p.
  Hypothesis CD : constant_denum p.
  Hypothesis DF : derived_from_fields p.

  Lemma get_denum_some e i m : (i < length (p_eqns p))%nat -> exists a, get_denum p e i t m = Some a.
  Proof. intros H. unfold get_denum. destruct (nth_error (p_eqns p) i) eqn:E; [eauto|]. apply nth_error_None in E. lia. Qed.
  Lemma get_rhs_some e i m : (i < length (p_eqns p))%nat -> exists a, get_rhs p e i t m = Some a.
  Proof. intros H. unfold get_rhs. destruct (nth_error (p_eqns p) i) eqn:E; [eauto|]. apply nth_error_None in E. lia. Qed.

  Lemma all_length_nth l i d : all_length n l -> nth_error l i = Some d -> length d = n.
  Proof. intros H E. apply nth_error_In in E. unfold all_length in H. rewrite Forall_forall in H. auto. Qed.

  Lemma all_length_intro (l : list data) : (forall i d, nth_error l i = Some d -> length d = n) -> all_length n l.
  Proof. intros H. apply Forall_forall. intros d Hd. apply In_nth_error in Hd. destruct Hd as (i & Hi). eauto. Qed.

  Lemma rhs_all_spec e : forall fs i, (i + length fs <= length (p_eqns p))%nat -> all_length n fs ->
    exists k, rhs_all p e t i fs = Some k /\ length k = length fs /\ all_length n k /\
      forall j y, nth_error fs j = Some y -> nth_error k j = get_rhs p e (i + j) t (length y).
  Proof.
    induction fs as [|d fs IH]; intros i Hi Hl.
    - exists []. repeat split; [constructor|]. intros [|j] y; discriminate.
    - inversion Hl as [|? ? Hd Hl']; subst. cbn [length] in Hi.
      destruct (get_rhs_some e i (length d)) as (r & Hr); [lia|].
      destruct (IH (S i)) as (k & Ek & Lk & Ak & Nk); [lia|exact Hl'|].
      exists (r :: k). cbn [rhs_all]. rewrite Hr, Ek. repeat split.
      + cbn. lia.
      + constructor; [|exact Ak]. eapply get_rhs_length; [exact KL|exact Hr].
      + intros [|j] y Hy; cbn in Hy |- *.
        * injection Hy as <-. rewrite Nat.add_0_r. congruence.
        * rewrite (Nk j y Hy). f_equal. lia.
  Qed.

  (** Generic loop: every field is replaced by a value depending on its own old
      value only. *)
  Lemma stage_fields_spec h k Y : all_length n Y -> all_length n k -> length k = length Y ->
    (length Y <= length (p_eqns p))%nat ->
    forall todo i e, (i + todo = length Y)%nat -> length (e_fields e) = length Y ->
      (forall j, (i <= j)%nat -> nth_error (e_fields e) j = nth_error Y j) ->
      (forall j y kj a, (j < i)%nat -> nth_error Y j = Some y -> nth_error k j = Some kj ->
         get_denum p e j t n = Some a -> nth_error (e_fields e) j = Some (to_real ft (map3 (semi_implicit h) y kj a))) ->
      exists e', stage_fields p ft h t todo i k e = Some e' /\ length (e_fields e') = length Y /\
        e_derived e' = e_derived e /\
        forall j y kj a, nth_error Y j = Some y -> nth_error k j = Some kj -> get_denum p e j t n = Some a ->
          nth_error (e_fields e') j = Some (to_real ft (map3 (semi_implicit h) y kj a)).
  Proof.
    intros HY Hk Hkl HlY. induction todo as [|todo IH]; intros i e Hi Hl Hge Hlt.
    - exists e. repeat split; auto. intros j y kj a Hy Hkj Ha. apply (Hlt j); auto.
      assert (j < length Y)%nat by (apply nth_error_Some; congruence). lia.
    - cbn [stage_fields]. rewrite (Hge i) by lia.
      destruct (nth_error Y i) as [y|] eqn:Ey; [|apply nth_error_None in Ey; lia].
      destruct (nth_error k i) as [ki|] eqn:Ek; [|apply nth_error_None in Ek; lia].
      rewrite (all_length_nth Y i y HY Ey).
      destruct (get_denum_some e i n) as (a & Ha); [lia|]. rewrite Ha.
      destruct (IH (S i) (set_field e i (to_real ft (map3 (semi_implicit h) y ki a)))) as (e' & E & L & D & N).
      + lia.
      + cbn. rewrite set_nth_length. exact Hl.
      + intros j Hj. cbn. rewrite nth_error_set_nth_neq by lia. apply Hge. lia.
      + intros j y' kj a' Hj Hy' Hkj Ha'. rewrite (CD _ e) in Ha'. cbn. destruct (Nat.eq_dec i j) as [<-|Hne].
        * rewrite nth_error_set_nth_eq by lia. congruence.
        * rewrite nth_error_set_nth_neq by exact Hne. apply (Hlt j); auto. lia.
      + exists e'. split; [exact E|]. split; [exact L|]. split; [exact D|].
        intros j y' kj a' Hy' Hkj Ha'. apply N; auto. rewrite (CD _ e). exact Ha'.
  Qed.

  (** The stage as a list of amplitudes. *)
  Lemma stage_exists h k Y e : all_length n Y -> all_length n k -> length k = length Y ->
    (length Y <= length (p_eqns p))%nat ->
    exists St, implicit_stage p h t e Y k St /\ all_length n St.
  Proof.
    intros HY Hk Hkl HlY.
    set (val := fun i => match nth_error Y i, nth_error k i, get_denum p e i t n with
                         | Some y, Some kj, Some a => map3 (semi_implicit h) y kj a | _, _, _ => [] end).
    exists (map val (seq 0 (length Y))). split; [split|].
    - rewrite map_length, seq_length. reflexivity.
    - intros i y kj a Hy Hkj Ha. rewrite (all_length_nth Y i y HY Hy) in Ha.
      assert (i < length Y)%nat by (apply nth_error_Some; congruence).
      rewrite nth_error_map, (nth_error_nth' (seq 0 (length Y)) 0%nat) by (rewrite seq_length; lia).
      rewrite seq_nth by lia. cbn. unfold val. rewrite Hy, Hkj, Ha. reflexivity.
    - apply all_length_intro. intros i d Hd.
      assert (i < length Y)%nat.
      { assert (H : nth_error (map val (seq 0 (length Y))) i <> None) by congruence.
        apply nth_error_Some in H. rewrite map_length, seq_length in H. exact H. }
      rewrite nth_error_map, (nth_error_nth' (seq 0 (length Y)) 0%nat) in Hd by (rewrite seq_length; lia).
      rewrite seq_nth in Hd by lia. cbn in Hd. injection Hd as <-. unfold val.
      destruct (nth_error Y i) as [y|] eqn:Ey; [|apply nth_error_None in Ey; lia].
      destruct (nth_error k i) as [ki|] eqn:Ek; [|apply nth_error_None in Ek; lia].
      destruct (get_denum_some e i n) as (a & Ha); [lia|]. rewrite Ha.
      apply map3_length; [exact (all_length_nth Y i y HY Ey)|exact (all_length_nth k i ki Hk Ek)|exact (get_denum_length n p e i t a KL Ha)].
  Qed.

  Lemma correction_spec h k Y d0 e : all_length n Y -> all_length n k -> length k = length Y ->
    (length Y <= length (p_eqns p))%nat -> length (e_derived e) = length d0 -> length d0 = length (p_calc p) ->
    exists St k' e', implicit_stage p h t e Y k St /\ all_length n St /\
      correction p ft h t k (with_fields e Y) = Some (e', k') /\
      nonlinear_part p ft t d0 St k' /\ all_length n k' /\ length (e_derived e') = length d0.
  Proof.
    intros HY Hk Hkl HlY Hd Hc.
    destruct (stage_exists h k Y e HY Hk Hkl HlY) as (St & HSt & HSl).
    unfold correction.
    destruct (stage_fields_spec h k Y HY Hk Hkl HlY (length Y) 0 (with_fields e Y)) as (e1 & E1 & L1 & D1 & N1);
      [reflexivity|reflexivity|reflexivity|intros; lia|].
    change (length (e_fields (with_fields e Y))) with (length Y). rewrite E1.
    (* the fields are now the real-space images of the stage *)
    assert (F1 : e_fields e1 = map (to_real ft) St).
    { apply nth_error_ext. intros j. rewrite nth_error_map.
      destruct (nth_error Y j) as [y|] eqn:Ey.
      - assert (Hj : (j < length Y)%nat) by (apply nth_error_Some; congruence).
        destruct (nth_error k j) as [kj|] eqn:Ek; [|apply nth_error_None in Ek; lia].
        destruct (get_denum_some e j n) as (a & Ha); [lia|].
        rewrite (N1 j y kj a); [|exact Ey|exact Ek|rewrite (CD _ e); exact Ha].
        destruct HSt as [_ HSt]. rewrite (HSt j y kj a Ey Ek); [reflexivity|].
        rewrite (all_length_nth Y j y HY Ey). exact Ha.
      - apply nth_error_None in Ey. destruct HSt as [HSL _].
        rewrite (proj2 (nth_error_None (e_fields e1) j)) by lia.
        rewrite (proj2 (nth_error_None St j)) by lia. reflexivity. }
    rewrite sync_fields, F1, map_map.
    assert (F2 : map (fun x => fft ft (to_real ft x)) St = St).
    { rewrite <- (map_id St) at 2. apply map_ext_in. intros x Hx. unfold all_length in HSl. rewrite Forall_forall in HSl.
      apply (gt_inverse n ft GT). auto. }
    rewrite F2. cbn [e_fields].
    set (e3 := {| e_fields := St; e_derived := map (fft ft) (e_derived (sync p e1)) |}).
    assert (E3 : e3 = at_amplitudes p ft d0 St).
    { unfold e3, at_amplitudes. f_equal. f_equal. rewrite <- F1.
      destruct e1 as [f1 d1]. cbn [e_fields e_derived] in *. apply DF; [rewrite D1; cbn; lia|exact Hc]. }
    assert (HSL : length St = length Y) by apply HSt.
    destruct (rhs_all_spec e3 St 0) as (k' & Ek' & Lk' & Ak' & Nk'); [cbn; lia|exact HSl|].
    rewrite Ek'. exists St, k', e3. split; [exact HSt|]. split; [exact HSl|]. split; [reflexivity|]. split; [|split; [exact Ak'|]].
    - split; [exact Lk'|]. intros i y Hy. rewrite (Nk' i y Hy), E3. reflexivity.
    - unfold e3. cbn. rewrite map_length. unfold sync. rewrite sync_from_count, D1. exact Hd.
  Qed.

  Lemma finish_fields_spec final Y : all_length n Y -> length final = length Y ->
    (length Y <= length (p_eqns p))%nat ->
    forall todo i e, (i + todo = length Y)%nat -> length (e_fields e) = length Y ->
      (forall j, (i <= j)%nat -> nth_error (e_fields e) j = nth_error Y j) ->
      (forall j f a, (j < i)%nat -> nth_error final j = Some f -> get_denum p e j t n = Some a ->
         nth_error (e_fields e) j = Some (apply_filter filt ft (map2 (fun y a => Cdiv y (Csub C1 (Cmul (RtoC dt) a))) f a))) ->
      exists e', finish_fields p ft filt dt t todo i final e = Some e' /\ length (e_fields e') = length Y /\
        forall j f a, nth_error final j = Some f -> get_denum p e j t n = Some a ->
         nth_error (e_fields e') j = Some (apply_filter filt ft (map2 (fun y a => Cdiv y (Csub C1 (Cmul (RtoC dt) a))) f a)).
  Proof.
    intros HY Hf HlY. induction todo as [|todo IH]; intros i e Hi Hl Hge Hlt.
    - exists e. repeat split; auto. intros j f a Hfj Ha. apply (Hlt j); auto.
      assert (j < length final)%nat by (apply nth_error_Some; congruence). lia.
    - cbn [finish_fields]. rewrite (Hge i) by lia.
      destruct (nth_error Y i) as [y|] eqn:Ey; [|apply nth_error_None in Ey; lia].
      destruct (nth_error final i) as [fi|] eqn:Ef; [|apply nth_error_None in Ef; lia].
      rewrite (all_length_nth Y i y HY Ey).
      destruct (get_denum_some e i n) as (a & Ha); [lia|]. rewrite Ha.
      match goal with |- context [set_field e i ?d] => destruct (IH (S i) (set_field e i d)) as (e' & E & L & N) end.
      + lia.
      + cbn. rewrite set_nth_length. exact Hl.
      + intros j Hj. cbn. rewrite nth_error_set_nth_neq by lia. apply Hge. lia.
      + intros j f' a' Hj Hf' Ha'. rewrite (CD _ e) in Ha'. cbn. destruct (Nat.eq_dec i j) as [<-|Hne].
        * rewrite nth_error_set_nth_eq by lia. congruence.
        * rewrite nth_error_set_nth_neq by exact Hne. apply (Hlt j); auto. lia.
      + exists e'. split; [exact E|]. split; [exact L|].
        intros j f' a' Hf' Ha'. apply N; auto. rewrite (CD _ e). exact Ha'.
  Qed.

  Lemma finish_fields_derived final : forall todo i e e', finish_fields p ft filt dt t todo i final e = Some e' ->
    e_derived e' = e_derived e.
  Proof.
    induction todo as [|todo IH]; intros i e e' H; cbn [finish_fields] in H; [injection H as <-; reflexivity|].
    destruct (nth_error (e_fields e) i); [|discriminate]. destruct (nth_error final i); [|discriminate].
    destruct (get_denum p e i t _); [|discriminate]. apply IH in H. exact H.
  Qed.

  Lemma accumulate_nth h final k j f kj : nth_error final j = Some f -> nth_error k j = Some kj ->
    nth_error (accumulate h final k) j = Some (map2 (fun y k => Cadd y (Cmul (RtoC h) k)) f kj).
  Proof.
    unfold accumulate. revert k j. induction final as [|x final IH]; intros [|y k] [|j]; cbn; intros H1 H2; try discriminate.
    - congruence.
    - apply IH; assumption.
  Qed.

  Lemma accumulate_length h final k : length k = length final -> length (accumulate h final k) = length final.
  Proof. intros H. apply map2_length; [reflexivity|exact H]. Qed.

  Lemma combine4_steps (y k1 k2 k3 k4 a : data) m : length y = m -> length k1 = m -> length k2 = m -> length k3 = m -> length k4 = m ->
    length a = m ->
    map2 (fun y a => Cdiv y (Csub C1 (Cmul (RtoC dt) a)))
    (map2 (fun y k => Cadd y (Cmul (RtoC (1 / 6 * dt)) k))
     (map2 (fun y k => Cadd y (Cmul (RtoC (1 / 3 * dt)) k))
      (map2 (fun y k => Cadd y (Cmul (RtoC (1 / 3 * dt)) k))
       (map2 (fun y k => Cadd y (Cmul (RtoC (1 / 6 * dt)) k)) y k1) k2) k3) k4) a =
    map (fun j => Cdiv (combine4 dt (nth j y C0) (nth j k1 C0) (nth j k2 C0) (nth j k3 C0) (nth j k4 C0))
                       (Csub C1 (Cmul (RtoC dt) (nth j a C0)))) (seq 0 m).
  Proof.
    revert y k1 k2 k3 k4 a. induction m as [|m IH]; intros [|y0 y] [|a1 k1] [|a2 k2] [|a3 k3] [|a4 k4] [|a0 a]; cbn [length]; intros; try lia; [reflexivity|].
    cbn [map2 seq map]. f_equal.
    - cbn [nth]. f_equal. unfold combine4. replace (1 / 6 * dt) with (dt / 6) by field. replace (1 / 3 * dt) with (dt / 6 * 2) by field.
      rewrite (RtoC_mul (dt / 6) 2). ring.
    - rewrite (IH y k1 k2 k3 k4 a) by lia. rewrite <- seq_shift, map_map. reflexivity.
  Qed.

  Lemma rk4_step_scheme e : all_length n (e_fields e) -> (length (e_fields e) <= length (p_eqns p))%nat ->
    length (e_derived e) = length (p_calc p) ->
    let Y := map (fft ft) (e_fields e) in
    exists k1 s2 k2 s3 k3 s4 k4 e',
      nonlinear_part p ft t (e_derived e) Y k1 /\
      implicit_stage p (dt / 2) t e Y k1 s2 /\ nonlinear_part p ft t (e_derived e) s2 k2 /\
      implicit_stage p (dt / 2) t e Y k2 s3 /\ nonlinear_part p ft t (e_derived e) s3 k3 /\
      implicit_stage p dt t e Y k3 s4 /\ nonlinear_part p ft t (e_derived e) s4 k4 /\
      rk4_step p ft filt dt t e = Some e' /\ length (e_fields e') = length (e_fields e) /\
      length (e_derived e') = length (e_derived e) /\
      forall i y a r1 r2 r3 r4, nth_error Y i = Some y -> get_denum p e i t (length y) = Some a ->
        nth_error k1 i = Some r1 -> nth_error k2 i = Some r2 -> nth_error k3 i = Some r3 -> nth_error k4 i = Some r4 ->
        nth_error (e_fields e') i = Some (to_real ft (apply_filter filt ft
          (map (fun j => Cdiv (combine4 dt (nth j y C0) (nth j r1 C0) (nth j r2 C0) (nth j r3 C0) (nth j r4 C0))
                              (Csub C1 (Cmul (RtoC dt) (nth j a C0)))) (seq 0 n)))).
  Proof.
    intros Hlen Heq Hcalc Y.
    assert (HY : all_length n Y).
    { unfold all_length, Y in *. rewrite Forall_forall in *. intros d Hd. apply in_map_iff in Hd. destruct Hd as (x & <- & Hx).
      apply (gt_fft_len n ft GT). auto. }
    assert (LY : length Y = length (e_fields e)) by apply map_length.
    set (d0 := e_derived e).
    set (e2 := {| e_fields := Y; e_derived := map (fft ft) (e_derived (sync p e)) |}).
    assert (E2 : e2 = at_amplitudes p ft d0 Y).
    { unfold e2, at_amplitudes. f_equal. f_equal. f_equal. unfold Y. rewrite map_map.
      assert (I : map (fun x => to_real ft (fft ft x)) (e_fields e) = e_fields e).
      { rewrite <- (map_id (e_fields e)) at 2. apply map_ext_in. intros x Hx. apply (gt_left n ft GT).
        unfold all_length in Hlen. rewrite Forall_forall in Hlen. auto. }
      rewrite I. destruct e; reflexivity. }
    destruct (rhs_all_spec e2 Y 0) as (k1 & Ek1 & Lk1 & Ak1 & Nk1); [cbn; lia|exact HY|].
    assert (N1 : nonlinear_part p ft t d0 Y k1).
    { split; [exact Lk1|]. intros i y Hy. rewrite (Nk1 i y Hy), E2. reflexivity. }
    assert (Le2 : length (e_derived e2) = length d0).
    { unfold e2. cbn. rewrite map_length. unfold sync. apply sync_from_count. }
    destruct (correction_spec (1 / 2 * dt) k1 Y d0 e2 HY Ak1 Lk1 ltac:(lia) Le2 Hcalc) as (s2 & k2 & e3 & S2 & AS2 & C2 & N2 & A2 & L3).
    assert (Lk2 : length k2 = length Y) by (destruct N2 as [N2 _]; destruct S2 as [S2 _]; lia).
    destruct (correction_spec (1 / 2 * dt) k2 Y d0 e3 HY A2 Lk2 ltac:(lia) L3 Hcalc) as (s3 & k3 & e4 & S3 & AS3 & C3 & N3 & A3 & L4).
    assert (Lk3 : length k3 = length Y) by (destruct N3 as [N3 _]; destruct S3 as [S3 _]; lia).
    destruct (correction_spec (1 * dt) k3 Y d0 e4 HY A3 Lk3 ltac:(lia) L4 Hcalc) as (s4 & k4 & e5 & S4 & AS4 & C4 & N4 & A4 & L5).
    assert (Lk4 : length k4 = length Y) by (destruct N4 as [N4 _]; destruct S4 as [S4 _]; lia).
    replace (1 / 2 * dt) with (dt / 2) in * by field. replace (1 * dt) with dt in * by ring.
    assert (ST : forall h ee K St, implicit_stage p h t ee Y K St -> implicit_stage p h t e Y K St).
    { intros h ee K St [H1 H2]. split; [exact H1|]. intros i y k a Hy Hk Ha. apply (H2 i y k a Hy Hk).
      rewrite (CD _ e). exact Ha. }
    set (f4 := accumulate (1 / 6 * dt) (accumulate (1 / 3 * dt) (accumulate (1 / 3 * dt) (accumulate (1 / 6 * dt) Y k1) k2) k3) k4).
    assert (Lf : length f4 = length Y).
    { unfold f4. rewrite !accumulate_length; auto; rewrite ?accumulate_length; auto; rewrite ?accumulate_length; auto; rewrite ?accumulate_length; auto. }
    destruct (finish_fields_spec f4 Y HY Lf ltac:(lia) (length Y) 0 (with_fields e5 Y)) as (e6 & E6 & L6 & N6);
      [reflexivity|reflexivity|reflexivity|intros; lia|].
    exists k1, s2, k2, s3, k3, s4, k4. eexists.
    split; [exact N1|]. split; [eapply ST; exact S2|]. split; [exact N2|].
    split; [eapply ST; exact S3|]. split; [exact N3|]. split; [eapply ST; exact S4|]. split; [exact N4|].
    split.
    { unfold rk4_step. rewrite sync_fields. fold Y. fold e2. rewrite Ek1.
      replace (1 / 2 * dt) with (dt / 2) by field. replace (1 * dt) with dt by ring.
      change (@pair (list data) ) with (@pair (list data)).
      rewrite C2, C3, C4. fold f4. rewrite E6. reflexivity. }
    cbn [e_fields e_derived]. rewrite map_length. split; [lia|].
    split; [rewrite (finish_fields_derived _ _ _ _ _ E6); exact L5|].
    intros i y a r1 r2 r3 r4 Hy Ha H1 H2 H3 H4.
    rewrite (all_length_nth Y i y HY Hy) in Ha.
    rewrite nth_error_map.
    rewrite (N6 i (map2 (fun y k => Cadd y (Cmul (RtoC (1 / 6 * dt)) k))
     (map2 (fun y k => Cadd y (Cmul (RtoC (1 / 3 * dt)) k))
      (map2 (fun y k => Cadd y (Cmul (RtoC (1 / 3 * dt)) k))
       (map2 (fun y k => Cadd y (Cmul (RtoC (1 / 6 * dt)) k)) y r1) r2) r3) r4) a).
    - cbn [option_map]. rewrite (combine4_steps y r1 r2 r3 r4 a n);
        [reflexivity|exact (all_length_nth Y i y HY Hy)|exact (all_length_nth k1 i r1 Ak1 H1)|exact (all_length_nth k2 i r2 A2 H2)
        |exact (all_length_nth k3 i r3 A3 H3)|exact (all_length_nth k4 i r4 A4 H4)|exact (get_denum_length n p e i t a KL Ha)].
    - unfold f4. repeat (apply accumulate_nth; [|assumption]). assumption.
    - rewrite (CD _ e). exact Ha.
  Qed.
End RK4.
