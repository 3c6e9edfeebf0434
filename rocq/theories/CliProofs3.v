(** Proofs about pieces of texts and tables of attributes. *)
From Verif Require Import ParseProofs IndexProofs FileProofs DbProofs DbProofs2 DbProofs3 CliSpec CliProofs CliProofs2.
Open Scope nat_scope.

(** ** Cutting a list into pieces of equal length *)
Definition piece {A} (w : nat) (l : list A) (i : nat) : list A :=
  if length l <? (i + 1) * w then skipn (i * w) l else firstn w (skipn (i * w) l).

Lemma piece_eq {A} w (l : list A) i : piece w l i = firstn w (skipn (i * w) l).
Proof.
  unfold piece. destruct (length l <? (i + 1) * w) eqn:E; [|reflexivity]. apply Nat.ltb_lt in E.
  symmetry. apply firstn_all2. rewrite skipn_length. nia.
Qed.

Lemma pieces_from {A} w : 0 < w -> forall n i (l : list A), length l < (i + n) * w ->
  concat (map (fun j => firstn w (skipn (j * w) l)) (seq i n)) = skipn (i * w) l.
Proof.
  intros Hw. induction n as [|n IH]; intros i l H; cbn [seq map concat].
  - symmetry. apply skipn_all2. nia.
  - rewrite (IH (S i)) by nia. replace (S i * w) with (w + i * w) by nia. rewrite <- skipn_add. apply firstn_skipn.
Qed.

Lemma pieces_concat {A} w (l : list A) : 0 < w -> concat (map (piece w l) (seq 0 (length l / w + 1))) = l.
Proof.
  intros Hw. rewrite (map_ext _ _ (piece_eq w l)). rewrite (pieces_from w Hw _ 0 l); [reflexivity|].
  pose proof (Nat.mul_succ_div_gt (length l) w ltac:(lia)). nia.
Qed.

Lemma piece_length {A} w (l : list A) i : length (piece w l i) <= w.
Proof. rewrite piece_eq, firstn_length. lia. Qed.

(** ** printList *)
Lemma print_list_complete name array : exists p ps,
  print_list name array = info_line name p :: map (info_line []) ps
  /\ concat (p :: ps) = join_list array /\ Forall (fun q => length q <= value_width) (p :: ps).
Proof.
  pose (line := join_list array).
  exists (piece value_width line 0), (map (piece value_width line) (seq 1 (length line / value_width))).
  unfold print_list. fold line. split; [|split].
  - rewrite Nat.add_1_r. cbn [seq map]. f_equal. rewrite map_map. apply map_ext_in. intros i Hi.
    apply in_seq in Hi. destruct i; [lia|reflexivity].
  - pose proof (pieces_concat value_width line ltac:(unfold value_width; lia)) as PC. rewrite Nat.add_1_r in PC. exact PC.
  - constructor; [apply piece_length|]. apply Forall_forall. intros q Hq. apply in_map_iff in Hq. destruct Hq as (i & <- & _). apply piece_length.
Qed.

Lemma info_dims_spec dom d : positions_of dom d -> info_dims d = [nth 0 dom 1; nth 1 dom 1; nth 2 dom 1]%Z.
Proof. intros H. unfold info_dims. rewrite !(column_max_spec dom) by (assumption || lia). f_equal; [lia|]. f_equal; [lia|]. f_equal. lia. Qed.

(** ** Maps *)
Section Maps.
  Context {K V : Type} (eqb : K -> K -> bool) (eqb_eq : forall a b, eqb a b = true <-> a = b).

  Lemma aget_aput k v l : forall k', aget eqb k' (aput eqb k v l) = if eqb k' k then Some v else aget (V := V) eqb k' l.
  Proof.
    induction l as [|[k1 v1] l IH]; intros k'; cbn [aput aget]; [reflexivity|].
    destruct (eqb k k1) eqn:E; cbn [aget].
    - apply eqb_eq in E. subst k1. destruct (eqb k' k); reflexivity.
    - rewrite IH. destruct (eqb k' k1) eqn:E1; [|reflexivity]. apply eqb_eq in E1. subst k1.
      destruct (eqb k' k) eqn:E2; [|reflexivity]. apply eqb_eq in E2. subst k'. 
      assert (C : eqb k k = true) by (apply eqb_eq; reflexivity). congruence.
  Qed.

  Lemma aput_keys k (v : V) l : forall k', In k' (map fst (aput eqb k v l)) <-> k' = k \/ In k' (map fst l).
  Proof.
    induction l as [|[k1 v1] l IH]; intros k'; cbn [aput map fst In]; [intuition congruence|].
    destruct (eqb k k1) eqn:E; cbn [map fst In].
    - apply eqb_eq in E. subst k1. intuition congruence.
    - rewrite IH. intuition congruence.
  Qed.

  Lemma aput_NoDup k (v : V) l : NoDup (map fst l) -> NoDup (map fst (aput eqb k v l)).
  Proof.
    induction l as [|[k1 v1] l IH]; cbn [aput map fst]; intros H; [constructor; [intros []|constructor]|].
    inversion H as [|? ? H1 H2]; subst. destruct (eqb k k1) eqn:E; cbn [map fst].
    - apply eqb_eq in E. subst k1. constructor; assumption.
    - constructor; [|exact (IH H2)]. rewrite aput_keys. intros [->|C]; [|exact (H1 C)].
      assert (eqb k k = true) by (apply eqb_eq; reflexivity). congruence.
  Qed.

  Lemma aget_In k (v : V) l : NoDup (map fst l) -> In (k, v) l -> aget eqb k l = Some v.
  Proof.
    induction l as [|[k1 v1] l IH]; cbn [aget map fst]; intros H; [intros []|]. inversion H as [|? ? H1 H2]; subst.
    intros [E|I].
    - inversion E; subst. replace (eqb k k) with true by (symmetry; apply eqb_eq; reflexivity). reflexivity.
    - destruct (eqb k k1) eqn:E; [|exact (IH H2 I)]. apply eqb_eq in E. subst k1. exfalso. apply H1.
      exact (in_map fst _ _ I).
  Qed.
End Maps.

Lemma str_eqb_iff a b : str_eqb a b = true <-> a = b.
Proof. split; [apply str_eqb_eq|intros ->; apply str_eqb_refl]. Qed.

(** ** The map of attributes *)
Definition aget2 (m : attrmap) (s : Z) (k : str) : option str :=
  match aget Z.eqb s m with Some a => aget str_eqb k a | None => None end.

Lemma aget2_put m s k v s' k' : aget2 (put_attr m s k v) s' k' = if (s' =? s)%Z && str_eqb k' k then Some v else aget2 m s' k'.
Proof.
  unfold aget2, put_attr. rewrite (aget_aput Z.eqb Z.eqb_eq). destruct (s' =? s)%Z eqn:E; [|reflexivity].
  apply Z.eqb_eq in E. subst s'. rewrite (aget_aput str_eqb str_eqb_iff). cbn [andb].
  destruct (str_eqb k' k); [reflexivity|]. destruct (aget Z.eqb s m); reflexivity.
Qed.

Definition row_is (s : Z) (k : str) (r : Z * str * str) : bool := let '(s', k', _) := r in (s =? s')%Z && str_eqb k k'.
Lemma aget2_rows rows : forall m s k, aget2 (put_rows rows m) s k = lastval (row_is s k) (fun r => Some (snd r)) rows (aget2 m s k).
Proof.
  induction rows as [|[[s1 k1] v1] rows IH]; intros m s k; cbn [put_rows lastval]; [reflexivity|].
  rewrite IH, aget2_put. reflexivity.
Qed.

Lemma put_rows_ids rows : forall m s, In s (map fst (put_rows rows m)) <-> In s (map fst m) \/ exists k v, In (s, k, v) rows.
Proof.
  induction rows as [|[[s1 k1] v1] rows IH]; intros m s; cbn [put_rows].
  - split; [auto|]. intros [H|(k & v & [])]. exact H.
  - rewrite IH. unfold put_attr. rewrite (aput_keys Z.eqb Z.eqb_eq). split.
    + intros [[->|H]|(k & v & H)]; [right; exists k1, v1; now left|now left|right; exists k, v; now right].
    + intros [H|(k & v & [E|H])]; [left; now right|inversion E; left; now left|right; exists k, v; exact H].
Qed.
Lemma put_rows_NoDup rows : forall m, NoDup (map fst m) -> NoDup (map fst (put_rows rows m)).
Proof.
  induction rows as [|[[s1 k1] v1] rows IH]; intros m H; cbn [put_rows]; [exact H|]. apply IH.
  apply (aput_NoDup Z.eqb Z.eqb_eq). exact H.
Qed.
Lemma header_of_keys rows : forall h k, In k (map fst (header_of rows h)) <-> In k (map fst h) \/ exists s v, In (s, k, v) rows.
Proof.
  induction rows as [|[[s1 k1] v1] rows IH]; intros h k; cbn [header_of].
  - split; [auto|]. intros [H|(s & v & [])]. exact H.
  - rewrite IH, (aput_keys str_eqb str_eqb_iff). split.
    + intros [[->|H]|(s & v & H)]; [right; exists s1, v1; now left|now left|right; exists s, v; now right].
    + intros [H|(s & v & [E|H])]; [left; now right|inversion E; left; now left|right; exists s, v; exact H].
Qed.
Lemma header_of_NoDup rows : forall h, NoDup (map fst h) -> NoDup (map fst (header_of rows h)).
Proof.
  induction rows as [|[[s1 k1] v1] rows IH]; intros h H; cbn [header_of]; [exact H|]. apply IH.
  apply (aput_NoDup str_eqb str_eqb_iff). exact H.
Qed.

(** ** listAttributes *)
Section Attributes.
  Variable fmtf : R -> str.
  Variable d : db.
  Variable sim : Z.
  Hypothesis nonzero : sim <> 0%Z.
  Definition selected (s : Z) : Prop := (sim < 0)%Z \/ s = sim.

  Lemma select_number s : (if (0 <? sim)%Z then (s =? sim)%Z else true) = true <-> selected s.
  Proof.
    unfold selected. destruct (0 <? sim)%Z eqn:E.
    - apply Z.ltb_lt in E. rewrite Z.eqb_eq. intuition lia.
    - apply Z.ltb_ge in E. intuition lia.
  Qed.
  Lemma select_text s : (if (sim <? 0)%Z then true else (s =? sim)%Z) = true <-> selected s.
  Proof.
    unfold selected. destruct (sim <? 0)%Z eqn:E.
    - apply Z.ltb_lt in E. intuition lia.
    - apply Z.ltb_ge in E. rewrite Z.eqb_eq. intuition lia.
  Qed.

  Lemma number_rows_In s k v : In (s, k, v) (number_rows fmtf d sim) <->
    exists r, In r (t_attr d) /\ selected (ar_sim r) /\ ar_sim r = s /\ ar_key r = k /\ fmtf (ar_value r) = v.
  Proof.
    unfold number_rows. rewrite in_map_iff. split.
    - intros (r & E & I). apply filter_In in I. destruct I as [I S]. apply select_number in S. inversion E. exists r. auto.
    - intros (r & I & S & <- & <- & <-). exists r. split; [reflexivity|]. apply filter_In. split; [exact I|]. apply select_number. exact S.
  Qed.
  Lemma text_rows_In s k v : In (s, k, v) (text_rows d sim) <->
    exists r, In r (t_text d) /\ selected (tr_sim r) /\ tr_sim r = s /\ tr_key r = k /\ tr_value r = v.
  Proof.
    unfold text_rows. rewrite in_map_iff. split.
    - intros (r & E & I). apply filter_In in I. destruct I as [I S]. apply select_text in S. inversion E. exists r. auto.
    - intros (r & I & S & <- & <- & <-). exists r. split; [reflexivity|]. apply filter_In. split; [exact I|]. apply select_text. exact S.
  Qed.

  Lemma ids_spec s : In s (map fst (attr_map fmtf d sim)) <-> selected s /\ exists k, has_attr d s k.
  Proof.
    unfold attr_map. rewrite !put_rows_ids. split.
    - intros [[[]|(k & v & H)]|(k & v & H)].
      + apply number_rows_In in H. destruct H as (r & I & S & <- & <- & _). split; [exact S|]. exists (ar_key r). left. exists r. auto.
      + apply text_rows_In in H. destruct H as (r & I & S & <- & <- & _). split; [exact S|]. exists (tr_key r). right. exists r. auto.
    - intros [S (k & [(r & I & E1 & E2)|(r & I & E1 & E2)])].
      + left. right. exists k, (fmtf (ar_value r)). apply number_rows_In. exists r. rewrite E1. auto.
      + right. exists k, (tr_value r). apply text_rows_In. exists r. rewrite E1. auto.
  Qed.
  Lemma header_spec k : In k (attr_header fmtf d sim) <-> exists s, selected s /\ has_attr d s k.
  Proof.
    unfold attr_header. rewrite !header_of_keys. split.
    - intros [[[]|(s & v & H)]|(s & v & H)].
      + apply number_rows_In in H. destruct H as (r & I & S & <- & <- & _). exists (ar_sim r). split; [exact S|]. left. exists r. auto.
      + apply text_rows_In in H. destruct H as (r & I & S & <- & <- & _). exists (tr_sim r). split; [exact S|]. right. exists r. auto.
    - intros (s & S & [(r & I & E1 & E2)|(r & I & E1 & E2)]).
      + left. right. exists s, (fmtf (ar_value r)). apply number_rows_In. exists r. rewrite E1. auto.
      + right. exists s, (tr_value r). apply text_rows_In. exists r. rewrite E1. auto.
  Qed.
  Lemma header_NoDup : NoDup (attr_header fmtf d sim).
  Proof. apply header_of_NoDup, header_of_NoDup. constructor. Qed.
  Lemma ids_NoDup : NoDup (map fst (attr_map fmtf d sim)).
  Proof. apply put_rows_NoDup, put_rows_NoDup. constructor. Qed.

  Lemma row_is_iff s k r : row_is s k r = true <-> fst (fst r) = s /\ snd (fst r) = k.
  Proof. destruct r as [[s' k'] v]. cbn. rewrite andb_true_iff, Z.eqb_eq, str_eqb_iff. intuition congruence. Qed.

  Lemma last_with_map {A B} (f : A -> B) (P : B -> Prop) l y : last_with P (map f l) y -> exists x, last_with (fun x => P (f x)) l x /\ f x = y.
  Proof.
    intros (b & a & E & H & N). apply map_eq_app in E. destruct E as (b1 & l1 & -> & Eb & El).
    destruct l1 as [|x a1]; [discriminate|]. cbn [map] in El. injection El as E1 E2.
    exists x. split; [|exact E1]. exists b1, a1. split; [reflexivity|]. split; [rewrite E1; exact H|].
    intros z Hz C. apply (N (f z)); [rewrite <- E2; apply in_map; exact Hz|exact C].
  Qed.

  Lemma cell_spec s k : selected s ->
    match aget2 (attr_map fmtf d sim) s k with
    | Some v => attr_text fmtf d s k v
    | None => ~ has_attr d s k
    end.
  Proof.
    intros Ss. unfold attr_map. rewrite !aget2_rows. change (aget2 [] s k) with (@None str).
    destruct (lastval_spec (row_is s k) (fun r => Some (snd r)) (text_rows d sim)
                (lastval (row_is s k) (fun r => Some (snd r)) (number_rows fmtf d sim) None)) as [(x & L & ->)|[N ->]].
    - left. unfold text_rows in L. apply last_with_map in L. destruct L as (r & L & <-). apply last_with_filter in L.
      exists r. split; [|reflexivity]. eapply last_with_ext; [|exact L]. intros y Hy. cbv beta. rewrite row_is_iff. cbn [fst snd]. split; [intros [_ H]; exact H|].
      intros [H1 H2]. split; [|auto]. apply select_text. rewrite H1. exact Ss.
    - assert (NT : forall r, In r (t_text d) -> ~ (tr_sim r = s /\ tr_key r = k)).
      { intros r I [E1 E2]. assert (C : In (s, k, tr_value r) (text_rows d sim)) by (apply text_rows_In; exists r; rewrite E1; auto).
        apply N in C. assert (T : row_is s k (s, k, tr_value r) = true) by (apply row_is_iff; auto). congruence. }
      destruct (lastval_spec (row_is s k) (fun r => Some (snd r)) (number_rows fmtf d sim) None) as [(x & L & ->)|[N' ->]].
      + right. split; [exact NT|]. unfold number_rows in L. apply last_with_map in L. destruct L as (r & L & <-). apply last_with_filter in L.
        exists r. split; [|reflexivity]. eapply last_with_ext; [|exact L]. intros y Hy. cbv beta. rewrite row_is_iff. cbn [fst snd]. split; [intros [_ H]; exact H|].
        intros [H1 H2]. split; [|auto]. apply select_number. rewrite H1. exact Ss.
      + intros [(r & I & E1 & E2)|(r & I & E1 & E2)]; [|exact (NT r I (conj E1 E2))].
        assert (C : In (s, k, fmtf (ar_value r)) (number_rows fmtf d sim)) by (apply number_rows_In; exists r; rewrite E1; auto).
        apply N' in C. assert (T : row_is s k (s, k, fmtf (ar_value r)) = true) by (apply row_is_iff; auto). congruence.
  Qed.

  Lemma list_attributes_spec keys entries :
    Permutation keys (attr_header fmtf d sim) -> Permutation entries (attr_map fmtf d sim) ->
    let tables := list_attributes keys entries in
    (forall k, In k (concat (map fst tables)) <-> exists s, selected s /\ has_attr d s k)
    /\ NoDup (concat (map fst tables))
    /\ (forall cols rows, In (cols, rows) tables -> length cols <= max_cols
         /\ NoDup (map fst rows)
         /\ (forall s, In s (map fst rows) <-> selected s /\ exists k, has_attr d s k)
         /\ forall s cells, In (s, cells) rows -> length cells = length cols
            /\ forall j k c, nth_error cols j = Some k -> nth_error cells j = Some c ->
               attr_text fmtf d s k c \/ ~ has_attr d s k /\ c = []).
  Proof.
    intros PK PE tables.
    assert (EC : concat (map fst tables) = keys).
    { unfold tables, list_attributes. rewrite map_map. cbn [fst].
      exact (pieces_concat max_cols keys ltac:(unfold max_cols; lia)). }
    split; [|split].
    - intros k. rewrite EC, <- header_spec. split; apply Permutation_in; [exact PK|apply Permutation_sym; exact PK].
    - rewrite EC. apply (Permutation_NoDup (Permutation_sym PK)). exact header_NoDup.
    - intros cols rows H. unfold tables, list_attributes in H. apply in_map_iff in H. destruct H as (i & E & _).
      inversion E as [[E1 E2]]. clear E E2. split; [exact (piece_length max_cols keys i)|].
      assert (F : map fst (map (table_row cols) entries) = map fst entries) by (rewrite map_map; reflexivity).
      rewrite E1. rewrite F.
      assert (PF : Permutation (map fst entries) (map fst (attr_map fmtf d sim))) by (apply Permutation_map; exact PE).
      split; [apply (Permutation_NoDup (Permutation_sym PF)); exact ids_NoDup|].
      split; [intros s; rewrite <- ids_spec; split; apply Permutation_in; [exact PF|apply Permutation_sym; exact PF]|].
      intros s cells I. apply in_map_iff in I. destruct I as ([s0 a] & E & I). unfold table_row in E. cbn [fst snd] in E.
      inversion E; subst s0 cells. split; [apply map_length|].
      intros j k c Hj Hc. rewrite nth_error_map, Hj in Hc. cbn in Hc. inversion Hc as [Hc'].
      apply (Permutation_in _ PE) in I.
      assert (Ss : selected s) by (apply (ids_spec s); exact (in_map fst _ _ I)).
      assert (G : aget Z.eqb s (attr_map fmtf d sim) = Some a) by (apply aget_In; [exact Z.eqb_eq|exact ids_NoDup|exact I]).
      pose proof (cell_spec s k Ss) as CS. unfold aget2 in CS. rewrite G in CS.
      destruct (aget str_eqb k a); [left; exact CS|right; auto].
  Qed.
End Attributes.

(** ** listSingleAttribute *)
Lemma single_numbers_spec fmtf rows sim name s v : sim <> 0%Z ->
  In (s, v) (single_numbers fmtf rows sim name) <->
  exists r, In r rows /\ ar_key r = name /\ ((sim < 0)%Z \/ s = sim) /\ ar_sim r = s /\ fmtf (ar_value r) = v.
Proof.
  intros Hs. induction rows as [|r rows IH]; cbn [single_numbers].
  - split; [intros []|intros (r & [] & _)].
  - destruct (str_eqb (ar_key r) name && (if (0 <? sim)%Z then (ar_sim r =? sim)%Z else true)) eqn:E.
    + apply andb_prop in E. destruct E as [E1 E2]. apply str_eqb_iff in E1. apply (select_number sim Hs) in E2. cbn [In]. rewrite IH. split.
      * intros [H|(q & I & H)]; [|exists q; auto]. injection H as H1 H2. exists r. rewrite <- H1. repeat split; auto.
      * intros (q & [<-|I] & H1 & H2 & H3 & H4); [left; rewrite H3, H4; reflexivity|right; exists q; auto].
    + rewrite IH. split; [intros (q & I & H); exists q; auto using in_cons|].
      intros (q & [<-|I] & H1 & H2 & H3 & H4); [|exists q; auto]. exfalso.
      rewrite H1, str_eqb_refl in E. cbn [andb] in E. assert (T : selected sim (ar_sim r)) by (rewrite H3; exact H2).
      apply (select_number sim Hs) in T. congruence.
Qed.
