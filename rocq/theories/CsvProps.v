(** C122: CSV files give back what was written to them. *)
From Verif Require Import ListAux FileModel FileSpec FileProofs FileProps CsvModel CsvSpec XmlProps.
From Coq Require Import Lia Bool List. Import ListNotations.
Open Scope nat_scope.

Lemma read_plain s : forall rest cur row, existsb special_c s = false -> read_fields (s ++ rest) Plain cur row = read_fields rest Plain (cur ++ s) row.
Proof.
  induction s as [|c s IH]; intros rest cur row H; [rewrite app_nil_r; reflexivity|]. cbn [existsb] in H. apply orb_false_iff in H. destruct H as (Hc & Hs). unfold special_c in Hc. rewrite !orb_false_iff in Hc. destruct Hc as (((H1 & H2) & H3) & _).
  cbn [app read_fields]. rewrite H2, H1, H3. rewrite IH by exact Hs. rewrite <- app_assoc. reflexivity.
Qed.
Lemma read_quoted s : forall rest cur row, read_fields (flat_map twice_quote s ++ dquote_c :: rest) Quoted cur row = read_fields rest Closed (cur ++ s) row.
Proof.
  induction s as [|c s IH]; intros rest cur row; [rewrite app_nil_r; reflexivity|]. cbn [flat_map]. unfold twice_quote at 1. destruct (Ascii.eqb c dquote_c) eqn:E.
  - cbn [app read_fields]. rewrite E. cbn [read_fields]. rewrite ?E, IH, <- app_assoc. reflexivity.
  - cbn [app read_fields]. rewrite E, IH, <- app_assoc. reflexivity.
Qed.
(** A field and the character after it. *)
Lemma read_field f rest row : read_fields (csv_field f ++ ","%char :: rest) Begin [] row = read_fields rest Begin [] (row ++ [f]).
Proof.
  unfold csv_field. destruct (needs_quotes f) eqn:E.
  - cbn [app]. rewrite <- app_assoc. change (read_fields (dquote_c :: flat_map twice_quote f ++ [dquote_c] ++ ","%char :: rest) Begin [] row) with (read_fields (flat_map twice_quote f ++ dquote_c :: ","%char :: rest) Quoted [] row). rewrite read_quoted. reflexivity.
  - destruct f as [|c f]; [reflexivity|]. cbn [needs_quotes] in E. rewrite !orb_false_iff in E. destruct E as ((_ & E) & _). cbn [existsb] in E. apply orb_false_iff in E. destruct E as (Ec & Ef). unfold special_c in Ec. rewrite !orb_false_iff in Ec. destruct Ec as (((H1 & H2) & H3) & _).
    cbn [app]. cbn [read_fields]. rewrite H2, H1, H3. rewrite read_plain by exact Ef. reflexivity.
Qed.
Lemma read_last f rest row : row <> [] \/ f <> [] -> read_fields (csv_field f ++ nl_c :: rest) Begin [] row = option_map (cons (row ++ [f])) (read_fields rest Begin [] []).
Proof.
  intros N. unfold csv_field. destruct (needs_quotes f) eqn:E.
  - cbn [app]. rewrite <- app_assoc. change (read_fields (dquote_c :: flat_map twice_quote f ++ [dquote_c] ++ nl_c :: rest) Begin [] row) with (read_fields (flat_map twice_quote f ++ dquote_c :: nl_c :: rest) Quoted [] row). rewrite read_quoted. reflexivity.
  - destruct f as [|c f]; [destruct row as [|x row]; [destruct N; contradiction|reflexivity]|]. cbn [needs_quotes] in E. rewrite !orb_false_iff in E. destruct E as ((_ & E) & _). cbn [existsb] in E. apply orb_false_iff in E. destruct E as (Ec & Ef). unfold special_c in Ec. rewrite !orb_false_iff in Ec. destruct Ec as (((H1 & H2) & H3) & _).
    cbn [app]. cbn [read_fields]. rewrite H2, H1, H3. rewrite read_plain by exact Ef. reflexivity.
Qed.
Lemma read_record r : forall rest row, r <> [] -> row <> [] \/ r <> [[]] -> read_fields (csv_record r ++ rest) Begin [] row = option_map (cons (row ++ r)) (read_fields rest Begin [] []).
Proof.
  unfold csv_record. induction r as [|f r IH]; intros rest row N1 N2; [contradiction|]. destruct r as [|g r].
  - cbn [map join_char]. rewrite <- app_assoc. apply read_last. destruct N2 as [N|N]; [left; exact N|right; intros ->; apply N; reflexivity].
  - change (join_char "," (map csv_field (f :: g :: r))) with (csv_field f ++ ","%char :: join_char "," (map csv_field (g :: r))). rewrite <- !app_assoc. rewrite <- app_comm_cons. rewrite read_field. rewrite app_assoc, IH; [|discriminate|left; destruct row; discriminate]. rewrite <- app_assoc. reflexivity.
Qed.
Lemma read_text rows : Forall (fun r => r <> [] /\ r <> [[]]) rows -> read_fields (csv_text rows) Begin [] [] = Some rows.
Proof.
  induction 1 as [|r rows (H1 & H2) _ IH]; [reflexivity|]. unfold csv_text. cbn [map concat]. rewrite read_record by (first [exact H1|right; exact H2]). fold (csv_text rows). rewrite IH. reflexivity.
Qed.

(** ** Carriage returns *)
Lemma breaks_weak s : breaks true s = false -> breaks false s = false.
Proof. destruct s as [|c s]; [reflexivity|]. cbn [breaks]. intros H. apply orb_false_iff in H. exact (proj2 H). Qed.
Lemma drop_cr_id s : no_crlf s -> drop_cr s = s.
Proof.
  unfold no_crlf. induction s as [|c s IH]; [reflexivity|]. cbn [breaks drop_cr andb orb]. intros H. destruct (Ascii.eqb c cr_c).
  - assert (N : match s with d :: _ => Ascii.eqb d nl_c | [] => false end = false) by (destruct s as [|d s]; [reflexivity|]; cbn [breaks] in H; apply orb_false_iff in H; exact (proj1 H)). rewrite N. cbn [andb]. rewrite IH by (apply breaks_weak; exact H). reflexivity.
  - cbn [andb]. rewrite IH by exact H. reflexivity.
Qed.
Lemma breaks_quoted s : forall p t, breaks p (flat_map twice_quote s ++ dquote_c :: t) = breaks p s || breaks false t.
Proof.
  induction s as [|c s IH]; intros p t; [cbn; rewrite andb_false_r; reflexivity|]. cbn [flat_map]. unfold twice_quote at 1. destruct (Ascii.eqb_spec c dquote_c) as [->|N].
  - change (([dquote_c; dquote_c] ++ flat_map twice_quote s) ++ dquote_c :: t) with (dquote_c :: dquote_c :: (flat_map twice_quote s ++ dquote_c :: t)). cbn [breaks]. change (Ascii.eqb dquote_c nl_c) with false. change (Ascii.eqb dquote_c cr_c) with false. rewrite !andb_false_r. cbn [orb]. apply IH.
  - cbn [app breaks]. rewrite IH, orb_assoc. reflexivity.
Qed.
Lemma breaks_plain s : forall t, existsb special_c s = false -> breaks false (s ++ t) = breaks false t.
Proof.
  induction s as [|c s IH]; intros t H; [reflexivity|]. cbn [existsb] in H. apply orb_false_iff in H. destruct H as (Hc & Hs). unfold special_c in Hc. rewrite !orb_false_iff in Hc. destruct Hc as (_ & H4). cbn [app breaks andb orb]. rewrite H4. apply IH. exact Hs.
Qed.
Lemma breaks_field f t : no_crlf f -> breaks false (csv_field f ++ t) = breaks false t.
Proof.
  intros H. unfold csv_field. destruct (needs_quotes f) eqn:E.
  - change (breaks false ((dquote_c :: flat_map twice_quote f ++ [dquote_c]) ++ t)) with (breaks false ((flat_map twice_quote f ++ [dquote_c]) ++ t)). rewrite <- app_assoc. cbn [app]. rewrite breaks_quoted, H. reflexivity.
  - destruct f as [|c f]; [reflexivity|]. apply breaks_plain. cbn [needs_quotes] in E. rewrite !orb_false_iff in E. exact (proj2 (proj1 E)).
Qed.
Lemma breaks_record r t : Forall no_crlf r -> breaks false (csv_record r ++ t) = breaks false t.
Proof.
  unfold csv_record. intros H. induction H as [|f r Hf Hr IH]; [reflexivity|]. destruct r as [|g r].
  - cbn [map join_char]. rewrite <- app_assoc, breaks_field by exact Hf. reflexivity.
  - change (join_char "," (map csv_field (f :: g :: r))) with (csv_field f ++ ","%char :: join_char "," (map csv_field (g :: r))). rewrite <- !app_assoc. rewrite breaks_field by exact Hf. rewrite <- app_comm_cons. change (breaks false (","%char :: join_char "," (map csv_field (g :: r)) ++ [nl_c] ++ t)) with (breaks false (join_char "," (map csv_field (g :: r)) ++ [nl_c] ++ t)). rewrite app_assoc. exact IH.
Qed.
Lemma text_no_crlf rows : Forall (Forall no_crlf) rows -> no_crlf (csv_text rows).
Proof. unfold no_crlf, csv_text. induction 1 as [|r rows Hr _ IH]; [reflexivity|]. cbn [map concat]. rewrite breaks_record by exact Hr. exact IH. Qed.

(** Every reader of CSV gets back the records, whatever characters the fields
    contain, if no field has a carriage return before a line break.  The records
    are those of a table: the same number of fields, and more than one. *)
Theorem C122_read_back : forall rows k, Forall (fun r => length r = S (S k)) rows -> Forall (Forall no_crlf) rows -> read_csv (csv_text rows) = Some rows.
Proof.
  intros rows k HL HC. unfold read_csv. rewrite drop_cr_id by (apply text_no_crlf; exact HC). rewrite read_text.
  - assert (W : same_width rows = true); [|rewrite W; reflexivity]. unfold same_width. destruct rows as [|r rows]; [reflexivity|]. apply forallb_forall. intros x Hx. rewrite Forall_forall in HL. rewrite (HL x Hx), (HL r (or_introl eq_refl)). apply Nat.eqb_refl.
  - apply Forall_forall. intros r Hr. rewrite Forall_forall in HL. specialize (HL r Hr). split; intros ->; discriminate HL.
Qed.
Print Assumptions C122_read_back.
(** So different tables give different files. *)
Theorem C122_same_text : forall rows rows' k k', Forall (fun r => length r = S (S k)) rows -> Forall (Forall no_crlf) rows -> Forall (fun r => length r = S (S k')) rows' -> Forall (Forall no_crlf) rows' ->
  csv_text rows = csv_text rows' -> rows = rows'.
Proof. intros rows rows' k k' A B A' B' E. assert (R := C122_read_back rows k A B). rewrite E, (C122_read_back rows' k' A' B') in R. injection R as <-. reflexivity. Qed.
Print Assumptions C122_same_text.
(** A carriage return before a line break is lost. *)
Theorem C122_crlf_refuted : let name := [cr_c; nl_c] in read_csv (csv_text [[lit "X"; name]]) = Some [[lit "X"; [nl_c]]] /\ [[lit "X"; [nl_c]]] <> [[lit "X"; name]].
Proof. split; [vm_compute; reflexivity|discriminate]. Qed.
Print Assumptions C122_crlf_refuted.

(** ** SaveCsv and LoadCSV *)
Lemma numeric_no_crlf s : forallb numeric s = true -> no_crlf s.
Proof.
  unfold no_crlf. induction s as [|c s IH]; [reflexivity|]. cbn [forallb breaks andb orb]. intros H. apply andb_true_iff in H. destruct H as (Hc & Hs). destruct (Ascii.eqb_spec c cr_c) as [->|_]; [discriminate Hc|]. exact (IH Hs).
Qed.
Lemma numeric_dec z : forallb numeric (dec z) = true.
Proof. unfold dec. destruct (z <? 0)%Z eqn:E; [apply Z.ltb_lt in E; cbn [forallb]; rewrite numeric_dec_nat by lia; reflexivity|apply Z.ltb_ge in E; apply numeric_dec_nat; exact E]. Qed.
Lemma all_some_in {A} (l : list (option A)) : forall r x, all_some l = Some r -> In x r -> In (Some x) l.
Proof.
  induction l as [|o l IH]; intros r x E H; cbn [all_some] in E; [injection E as <-; contradiction|]. destruct o as [y|]; [|discriminate]. destruct (all_some l) as [r'|]; [|discriminate]. injection E as <-. destruct H as [->|H]; [left; reflexivity|right; exact (IH r' x eq_refl H)].
Qed.
Lemma all_some_len {A} (l : list (option A)) : forall r, all_some l = Some r -> length r = length l.
Proof. induction l as [|[y|] l IH]; intros r E; cbn [all_some] in E; try discriminate; [injection E as <-; reflexivity|]. destruct (all_some l) as [r'|]; [|discriminate]. injection E as <-. cbn [length]. rewrite (IH r' eq_refl). reflexivity. Qed.
Lemma saved_rows data dom r : save_csv data (Some dom) = Written r -> Forall (fun f => no_crlf (fst f)) data ->
  Forall (fun x => length x = S (S (S (length data)))) r /\ Forall (Forall no_crlf) r.
Proof.
  intros E HN. unfold save_csv in E. destruct data as [|[n0 d0] data']; [discriminate|]. set (data := (n0, d0) :: data') in *. destruct (_ =? _)%Z; [|discriminate]. destruct (all_some (map (csv_row dom data) (seq 0 (length d0)))) as [rows|] eqn:A; [|discriminate].
  assert (R : r = (map lit ["X"; "Y"; "Z"]%string ++ map fst data) :: rows) by (symmetry; exact (f_equal (fun s => match s with Written x => x | _ => r end) E)). clear E.
  assert (P : forall x, In x rows -> length x = S (S (S (length data))) /\ Forall no_crlf x).
  { intros x Hx. apply (all_some_in _ _ _ A) in Hx. apply in_map_iff in Hx. destruct Hx as (i & Hi & _). unfold csv_row in Hi. destruct (IndexModel.pos dom (Z.of_nat i)) as [p|]; [|discriminate]. destruct (all_some (map (fun f => nth_error (snd f) i) data)) as [vs|] eqn:V; [|discriminate]. apply all_some_len in V. rewrite map_length in V. assert (Hx : x = map dec (csv_pos3 p) ++ map fmt_f vs) by congruence. rewrite Hx. clear Hi Hx.
    split; [rewrite app_length, !map_length, V; reflexivity|]. apply Forall_app. split; apply Forall_forall; intros y Hy; apply in_map_iff in Hy; destruct Hy as (z & <- & _); apply numeric_no_crlf; [apply numeric_dec|apply numeric_fmt]. }
  subst r. split; constructor.
  - rewrite app_length, !map_length. reflexivity.
  - apply Forall_forall. intros x Hx. exact (proj1 (P x Hx)).
  - apply Forall_app. split; [repeat constructor|]. apply Forall_forall. intros y Hy. apply in_map_iff in Hy. destruct Hy as (f & <- & Hf). rewrite Forall_forall in HN. exact (HN f Hf).
  - apply Forall_forall. intros x Hx. exact (proj2 (P x Hx)).
Qed.
(** The file that SaveCsv writes: a reader gets the records that were written, and
    LoadCSV returns from them the fields, with their names and six decimals. *)
Theorem C122_save_and_load : forall dom data, valid_domain dom -> data <> [] ->
  (forall f, In f data -> Z.of_nat (length (snd f)) = num_nodes dom) -> Forall (fun f => no_crlf (fst f)) data ->
  exists r rows loaded, save_csv data (Some dom) = Written r /\ read_csv (csv_text r) = Some rows /\ load_csv rows = Some loaded
  /\ Forall2 (fun f g => fst g = fst f /\ Forall2 six_decimals (snd f) (snd g)) data loaded.
Proof.
  intros dom data HV HD HL HN. destruct (C37_load_returns_saved dom data HV HD HL) as (r & loaded & E1 & E2 & E3). exists r, r, loaded. split; [exact E1|]. split; [|split; [exact E2|exact E3]]. destruct (saved_rows data dom r E1 HN) as (A & B). apply (C122_read_back r (S (length data)) A B).
Qed.
Print Assumptions C122_save_and_load.

Example C122_nonvacuous : csv_text [map lit ["X"; "Y"; "Z"; "a,b"; "say ""c"""]%string; map lit ["0"; "0"; "0"; "0.500000"; "1.000000"]%string]
  = lit "X,Y,Z,""a,b"",""say """"c""""""" ++ nl_c :: lit "0,0,0,0.500000,1.000000" ++ [nl_c]
  /\ (exists r, save_csv [(lit "a,b", [0%Q])] (Some [1; 1]%Z) = Written r) /\ no_crlf (lit "a,b").
Proof. split; [vm_compute; reflexivity|]. split; [eexists; vm_compute; reflexivity|reflexivity]. Qed.
