(** Proofs about the field files. *)
From Verif Require Import ListAux FileModel FileSpec ParseProofs DerivedProofs IndexProofs.
From Coq Require Import Lqa.
Open Scope Z_scope.

(** ** Big-endian numbers *)
Lemma be_value_app a : forall acc b, be_value acc (a ++ b) = be_value (be_value acc a) b.
Proof. induction a as [|x a IH]; intros acc b; [reflexivity|]. cbn [app be_value]. apply IH. Qed.

Lemma be_bytes_length n : forall v, length (be_bytes n v) = n.
Proof. induction n as [|n IH]; intros v; [reflexivity|]. cbn [be_bytes]. rewrite app_length, IH. cbn. lia. Qed.

Lemma be_round n : forall acc v, (v < 256 ^ N.of_nat n)%N -> be_value acc (be_bytes n v) = (acc * 256 ^ N.of_nat n + v)%N.
Proof.
  induction n as [|n IH]; intros acc v H.
  - cbn in *. lia.
  - cbn [be_bytes]. rewrite be_value_app. replace (N.of_nat (S n)) with (N.succ (N.of_nat n)) in * by lia.
    rewrite N.pow_succ_r' in *. rewrite IH by (apply N.div_lt_upper_bound; lia). cbn [be_value].
    assert (E := N.div_mod v 256 ltac:(lia)). lia.
Qed.

Lemma float_bytes_length data : length (float_bytes data) = (8 * length data)%nat.
Proof.
  induction data as [|v data IH]; [reflexivity|].
  change (float_bytes (v :: data)) with (be_bytes 8 v ++ float_bytes data). rewrite app_length, be_bytes_length, IH. cbn [length]. lia.
Qed.

Lemma read_float_bytes data : Forall float_bits data -> read_floats (length data) (float_bytes data) = data.
Proof.
  induction 1 as [|v data Hv _ IH]; [reflexivity|].
  change (float_bytes (v :: data)) with (be_bytes 8 v ++ float_bytes data). cbn [length read_floats].
  assert (L : length (be_bytes 8 v) = 8%nat) by apply be_bytes_length.
  assert (E1 : forall b, firstn 8 (be_bytes 8 v ++ b) = be_bytes 8 v)
    by (intros b; rewrite firstn_app, L, Nat.sub_diag, firstn_O, app_nil_r; apply firstn_all2; rewrite L; lia).
  assert (E2 : forall b, skipn 8 (be_bytes 8 v ++ b) = b)
    by (intros b; rewrite skipn_app, L, Nat.sub_diag, skipn_O, skipn_all2 by (rewrite L; lia); reflexivity).
  rewrite E1, E2, IH. f_equal.
  rewrite be_round; [lia|]. exact Hv.
Qed.

Lemma load_saved fs name data : Forall float_bits data -> load_float64 (write_file fs name (float_bytes data)) name = Some data.
Proof.
  intros H. unfold load_float64, write_file. rewrite str_eqb_refl, float_bytes_length.
  rewrite Nat.mul_comm, Nat.div_mul by lia. rewrite read_float_bytes by exact H. reflexivity.
Qed.

Lemma load_other fs name name' b : name <> name' -> load_float64 (write_file fs name b) name' = load_float64 fs name'.
Proof.
  intros H. unfold load_float64, write_file. destruct (str_eqb name' name) eqn:E; [|reflexivity].
  apply str_eqb_eq in E. congruence.
Qed.

(** ** Decimal texts *)
Lemma digit_of_facts d : 0 <= d < 10 -> digit_c (digit_of d) = true /\ digit_val (digit_of d) = d.
Proof.
  intros H. assert (C : d = 0 \/ d = 1 \/ d = 2 \/ d = 3 \/ d = 4 \/ d = 5 \/ d = 6 \/ d = 7 \/ d = 8 \/ d = 9) by lia.
  repeat (destruct C as [-> |C]; [split; reflexivity|]). subst. split; reflexivity.
Qed.

Lemma digits_val_app a : forall acc b, digits_val acc (a ++ b) = digits_val (digits_val acc a) b.
Proof. induction a as [|x a IH]; intros acc b; [reflexivity|]. cbn [app digits_val]. apply IH. Qed.

Lemma dec_fuel_spec f : forall n, 0 <= n < 2 ^ Z.of_nat f -> (0 < f)%nat ->
  forallb digit_c (dec_fuel f n) = true /\ digits_val 0 (dec_fuel f n) = n /\ dec_fuel f n <> [].
Proof.
  induction f as [|f IH]; intros n H Hf; [lia|]. cbn [dec_fuel]. destruct (Z.ltb_spec n 10) as [Hn|Hn].
  - destruct (digit_of_facts n ltac:(lia)) as [A B]. cbn [forallb digits_val]. rewrite A, B. split; [reflexivity|]. split; [lia|discriminate].
  - replace (Z.of_nat (S f)) with (Z.succ (Z.of_nat f)) in H by lia. rewrite Z.pow_succ_r in H by lia.
    destruct (Nat.eq_dec f 0) as [->|Hf0]; [cbn in H; lia|].
    assert (Hd : 0 <= n / 10 < 2 ^ Z.of_nat f).
    { split; [apply Z.div_pos; lia|]. apply Z.div_lt_upper_bound; lia. }
    destruct (IH (n / 10) Hd ltac:(lia)) as (A & B & C).
    assert (Hm := Z.mod_pos_bound n 10 ltac:(lia)). destruct (digit_of_facts _ Hm) as [D E].
    rewrite forallb_app, A, digits_val_app, B. cbn [forallb digits_val]. rewrite D, E. split; [reflexivity|]. split.
    + assert (X := Z.div_mod n 10 ltac:(lia)). lia.
    + intros X. apply app_eq_nil in X. destruct X; congruence.
Qed.

Lemma dec_nat_spec n : 0 <= n -> forallb digit_c (dec_nat n) = true /\ digits_val 0 (dec_nat n) = n /\ dec_nat n <> [].
Proof.
  intros H. unfold dec_nat. apply dec_fuel_spec; [|lia]. split; [exact H|].
  assert (L := Z.log2_nonneg n). replace (Z.of_nat (S (Z.to_nat (Z.log2 n)))) with (Z.succ (Z.log2 n)) by lia.
  destruct (Z.eq_dec n 0) as [->|Hn]; [reflexivity|]. apply Z.log2_spec. lia.
Qed.

Lemma digits_no c : digit_c c = false -> forall s, forallb digit_c s = true -> ~ In c s.
Proof. intros Hc s H Hin. rewrite forallb_forall in H. rewrite (H c Hin) in Hc. discriminate. Qed.

Lemma dec_nat_inj a b : 0 <= a -> 0 <= b -> dec_nat a = dec_nat b -> a = b.
Proof.
  intros Ha Hb E. destruct (dec_nat_spec a Ha) as (_ & A & _). destruct (dec_nat_spec b Hb) as (_ & B & _). congruence.
Qed.

Lemma dec_nat_no_minus n r : 0 <= n -> dec_nat n <> minus_c :: r.
Proof.
  intros H E. destruct (dec_nat_spec n H) as (A & _). rewrite E in A. cbn in A. discriminate.
Qed.

Lemma dec_inj a b : dec a = dec b -> a = b.
Proof.
  unfold dec. destruct (Z.ltb_spec a 0) as [Ha|Ha], (Z.ltb_spec b 0) as [Hb|Hb]; intros E.
  - injection E as E. apply dec_nat_inj in E; lia.
  - exfalso. symmetry in E. apply (dec_nat_no_minus b _ Hb E).
  - exfalso. apply (dec_nat_no_minus a _ Ha E).
  - apply dec_nat_inj in E; lia.
Qed.

Definition under_c : ascii := "_".
Lemma dec_no_under z : ~ In under_c (dec z).
Proof.
  assert (H : forall n, 0 <= n -> ~ In under_c (dec_nat n)).
  { intros n Hn. apply digits_no; [reflexivity|]. apply dec_nat_spec, Hn. }
  unfold dec. destruct (Z.ltb_spec z 0); [|apply H; lia]. intros [E|E]; [discriminate|]. revert E. apply H. lia.
Qed.

(** The last separator splits a text in one way. *)
Lemma last_sep (c : ascii) : forall a a' b b', ~ In c b -> ~ In c b' -> a ++ c :: b = a' ++ c :: b' -> a = a' /\ b = b'.
Proof.
  induction a as [|x a IH]; intros a' b b' Hb Hb' E.
  - destruct a' as [|y a']; cbn [app] in E; [split; [reflexivity|congruence]|].
    exfalso. injection E as _ E. apply Hb. rewrite E. apply in_or_app. right. left. reflexivity.
  - destruct a' as [|y a']; cbn [app] in E.
    + exfalso. injection E as _ E. apply Hb'. rewrite <- E. apply in_or_app. right. left. reflexivity.
    + injection E as -> E. destruct (IH _ _ _ Hb Hb' E) as [-> ->]. split; reflexivity.
Qed.

Lemma bin_name_inj prefix f f' e e' : bin_name prefix f e = bin_name prefix f' e' -> f = f' /\ e = e'.
Proof.
  intros E. unfold bin_name in E. apply app_inv_head in E. apply (app_inv_head (lit "_")) in E.
  change (lit "_" ++ dec e ++ lit ".bin") with (under_c :: (dec e ++ lit ".bin")) in E.
  change (lit "_" ++ dec e' ++ lit ".bin") with (under_c :: (dec e' ++ lit ".bin")) in E.
  assert (H : forall z, ~ In under_c (dec z ++ lit ".bin")).
  { intros z Hz. apply in_app_or in Hz. destruct Hz as [Hz|Hz]; [apply (dec_no_under z Hz)|].
    cbn in Hz. repeat (destruct Hz as [Hz|Hz]; [discriminate|]). exact Hz. }
  apply last_sep in E; [|apply H|apply H]. destruct E as [-> E]. split; [reflexivity|].
  apply app_inv_tail in E. apply dec_inj, E.
Qed.

(** ** Histories of saves *)

Lemma save_float64_load prefix name epoch e : forall fields fs, (forall n d, In (n, d) fields -> Forall float_bits (map fst d)) ->
  load_float64 (save_float64 prefix fields e fs) (bin_name prefix name epoch)
  = fold_left (fun acc f => if (e =? epoch) && str_eqb (fst f) name then Some (map fst (snd f)) else acc) fields
      (load_float64 fs (bin_name prefix name epoch)).
Proof.
  induction fields as [|[n d] fields IH]; intros fs H; [reflexivity|]. cbn [save_float64 fold_left fst snd].
  rewrite IH by (intros n' d' Hin; apply (H n' d'); right; exact Hin). f_equal.
  destruct (Z.eqb_spec e epoch) as [->|He]; cbn [andb].
  - destruct (str_eqb n name) eqn:E.
    + apply str_eqb_eq in E. subst. apply load_saved. apply (H name d). left. reflexivity.
    + apply load_other. intros X. apply bin_name_inj in X. destruct X as [-> _]. rewrite str_eqb_refl in E. discriminate.
  - apply load_other. intros X. apply bin_name_inj in X. destruct X as [_ X]. congruence.
Qed.

Lemma save_epochs_load prefix name epoch : forall calls fs, bits_ok calls ->
  load_float64 (save_epochs prefix calls fs) (bin_name prefix name epoch)
  = last_saved calls name epoch (load_float64 fs (bin_name prefix name epoch)).
Proof.
  induction calls as [|[e fields] calls IH]; intros fs H; [reflexivity|]. cbn [save_epochs last_saved].
  rewrite IH by (intros e' f' n d Hin; apply (H e' f' n d); right; exact Hin). f_equal.
  apply save_float64_load. intros n d Hin. apply (H e fields n d); [left; reflexivity|exact Hin].
Qed.

Lemma save_float64_exists prefix e f : forall fields fs,
  save_float64 prefix fields e fs f <> None <-> fs f <> None \/ exists n, In n (map fst fields) /\ f = bin_name prefix n e.
Proof.
  induction fields as [|[n d] fields IH]; intros fs; cbn [save_float64 map fst].
  - split; [auto|]. intros [H|(n & [] & _)]. exact H.
  - rewrite IH. unfold write_file at 1. destruct (str_eqb f (bin_name prefix n e)) eqn:E.
    + apply str_eqb_eq in E. split; [|left; discriminate]. intros _. right. exists n. split; [left; reflexivity|exact E].
    + split.
      * intros [H|(m & Hm & ->)]; [left; exact H|right; exists m; split; [right; exact Hm|reflexivity]].
      * intros [H|(m & [<-|Hm] & Ef)]; [left; exact H| |right; exists m; split; assumption].
        subst f. rewrite str_eqb_refl in E. discriminate.
Qed.

Lemma save_epochs_exists prefix f : forall calls fs,
  save_epochs prefix calls fs f <> None <->
  fs f <> None \/ exists e fields n, In (e, fields) calls /\ In n (map fst fields) /\ f = bin_name prefix n e.
Proof.
  induction calls as [|[e fields] calls IH]; intros fs; cbn [save_epochs].
  - split; [auto|]. intros [H|(e & fl & n & [] & _)]. exact H.
  - rewrite IH, save_float64_exists. split.
    + intros [[H|(n & Hn & ->)]|(e' & fl & n & Hin & Hn & ->)].
      * left. exact H.
      * right. exists e, fields, n. split; [left; reflexivity|]. split; [exact Hn|reflexivity].
      * right. exists e', fl, n. split; [right; exact Hin|]. split; [exact Hn|reflexivity].
    + intros [H|(e' & fl & n & [E|Hin] & Hn & Ef)].
      * left. left. exact H.
      * injection E as -> ->. left. right. exists n. split; assumption.
      * right. exists e', fl, n. split; [exact Hin|]. split; assumption.
Qed.

(** ** Six decimals *)
Lemma round_even_close q : (Qabs (inject_Z (round_even q) - q) <= 1 # 2)%Q.
Proof.
  unfold round_even. assert (L := Qfloor_le q). assert (U := Qlt_floor q). rewrite inject_Z_plus in U.
  change (inject_Z 1) with 1%Q in U.
  assert (E1 : (inject_Z (Qfloor q + 1) == inject_Z (Qfloor q) + 1)%Q) by (rewrite inject_Z_plus; reflexivity).
  destruct (Qcompare_spec (q - inject_Z (Qfloor q)) (1 # 2)) as [E|E|E]; [destruct (Z.even (Qfloor q))| |];
    apply Qabs_Qle_condition; rewrite ?E1; split; lra.
Qed.

Lemma round_even_nonneg q : (0 <= q)%Q -> 0 <= round_even q.
Proof.
  intros H. assert (F : 0 <= Qfloor q) by (change 0 with (Qfloor (inject_Z 0)); apply Qfloor_resp_le; exact H).
  unfold round_even. destruct (q - inject_Z (Qfloor q) ?= 1 # 2)%Q; [destruct (Z.even (Qfloor q))| |]; lia.
Qed.

Lemma pad_dec_spec k : forall acc m, 0 <= m < 10 ^ Z.of_nat k ->
  forallb digit_c (pad_dec k m) = true /\ length (pad_dec k m) = k /\ digits_val acc (pad_dec k m) = acc * 10 ^ Z.of_nat k + m.
Proof.
  induction k as [|k IH]; intros acc m H.
  - cbn in *. split; [reflexivity|]. split; [reflexivity|lia].
  - replace (Z.of_nat (S k)) with (Z.succ (Z.of_nat k)) in * by lia. rewrite Z.pow_succ_r in * by lia. cbn [pad_dec].
    assert (Hd : 0 <= m / 10 < 10 ^ Z.of_nat k) by (split; [apply Z.div_pos; lia|apply Z.div_lt_upper_bound; lia]).
    destruct (IH acc _ Hd) as (A & B & C). assert (Hm := Z.mod_pos_bound m 10 ltac:(lia)). destruct (digit_of_facts _ Hm) as [D E].
    rewrite forallb_app, A, app_length, B, digits_val_app, C. cbn [forallb digits_val length]. rewrite D, E.
    split; [reflexivity|]. split; [lia|]. assert (X := Z.div_mod m 10 ltac:(lia)). lia.
Qed.

Lemma Qltb_spec a b : Qltb a b = true <-> (a < b)%Q.
Proof.
  unfold Qltb. rewrite negb_true_iff. split.
  - intros H. apply Qnot_le_lt. intros X. apply Qle_bool_iff in X. congruence.
  - intros H. destruct (Qle_bool b a) eqn:E; [|reflexivity]. apply Qle_bool_iff in E. exfalso. apply (Qlt_not_le _ _ H E).
Qed.

Lemma parse_fmt q : exists r, parse_f (fmt_f q) = Some r /\ six_decimals q r.
Proof.
  set (n := round_even (Qabs q * 1000000)).
  assert (Hn : 0 <= n). { apply round_even_nonneg. assert (A := Qabs_nonneg q). lra. }
  assert (Hdm := Z.div_mod n 1000000 ltac:(lia)). assert (Hmb := Z.mod_pos_bound n 1000000 ltac:(lia)).
  assert (Hd : 0 <= n / 1000000) by (apply Z.div_pos; lia).
  destruct (dec_nat_spec _ Hd) as (A & B & C).
  destruct (pad_dec_spec 6 (n / 1000000) (n mod 1000000) ltac:(change (10 ^ Z.of_nat 6) with 1000000; lia)) as (D & E & F).
  change (10 ^ Z.of_nat 6) with 1000000 in F.
  set (neg := Qltb q 0).
  assert (Hp : parse_f (fmt_f q) = Some (dec_val neg (dec_nat (n / 1000000)) (pad_dec 6 (n mod 1000000)))).
  { unfold parse_f, fmt_f. fold n. fold neg. set (body := dec_nat (n / 1000000) ++ dot_c :: pad_dec 6 (n mod 1000000)).
    assert (Hneg : (match (if neg then [minus_c] else []) ++ body with m :: _ => Ascii.eqb m minus_c | [] => false end) = neg).
    { destruct neg; [reflexivity|]. cbn [app]. unfold body. destruct (dec_nat (n / 1000000)) as [|c s] eqn:Ed; [congruence|].
      cbn [app]. destruct (Ascii.eqb_spec c minus_c) as [->|]; [|reflexivity]. cbn in A. discriminate. }
    rewrite Hneg. assert (Hs : (if neg then skipn 1 ((if neg then [minus_c] else []) ++ body) else (if neg then [minus_c] else []) ++ body) = body)
      by (destruct neg; reflexivity).
    rewrite Hs. unfold body. destruct (take_while_app digit_c (dec_nat (n / 1000000)) (dot_c :: pad_dec 6 (n mod 1000000)) A eq_refl) as [-> ->].
    destruct (dec_nat (n / 1000000)) as [|c s] eqn:Ed; [congruence|]. rewrite D. reflexivity. }
  eexists. split; [exact Hp|]. unfold dec_val. rewrite B, F, E.
  replace (n / 1000000 * 1000000 + n mod 1000000) with n by lia.
  change (pow10 6) with 1000000%positive.
  assert (Hc := round_even_close (Qabs q * 1000000)). fold n in Hc. apply Qabs_Qle_condition in Hc.
  assert (Hv : (n # 1000000 == inject_Z n / 1000000)%Q) by (rewrite Qmake_Qdiv; reflexivity).
  assert (Hsol : ((n # 1000000) * 1000000 == inject_Z n)%Q) by (rewrite Hv; field).
  unfold neg. destruct (Qltb q 0) eqn:Eq.
  - apply Qltb_spec in Eq. rewrite (Qabs_neg q) in Hc by lra. split.
    + exists (- n). rewrite Hv, inject_Z_opp. field.
    + apply Qabs_Qle_condition. split; lra.
  - assert (Hq : (0 <= q)%Q). { apply Qnot_lt_le. intros X. apply Qltb_spec in X. congruence. }
    rewrite (Qabs_pos q) in Hc by exact Hq. split.
    + exists n. exact Hv.
    + apply Qabs_Qle_condition. split; lra.
Qed.

Lemma six_decimals_exact q r m : (q == inject_Z m / 1000000)%Q -> six_decimals q r -> (r == q)%Q.
Proof.
  intros Hq [[n Hn] Hc]. rewrite Hn, Hq in *. apply Qabs_Qle_condition in Hc.
  assert (A : (inject_Z n / 1000000 == inject_Z n * (1 # 1000000))%Q) by field.
  assert (B : (inject_Z m / 1000000 == inject_Z m * (1 # 1000000))%Q) by field.
  rewrite A, B in *. assert (Hd : (inject_Z (-1) < inject_Z (n - m) /\ inject_Z (n - m) < inject_Z 1)%Q).
  { unfold Z.sub. rewrite inject_Z_plus, inject_Z_opp. change (inject_Z (-1)) with (-1)%Q. change (inject_Z 1) with 1%Q. split; lra. }
  rewrite <- !Zlt_Qlt in Hd. replace n with m by lia. reflexivity.
Qed.

(** ** CSV *)
Lemma all_some_map {A} (l : list A) : all_some (map Some l) = Some l.
Proof. induction l as [|x l IH]; [reflexivity|]. cbn [map all_some]. rewrite IH. reflexivity. Qed.

Lemma all_some_map_f {A B} (f : A -> option B) (g : A -> B) l : (forall x, In x l -> f x = Some (g x)) -> all_some (map f l) = Some (map g l).
Proof.
  intros H. rewrite <- all_some_map, map_map. f_equal. apply map_ext_in. exact H.
Qed.

Lemma prod_dims_nodes dom : prod_dims dom = num_nodes dom.
Proof.
  unfold prod_dims, num_nodes. assert (H : forall l a, fold_left Z.mul l a = a * fold_right Z.mul 1 l).
  { induction l as [|x l IH]; intros a; cbn [fold_left fold_right]; [lia|]. rewrite IH. lia. }
  rewrite H. lia.
Qed.

Definition row_of (dom : list Z) (data : list (str * list Q)) (i : nat) : list str :=
  match IndexModel.pos dom (Z.of_nat i) with
  | Some p => map dec (csv_pos3 p) ++ map (fun f => fmt_f (nth i (snd f) 0%Q)) data
  | None => []
  end.

Lemma csv_row_some dom data i : valid_domain dom -> Z.of_nat i < num_nodes dom ->
  (forall f, In f data -> Z.of_nat (length (snd f)) = num_nodes dom) -> csv_row dom data i = Some (row_of dom data i).
Proof.
  intros Hd Hi Hl. unfold csv_row, row_of. destruct (node_idx_pos dom (Z.of_nat i) Hd ltac:(lia)) as (p & -> & _).
  rewrite (all_some_map_f _ (fun f => nth i (snd f) 0%Q)).
  - rewrite map_map. reflexivity.
  - intros f Hf. apply nth_error_nth'. specialize (Hl f Hf). lia.
Qed.

Lemma save_csv_written dom data : valid_domain dom -> data <> [] -> (forall f, In f data -> Z.of_nat (length (snd f)) = num_nodes dom) ->
  save_csv data (Some dom) = Written ((map lit ["X"; "Y"; "Z"]%string ++ map fst data) :: map (row_of dom data) (seq 0 (Z.to_nat (num_nodes dom)))).
Proof.
  intros Hd Hne Hl. unfold save_csv. destruct data as [|[n0 d0] data'] eqn:E; [congruence|]. rewrite <- E in *.
  assert (L0 : Z.of_nat (length d0) = num_nodes dom) by (apply (Hl (n0, d0)); rewrite E; left; reflexivity).
  rewrite prod_dims_nodes, <- L0, Z.eqb_refl.
  rewrite (all_some_map_f (csv_row dom data) (row_of dom data)).
  - rewrite Nat2Z.id. reflexivity.
  - intros i Hi. apply in_seq in Hi. apply csv_row_some; [exact Hd|lia|exact Hl].
Qed.


Lemma csv_pos3_three dom p : valid_domain dom -> in_box dom p -> csv_pos3 p = three p.
Proof.
  intros [[L|L] _] H; apply Forall2_length in H; rewrite L in H.
  - destruct p as [|a [|b [|c p]]]; cbn in H; try lia. reflexivity.
  - destruct p as [|a [|b [|c [|d p]]]]; cbn in H; try lia. reflexivity.
Qed.

Theorem csv_rows dom data : valid_domain dom -> data <> [] -> (forall f, In f data -> Z.of_nat (length (snd f)) = num_nodes dom) ->
  exists rows, save_csv data (Some dom) = Written ((map lit ["X"; "Y"; "Z"]%string ++ map fst data) :: rows)
  /\ Z.of_nat (length rows) = num_nodes dom
  /\ forall i row, nth_error rows i = Some row ->
     exists p cells, IndexModel.pos dom (Z.of_nat i) = Some p /\ row = map dec (three p) ++ cells /\
       Forall2 (fun f s => exists v, nth_error (snd f) i = Some v /\ s = fmt_f v) data cells.
Proof.
  intros Hd Hne Hl. eexists. split; [apply save_csv_written; assumption|].
  assert (Hn : 0 <= num_nodes dom). { destruct data as [|f data']; [congruence|]. rewrite <- (Hl f) by (left; reflexivity). lia. }
  rewrite map_length, seq_length. split; [lia|]. intros i row Hi.
  assert (Hlt : (i < Z.to_nat (num_nodes dom))%nat).
  { assert (X : nth_error (map (row_of dom data) (seq 0 (Z.to_nat (num_nodes dom)))) i <> None) by congruence.
    apply nth_error_Some in X. rewrite map_length, seq_length in X. exact X. }
  rewrite nth_error_map in Hi. assert (Hs : nth_error (seq 0 (Z.to_nat (num_nodes dom))) i = Some i).
  { rewrite (nth_error_nth' _ 0%nat) by (rewrite seq_length; exact Hlt). rewrite seq_nth by exact Hlt. reflexivity. }
  rewrite Hs in Hi. cbn [option_map] in Hi. injection Hi as <-.
  destruct (node_idx_pos dom (Z.of_nat i) Hd ltac:(lia)) as (p & Hp & Hb & _).
  exists p, (map (fun f => fmt_f (nth i (snd f) 0%Q)) data). split; [exact Hp|]. split.
  - unfold row_of. rewrite Hp, (csv_pos3_three dom p Hd Hb). reflexivity.
  - clear Hne. induction data as [|f data IH]; [constructor|]. cbn [map]. constructor.
    + exists (nth i (snd f) 0%Q). split; [|reflexivity]. apply nth_error_nth'. specialize (Hl f (or_introl eq_refl)). lia.
    + apply IH. intros g Hg. apply Hl. right. exact Hg.
Qed.

Lemma map_dec_inj a : forall b, map dec a = map dec b -> a = b.
Proof.
  induction a as [|x a IH]; intros [|y b] E; try discriminate; [reflexivity|]. cbn [map] in E. injection E as E1 E2.
  apply dec_inj in E1. rewrite (IH b E2), E1. reflexivity.
Qed.

Theorem csv_rows_identify dom data rows i j ri rj : valid_domain dom -> data <> [] ->
  (forall f, In f data -> Z.of_nat (length (snd f)) = num_nodes dom) ->
  save_csv data (Some dom) = Written rows -> nth_error rows (S i) = Some ri -> nth_error rows (S j) = Some rj ->
  firstn 3 ri = firstn 3 rj -> i = j.
Proof.
  intros Hd Hne Hl Hs Hi Hj E. destruct (csv_rows dom data Hd Hne Hl) as (rows' & Hs' & Hlen & Hrow).
  rewrite Hs' in Hs. injection Hs as <-. cbn [nth_error] in Hi, Hj.
  destruct (Hrow i ri Hi) as (p & ci & Hp & -> & _). destruct (Hrow j rj Hj) as (p' & cj & Hp' & -> & _).
  assert (L : forall q c, firstn 3 (map dec (three q) ++ c) = map dec (three q)).
  { intros q c. assert (X : length (map dec (three q)) = 3%nat).
    { rewrite map_length. unfold three. rewrite firstn_length, app_length. cbn [length]. lia. }
    rewrite firstn_app, X, Nat.sub_diag, firstn_O, app_nil_r. apply firstn_all2. rewrite X. lia. }
  rewrite !L in E. apply map_dec_inj in E.
  assert (Hib : (i < length rows')%nat) by (apply nth_error_Some; congruence).
  assert (Hjb : (j < length rows')%nat) by (apply nth_error_Some; congruence).
  destruct (node_idx_pos dom (Z.of_nat i) Hd ltac:(lia)) as (q & Eq & Hb & Hn).
  destruct (node_idx_pos dom (Z.of_nat j) Hd ltac:(lia)) as (q' & Eq' & Hb' & Hn').
  rewrite Hp in Eq. injection Eq as <-. rewrite Hp' in Eq'. injection Eq' as <-.
  assert (p = p').
  { destruct Hd as [[L2|L2] _]; apply Forall2_length in Hb; apply Forall2_length in Hb'; rewrite L2 in Hb, Hb'.
    - destruct p as [|a [|b [|c p]]]; cbn in Hb; try lia. destruct p' as [|a' [|b' [|c' p']]]; cbn in Hb'; try lia. cbn in E. congruence.
    - destruct p as [|a [|b [|c [|d p]]]]; cbn in Hb; try lia. destruct p' as [|a' [|b' [|c' [|d' p']]]]; cbn in Hb'; try lia. cbn in E. congruence. }
  subst p'. rewrite Hn in Hn'. injection Hn' as X. lia.
Qed.

Lemma load_column_rows dom data j f N : valid_domain dom -> Z.of_nat N <= num_nodes dom -> nth_error data j = Some f ->
  (forall g, In g data -> Z.of_nat (length (snd g)) = num_nodes dom) ->
  load_column (map (row_of dom data) (seq 0 N)) j = Some (map (fun i => parse_or_zero (fmt_f (nth i (snd f) 0%Q))) (seq 0 N)).
Proof.
  intros Hd HN Hf Hl. unfold load_column. rewrite map_map. apply all_some_map_f. intros i Hi. apply in_seq in Hi.
  unfold row_of. destruct (node_idx_pos dom (Z.of_nat i) Hd ltac:(lia)) as (p & -> & _).
  assert (L : length (map dec (csv_pos3 p)) = 3%nat) by reflexivity.
  rewrite nth_error_app2 by (rewrite L; lia). rewrite L. replace (j + 3 - 3)%nat with j by lia.
  rewrite nth_error_map, Hf. reflexivity.
Qed.

Lemma parse_or_zero_fmt q : six_decimals q (parse_or_zero (fmt_f q)).
Proof. unfold parse_or_zero. destruct (parse_fmt q) as (r & -> & H). exact H. Qed.

Theorem csv_round_trip dom data : valid_domain dom -> data <> [] -> (forall f, In f data -> Z.of_nat (length (snd f)) = num_nodes dom) ->
  exists r loaded, save_csv data (Some dom) = Written r /\ load_csv r = Some loaded /\
    Forall2 (fun f g => fst g = fst f /\ Forall2 six_decimals (snd f) (snd g)) data loaded.
Proof.
  intros Hd Hne Hl. set (N := Z.to_nat (num_nodes dom)).
  assert (Hn : 0 <= num_nodes dom). { destruct data as [|f data']; [congruence|]. rewrite <- (Hl f) by (left; reflexivity). lia. }
  set (out := map (fun f : str * list Q => (fst f, map (fun i => parse_or_zero (fmt_f (nth i (snd f) 0%Q))) (seq 0 N))) data).
  exists ((map lit ["X"; "Y"; "Z"]%string ++ map fst data) :: map (row_of dom data) (seq 0 N)), out.
  split; [apply save_csv_written; assumption|]. split.
  - assert (L : length (map lit ["X"; "Y"; "Z"]%string) = 3%nat) by reflexivity. revert L.
    generalize (map lit ["X"; "Y"; "Z"]%string). intros hdr L.
    unfold load_csv. rewrite app_length, L, map_length.
    change (Nat.ltb (3 + length data) 3) with false. replace (3 + length data - 3)%nat with (length data) by lia.
    cbv iota. assert (Hout : out = map (fun j => nth j out (@nil ascii, @nil Q)) (seq 0 (length data))).
    { transitivity (map (fun j => nth j out (@nil ascii, @nil Q)) (seq 0 (length out))).
      - clear. induction out as [|x l IH]; [reflexivity|]. cbn [length seq map nth]. f_equal. rewrite <- seq_shift, map_map. exact IH.
      - unfold out at 2. rewrite map_length. reflexivity. }
    rewrite Hout. apply all_some_map_f. intros j Hj. apply in_seq in Hj.
    destruct (nth_error data j) as [f|] eqn:Ef; [|apply nth_error_None in Ef; lia].
    rewrite nth_error_app2 by (rewrite L; lia). rewrite L. replace (j + 3 - 3)%nat with j by lia.
    rewrite nth_error_map, Ef. cbn [option_map]. rewrite (load_column_rows dom data j f N Hd ltac:(lia) Ef Hl).
    f_equal. symmetry. apply nth_error_nth. unfold out. rewrite nth_error_map, Ef. reflexivity.
  - unfold out. clear out. assert (Hlen : forall f, In f data -> length (snd f) = N) by (intros f Hf; specialize (Hl f Hf); lia).
    clear Hl Hne. induction data as [|f data IH]; [constructor|]. cbn [map]. constructor; [|apply IH; intros g Hg; apply Hlen; right; exact Hg].
    cbn [fst snd]. split; [reflexivity|]. specialize (Hlen f (or_introl eq_refl)). rewrite <- Hlen. clear.
    induction (snd f) as [|q l IH]; [constructor|]. cbn [length seq map nth]. constructor; [apply parse_or_zero_fmt|].
    rewrite <- seq_shift, map_map. exact IH.
Qed.

(** ** XDMF *)

Lemma create_xdmf_some names prefix num dom : valid_domain dom -> exists x, create_xdmf names prefix num dom = Some x /\
  xd_grids x = map (fun i => {| xg_name := lit "T" ++ dec (Z.of_nat i + 1);
     xg_attrs := map (fun n => {| xa_name := n; xa_dims := xd_dims x; xa_file := bin_name prefix n (Z.of_nat i) |}) names |}) (seq 0 num).
Proof.
  intros [H _]. unfold create_xdmf.
  destruct H as [H|H]; destruct dom as [|a [|b [|c [|d dom]]]]; cbn in H; try lia; cbn [dims_text]; eexists; (split; [reflexivity|]); reflexivity.
Qed.

Lemma create_xdmf_refs names prefix num dom x : create_xdmf names prefix num dom = Some x ->
  refs x = flat_map (fun i => map (fun n => bin_name prefix n (Z.of_nat i)) names) (seq 0 num).
Proof.
  unfold create_xdmf. destruct (dims_text dom) as [dims|]; [|discriminate]. intros [= <-]. unfold refs. cbn [xd_grids].
  rewrite flat_map_concat_map, map_map, flat_map_concat_map. f_equal. apply map_ext. intros i. cbn [xg_attrs]. rewrite map_map. reflexivity.
Qed.

Lemma refs_In names prefix num f :
  In f (flat_map (fun i => map (fun n => bin_name prefix n (Z.of_nat i)) names) (seq 0 num))
  <-> exists i n, (i < num)%nat /\ In n names /\ f = bin_name prefix n (Z.of_nat i).
Proof.
  rewrite in_flat_map. split.
  - intros (i & Hi & Hf). apply in_map_iff in Hf. destruct Hf as (n & <- & Hn). apply in_seq in Hi. exists i, n. split; [lia|]. split; [exact Hn|reflexivity].
  - intros (i & n & Hi & Hn & ->). exists i. split; [apply in_seq; lia|]. apply in_map_iff. exists n. split; [reflexivity|exact Hn].
Qed.

Lemma refs_NoDup names prefix num : NoDup names ->
  NoDup (flat_map (fun i => map (fun n => bin_name prefix n (Z.of_nat i)) names) (seq 0 num)).
Proof.
  intros H. assert (G : forall l, NoDup l -> NoDup (flat_map (fun i => map (fun n => bin_name prefix n (Z.of_nat i)) names) l)).
  { induction 1 as [|i l Hi _ IH]; [constructor|]. cbn [flat_map].
    assert (H1 : NoDup (map (fun n => bin_name prefix n (Z.of_nat i)) names)).
    { apply FinFun.Injective_map_NoDup; [|exact H]. intros a b E. apply bin_name_inj in E. apply E. }
    assert (H2 : forall f, In f (map (fun n => bin_name prefix n (Z.of_nat i)) names) ->
                 ~ In f (flat_map (fun i => map (fun n => bin_name prefix n (Z.of_nat i)) names) l)).
    { intros f Hf Hf'. apply in_map_iff in Hf. destruct Hf as (n & <- & _). apply in_flat_map in Hf'. destruct Hf' as (j & Hj & Hf').
      apply in_map_iff in Hf'. destruct Hf' as (m & E & _). apply bin_name_inj in E. destruct E as [_ E]. apply Nat2Z.inj in E. congruence. }
    revert H1 H2. generalize (map (fun n => bin_name prefix n (Z.of_nat i)) names). intros l1 H1 H2.
    induction H1 as [|x l1 Hx _ IH1]; [exact IH|]. cbn [app]. constructor.
    - intros X. apply in_app_or in X. destruct X as [X|X]; [contradiction|]. apply (H2 x (or_introl eq_refl) X).
    - apply IH1. intros f Hf. apply H2. right. exact Hf. }
  apply G, seq_NoDup.
Qed.

Theorem xdmf_index names prefix num dom (calls : list (Z * list bfield)) : valid_domain dom ->
  map fst calls = map Z.of_nat (seq 0 num) -> Forall (fun c => map fst (snd c) = names) calls ->
  exists x, create_xdmf names prefix num dom = Some x
  /\ (forall f, In f (refs x) <-> save_epochs prefix calls no_files f <> None)
  /\ (NoDup names -> NoDup (refs x)).
Proof.
  intros Hd Hc Hn. destruct (create_xdmf_some names prefix num dom Hd) as (x & Hx & _). exists x. split; [exact Hx|].
  rewrite (create_xdmf_refs _ _ _ _ _ Hx). split; [|apply refs_NoDup]. intros f. rewrite refs_In, save_epochs_exists.
  rewrite Forall_forall in Hn. split.
  - intros (i & n & Hi & Hin & ->). right.
    assert (Hic : In (Z.of_nat i) (map fst calls)) by (rewrite Hc; apply in_map, in_seq; lia).
    apply in_map_iff in Hic. destruct Hic as ([e fields] & E & Hin2). cbn in E. subst e.
    exists (Z.of_nat i), fields, n. split; [exact Hin2|]. specialize (Hn _ Hin2). cbn in Hn. rewrite Hn. split; [exact Hin|reflexivity].
  - intros [H|(e & fields & n & Hin & Hf & ->)]; [exfalso; apply H; reflexivity|].
    assert (He : In e (map fst calls)) by (apply in_map_iff; exists (e, fields); split; [reflexivity|exact Hin]).
    rewrite Hc in He. apply in_map_iff in He. destruct He as (i & <- & Hi). apply in_seq in Hi.
    specialize (Hn _ Hin). cbn in Hn. rewrite Hn in Hf. exists i, n. split; [lia|]. split; [exact Hf|reflexivity].
Qed.

(** Grid i, attribute j of the index shows the values saved for that field at
    epoch i. *)
Theorem xdmf_shows names prefix num dom calls x i g j a n : create_xdmf names prefix num dom = Some x ->
  bits_ok calls -> nth_error (xd_grids x) i = Some g -> nth_error (xg_attrs g) j = Some a -> nth_error names j = Some n ->
  xa_name a = n /\ load_float64 (save_epochs prefix calls no_files) (xa_file a) = last_saved calls n (Z.of_nat i) None.
Proof.
  unfold create_xdmf. destruct (dims_text dom) as [dims|]; [|discriminate]. intros [= <-] Hb Hg Ha Hn. cbn [xd_grids] in Hg.
  rewrite nth_error_map in Hg. destruct (nth_error (seq 0 num) i) as [k|] eqn:Ek; [|discriminate]. cbn [option_map] in Hg. injection Hg as <-.
  assert (k = i).
  { assert (Hlt : (i < length (seq 0 num))%nat) by (apply nth_error_Some; congruence). rewrite seq_length in Hlt.
    rewrite (nth_error_nth' _ 0%nat) in Ek by (rewrite seq_length; exact Hlt). rewrite seq_nth in Ek by exact Hlt. cbn in Ek. congruence. }
  subst k. cbn [xg_attrs] in Ha. rewrite nth_error_map, Hn in Ha. cbn [option_map] in Ha. injection Ha as <-. cbn [xa_name xa_file].
  split; [reflexivity|]. rewrite save_epochs_load by exact Hb. reflexivity.
Qed.

(** ** Layout *)
Lemma layout_2d a b p n : node_idx [a; b] p = Some n -> n = row_major [a; b] p 0.
Proof.
  destruct p as [|x [|y [|z p]]]; cbn [node_idx]; try discriminate. intros [= <-]. cbn. lia.
Qed.
