From Verif Require Import ListAux IndexSpec IndexProofs ParseProofs DbSpec DbProofs.
From Coq Require Import Sorting.Permutation.
Open Scope nat_scope.

(** ** The positions table *)
Lemma prod_int_acc l : forall a, fold_left Z.mul l a = (a * num_nodes l)%Z.
Proof. unfold num_nodes. induction l as [|x l IH]; intros a; cbn; [lia|]. rewrite IH. lia. Qed.
Lemma prod_int_num l : prod_int l = num_nodes l.
Proof. unfold prod_int. rewrite prod_int_acc. lia. Qed.

Lemma position_rows_spec dom n : valid_domain dom -> (Z.of_nat n <= num_nodes dom)%Z ->
  exists rows, position_rows dom n = Some rows /\ length rows = n
  /\ forall i, i < n -> exists p, IndexModel.pos dom (Z.of_nat i) = Some p /\ nth_error rows i = Some (pad3 p).
Proof.
  intros V. induction n as [|n IH]; intros Hn.
  - exists []. split; [reflexivity|]. split; [reflexivity|]. intros i Hi. lia.
  - destruct IH as (rows & E & L & H); [lia|].
    destruct (node_idx_pos dom (Z.of_nat n) V) as (p & Ep & _); [lia|].
    exists (rows ++ [pad3 p]). cbn [position_rows]. rewrite E, Ep. split; [reflexivity|].
    split; [rewrite app_length, L; cbn; lia|]. intros i Hi. destruct (Nat.eq_dec i n) as [->|Hne].
    + exists p. split; [exact Ep|]. rewrite nth_error_app2 by lia. rewrite L, Nat.sub_diag. reflexivity.
    + destruct (H i) as (q & Eq & Hq); [lia|]. exists q. split; [exact Eq|]. rewrite nth_error_app1 by lia. exact Hq.
Qed.

Lemma list_max_ge l : forall x, In x l -> (x <= list_max l)%Z.
Proof.
  induction l as [|y l IH]; intros x; [intros []|]. destruct l as [|z l].
  - intros [->|[]]. cbn. lia.
  - intros [->|H]; change (list_max (?a :: z :: l)) with (Z.max a (list_max (z :: l))).
    + cbn [list_max]. apply Z.le_max_l.
    + specialize (IH x H). change (list_max (y :: z :: l)) with (Z.max y (list_max (z :: l))). lia.
Qed.
Lemma list_max_in l : l <> [] -> In (list_max l) l.
Proof.
  induction l as [|y l IH]; [congruence|]. intros _. destruct l as [|z l]; [left; reflexivity|].
  change (list_max (y :: z :: l)) with (Z.max y (list_max (z :: l))).
  destruct (Z.max_spec y (list_max (z :: l))) as [[_ ->]|[_ ->]]; [right; apply IH; discriminate|left; reflexivity].
Qed.
Lemma list_max_eq l m : In m l -> (forall x, In x l -> (x <= m)%Z) -> list_max l = m.
Proof.
  intros Hm H. assert (A := list_max_ge l m Hm). assert (B : In (list_max l) l) by (apply list_max_in; intros ->; destruct Hm).
  specialize (H _ B). lia.
Qed.

Lemma pad3_in_box dom p i : valid_domain dom -> in_box dom p -> i < 3 -> (0 <= nth i (pad3 p) 0 <= nth i dom 1 - 1)%Z.
Proof.
  intros [[L|L] _] B Hi.
  - destruct dom as [|a [|b [|]]]; try discriminate. inversion B as [|? x ? p1 Hx B1]; subst. inversion B1 as [|? y ? p2 Hy B2]; subst.
    inversion B2; subst. destruct i as [|[|[|i]]]; cbn; lia.
  - destruct dom as [|a [|b [|c [|]]]]; try discriminate. inversion B as [|? x ? p1 Hx B1]; subst. inversion B1 as [|? y ? p2 Hy B2]; subst.
    inversion B2 as [|? z ? p3 Hz B3]; subst. inversion B3; subst. destruct i as [|[|[|i]]]; cbn; lia.
Qed.

Lemma corner_in_box dom : Forall (fun d => 0 < d)%Z dom -> in_box dom (map (fun d => d - 1)%Z dom).
Proof. induction 1; constructor; [lia|assumption]. Qed.

Lemma corner_pad dom i : valid_domain dom -> i < 3 -> nth i (pad3 (map (fun d => d - 1)%Z dom)) 0%Z = (nth i dom 1 - 1)%Z.
Proof.
  intros [[L|L] _] Hi; [destruct dom as [|a [|b [|]]]|destruct dom as [|a [|b [|c [|]]]]]; try discriminate;
    destruct i as [|[|[|i]]]; cbn; lia.
Qed.

Lemma column_max_spec dom d i : positions_of dom d -> i < 3 -> column_max i d = (nth i dom 1 - 1)%Z.
Proof.
  intros (V & L & H) Hi. unfold column_max. apply list_max_eq.
  - assert (Bx := corner_in_box dom (proj2 V)). destruct (node_idx_defined dom _ V Bx) as (n & En).
    destruct (pos_node_idx dom _ n V Bx En) as [Hn Pn].
    destruct (H (Z.to_nat n)) as (p & Ep & Hp); [lia|]. rewrite Z2Nat.id in Ep by lia. rewrite Pn in Ep. injection Ep as <-.
    apply nth_error_In in Hp. rewrite <- (corner_pad dom i V Hi).
    apply (in_map (fun r => nth i r 0%Z)) in Hp. exact Hp.
  - intros x Hx. apply in_map_iff in Hx. destruct Hx as (r & <- & Hr). apply In_nth_error in Hr. destruct Hr as (n & Hn).
    assert (Hlt : n < length (t_pos d)) by (apply nth_error_Some; congruence).
    destruct (H n Hlt) as (p & Ep & Hp). rewrite Hn in Hp. injection Hp as ->.
    destruct (node_idx_pos dom (Z.of_nat n) V) as (q & Eq & Bq & _); [lia|]. rewrite Ep in Eq. injection Eq as <-.
    apply pad3_in_box; assumption.
Qed.

Lemma sizes_ok_spec dom0 d : positions_of dom0 d -> forall dom i, i <= 3 ->
  sizes_ok dom i d = Some true <-> i + length dom <= 3 /\ (forall j, j < length dom -> nth j dom 1%Z = nth (i + j) dom0 1%Z).
Proof.
  intros Hp. induction dom as [|n dom IH]; intros i Hi3.
  - cbn [sizes_ok length]. split; [intros _; split; [lia|intros j Hj; lia]|reflexivity].
  - cbn [sizes_ok]. destruct (Nat.ltb_spec i 3) as [Hi|Hi].
    + rewrite (column_max_spec dom0 d i Hp Hi). destruct (Z.eqb_spec (nth i dom0 1%Z - 1)%Z (n - 1)%Z) as [E|E].
      * rewrite IH by lia. cbn [length]. split; intros [H1 H2]; (split; [lia|]).
        -- intros [|j] Hj; cbn [nth]; [rewrite Nat.add_0_r; lia|]. rewrite H2 by lia. f_equal; lia.
        -- intros j Hj. specialize (H2 (S j)). cbn [nth] in H2. rewrite H2 by lia. f_equal; lia.
      * split; [discriminate|]. intros [_ H2]. exfalso. apply E. specialize (H2 0). cbn [nth length] in H2.
        rewrite Nat.add_0_r in H2. rewrite H2 by lia. reflexivity.
    + split; [discriminate|]. intros [H1 _]. cbn [length] in H1. lia.
Qed.

Lemma domain_ok_spec dom0 dom h d : positions_of dom0 d -> h_dom h = Some dom ->
  domain_size_ok h d = Some true <-> length dom <= 3 /\ forall j, j < length dom -> nth j dom 1%Z = nth j dom0 1%Z.
Proof.
  intros Hp E. unfold domain_size_ok. rewrite E, (sizes_ok_spec dom0 d Hp dom 0) by lia. reflexivity.
Qed.

Lemma domain_ok_same dom0 dom h d : positions_of dom0 d -> h_dom h = Some dom -> length dom = length dom0 ->
  domain_size_ok h d = Some true <-> dom = dom0.
Proof.
  intros Hp E L. rewrite (domain_ok_spec dom0 dom h d Hp E). split.
  - intros [_ H]. apply nth_ext with (d := 1%Z) (d' := 1%Z); [exact L|exact H].
  - intros ->. split; [|reflexivity]. destruct Hp as [[[Hl|Hl] _] _]; lia.
Qed.

(** ** What SaveFields commits *)
Definition field_txn (h : handle) (ts : Z) (f : str * list C) : txn :=
  TxFields (field_rows (fst f) ts (h_sim h) (snd f) 0).
Definition all_rows (s ts : Z) (fs : list (str * list C)) : list frow :=
  flat_map (fun f => field_rows (fst f) ts s (snd f) 0) fs.

Lemma apply_fields h ts fs : forall d, t_pos (apply_txns d (map (field_txn h ts) fs)) = t_pos d
  /\ t_fields (apply_txns d (map (field_txn h ts) fs)) = t_fields d ++ all_rows (h_sim h) ts fs.
Proof.
  induction fs as [|f fs IH]; intros d; cbn [map apply_txns all_rows flat_map].
  - rewrite app_nil_r. split; reflexivity.
  - destruct (IH (apply_txn d (field_txn h ts f))) as [-> ->]. destruct d. cbn. rewrite <- app_assoc. split; reflexivity.
Qed.

Lemma domain_ok_pos h d d' : t_pos d = t_pos d' -> domain_size_ok h d = domain_size_ok h d'.
Proof.
  intros E. unfold domain_size_ok. destruct (h_dom h) as [dom|]; [|reflexivity]. generalize 0 as i.
  induction dom as [|n dom IH]; intros i; [reflexivity|]. cbn [sizes_ok]. unfold column_max. rewrite E, IH. reflexivity.
Qed.

Definition good_field (h : handle) (f : str * list C) : Prop := Z.of_nat (length (snd f)) = prod_int (dom_list h).

Lemma save_loop_spec h ts fs : forall d, exists k, k <= length fs
  /\ fst (save_loop h ts fs d) = map (field_txn h ts) (firstn k fs)
  /\ Forall (good_field h) (firstn k fs)
  /\ (firstn k fs <> [] -> domain_size_ok h d = Some true)
  /\ (snd (save_loop h ts fs d) = true <-> k = length fs)
  /\ (snd (save_loop h ts fs d) = true <-> fs = [] \/ (domain_size_ok h d = Some true /\ Forall (good_field h) fs)).
Proof.
  induction fs as [|[n vs] fs IH]; intros d.
  - exists 0. repeat split; try constructor; auto. intros H. contradiction H. reflexivity.
  - cbn [save_loop]. unfold insert_real_part. destruct (domain_size_ok h d) as [[|]|] eqn:Ed.
    + destruct (Z.eqb_spec (Z.of_nat (length vs)) (prod_int (dom_list h))) as [El|El].
      * set (t := TxFields _). assert (Et : domain_size_ok h (apply_txn d t) = domain_size_ok h d)
          by (apply domain_ok_pos; destruct d; reflexivity).
        destruct (IH (apply_txn d t)) as (k & Hk & H1 & H2 & H3 & H4 & H5).
        destruct (save_loop h ts fs (apply_txn d t)) as [txs ok]. cbn [fst snd] in *.
        exists (S k). cbn [firstn map length]. split; [lia|]. split; [rewrite H1; reflexivity|].
        split; [constructor; [exact El|exact H2]|]. split; [reflexivity|]. split; [rewrite H4; lia|].
        rewrite H5, Et, Ed. split.
        -- intros [-> | [_ H]]; right; split; auto.
        -- intros [?|[_ H]]; [discriminate|]. inversion H; subst. right. auto.
      * exists 0. cbn [fst snd firstn map length]. split; [lia|]. split; [reflexivity|]. split; [constructor|].
        split; [congruence|]. split; [split; [discriminate|lia]|]. split; [discriminate|].
        intros [?|[_ H]]; [discriminate|]. inversion H as [|? ? Hg]; subst. contradiction.
    + exists 0. cbn [fst snd firstn map length]. split; [lia|]. split; [reflexivity|]. split; [constructor|].
      split; [congruence|]. split; [split; [discriminate|lia]|]. split; [discriminate|]. intros [?|[? _]]; discriminate.
    + exists 0. cbn [fst snd firstn map length]. split; [lia|]. split; [reflexivity|]. split; [constructor|].
      split; [congruence|]. split; [split; [discriminate|lia]|]. split; [discriminate|]. intros [?|[? _]]; discriminate.
Qed.

(** ** Invariant of the same-rank histories *)
Definition dom_ok (k : nat) (dom : list Z) : Prop := valid_domain dom /\ length dom = k /\ (2 <= num_nodes dom)%Z.
Definition handle_ok (k : nat) (h : handle) : Prop := exists dom, h_dom h = Some dom /\ dom_ok k dom.
Definition filled (dom0 : list Z) (d : db) : Prop :=
  positions_of dom0 d /\ Forall (fun r => fr_pos r < length (t_pos d)) (t_fields d).
Definition db_ok (P : list Z -> Prop) (d : db) : Prop :=
  (t_pos d = [] /\ t_fields d = []) \/ exists dom0, P dom0 /\ filled dom0 d.

Lemma filled_ext dom0 d d' : t_pos d = t_pos d' -> t_fields d = t_fields d' -> filled dom0 d -> filled dom0 d'.
Proof. unfold filled, positions_of. intros -> ->. auto. Qed.
Lemma db_ok_ext P d d' : t_pos d = t_pos d' -> t_fields d = t_fields d' -> db_ok P d -> db_ok P d'.
Proof.
  intros E1 E2 [[H1 H2]|(dom0 & Hp & H)]; [left|right].
  - rewrite <- E1, <- E2. auto.
  - exists dom0. split; [exact Hp|]. apply (filled_ext dom0 d d'); assumption.
Qed.

Definition plain (t : txn) : Prop := match t with TxPos _ | TxFields _ => False | _ => True end.
Lemma plain_keep ts : Forall plain ts -> forall d, t_pos (apply_txns d ts) = t_pos d /\ t_fields (apply_txns d ts) = t_fields d.
Proof.
  induction 1 as [|t ts Ht _ IH]; intros d; [split; reflexivity|]. cbn [apply_txns].
  destruct (IH (apply_txn d t)) as [-> ->]. destruct d, t; cbn in *; try contradiction; split; reflexivity.
Qed.
Lemma ensure_init_plain h rnd : Forall plain (snd (ensure_init h rnd)).
Proof. unfold ensure_init, initialize. destruct (h_init h); [constructor|]. destruct (_ =? _)%Z; repeat constructor. Qed.
Lemma ensure_init_dom h rnd : h_dom (fst (ensure_init h rnd)) = h_dom h.
Proof. unfold ensure_init, initialize. destruct (h_init h); [reflexivity|]. destruct (_ =? _)%Z; reflexivity. Qed.

(** The transactions of SaveFields: an identifier, then perhaps the positions,
    then whole fields. *)
Definition needs_positions (d : db) : bool := negb (positions_populated d).
Lemma exec_save h rnd fields epoch d k : handle_ok k h ->
  exists dom t0 t1 j, h_dom h = Some dom /\ dom_ok k dom /\
    let h1 := fst (ensure_init h rnd) in
    let d1 := apply_txns (apply_txns d t0) t1 in
    fst (fst (exec h rnd (OpSave fields epoch) d)) = h1
    /\ h_dom h1 = Some dom
    /\ snd (fst (exec h rnd (OpSave fields epoch) d)) = t0 ++ t1 ++ map (field_txn h1 epoch) (firstn j fields)
    /\ t0 = snd (ensure_init h rnd) /\ Forall plain t0
    /\ (1 < length (t_pos d) -> t1 = [])
    /\ (length (t_pos d) <= 1 -> exists rows, t1 = [TxPos rows] /\ position_rows dom (Z.to_nat (num_nodes dom)) = Some rows)
    /\ j <= length fields /\ Forall (good_field h1) (firstn j fields)
    /\ (firstn j fields <> [] -> domain_size_ok h1 d1 = Some true)
    /\ (snd (exec h rnd (OpSave fields epoch) d) = true <-> j = length fields)
    /\ (snd (exec h rnd (OpSave fields epoch) d) = true <-> fields = [] \/ (domain_size_ok h1 d1 = Some true /\ Forall (good_field h1) fields)).
Proof.
  intros (dom & Ed & Hd). unfold exec. assert (Hpl := ensure_init_plain h rnd). assert (Hdm := ensure_init_dom h rnd).
  destruct (ensure_init h rnd) as [h1 t0]. cbn [fst snd] in *. rewrite Ed in Hdm.
  exists dom, t0. unfold positions_populated. destruct (plain_keep t0 Hpl d) as [Ep _]. rewrite Ep.
  assert (Edl : dom_list h1 = dom) by (unfold dom_list; rewrite Hdm; reflexivity).
  destruct (Nat.ltb_spec 1 (length (t_pos d))) as [Hl|Hl].
  - exists []. destruct (save_loop_spec h1 epoch fields (apply_txns (apply_txns d t0) [])) as (j & Hj & H1 & H2 & H3 & H4 & H5).
    exists j. destruct (save_loop h1 epoch fields _) as [t2 ok]. cbn [fst snd] in *. subst t2.
    split; [assumption|]. split; [assumption|]. split; [reflexivity|]. split; [assumption|]. split; [reflexivity|].
    split; [reflexivity|]. split; [assumption|]. split; [reflexivity|]. split; [lia|].
    split; [assumption|]. split; [assumption|]. split; [assumption|]. split; assumption.
  - rewrite Edl. rewrite prod_int_num. destruct Hd as (V & Lk & Hn). destruct (position_rows_spec dom (Z.to_nat (num_nodes dom)) V) as (rows & Er & _); [lia|].
    rewrite Er. exists [TxPos rows].
    destruct (save_loop_spec h1 epoch fields (apply_txns (apply_txns d t0) [TxPos rows])) as (j & Hj & H1 & H2 & H3 & H4 & H5).
    exists j. destruct (save_loop h1 epoch fields _) as [t2 ok]. cbn [fst snd] in *. subst t2.
    split; [assumption|]. split; [exact (conj V (conj Lk Hn))|]. split; [reflexivity|]. split; [assumption|]. split; [reflexivity|].
    split; [reflexivity|]. split; [assumption|]. split; [lia|]. split; [intros _; exists rows; split; reflexivity|].
    split; [assumption|]. split; [assumption|]. split; [assumption|]. split; assumption.
Qed.
