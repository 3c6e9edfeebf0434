(** Proofs about node indices, Wrap, frequencies and spectrum iterators. *)
From Coq Require Import Psatz ZifyBool.
From Verif Require Import ListAux IndexModel IndexSpec.
Ltac Zify.zify_post_hook ::= Z.div_mod_to_equations.

Local Arguments Z.mul : simpl never.
Local Arguments Z.add : simpl never.
Local Arguments Z.sub : simpl never.
Local Arguments Pos.mul : simpl never.

(** ** NodeIdx and Pos *)

Lemma quot_rem_unique a b d : 0 < d -> 0 <= b < d -> 0 <= a -> Z.quot (a * d + b) d = a /\ Z.rem (a * d + b) d = b.
Proof.
  intros Hd Hb Ha.
  rewrite Z.quot_div_nonneg, Z.rem_mod_nonneg by nia.
  rewrite Z.div_add_l, Z.div_small by lia.
  rewrite (Z.add_comm _ b), Z.mod_add, Z.mod_small by lia. lia.
Qed.

Lemma div_bounds n a b : 0 < b -> 0 <= n < a * b -> 0 <= n / b < a.
Proof.
  intros Hb Hn. split; [apply Z.div_pos; lia|]. apply Z.div_lt_upper_bound; lia.
Qed.

Ltac dom_cases H :=
  let d0 := fresh "d0" in let d1 := fresh "d1" in let d2 := fresh "d2" in
  destruct H as [[H|H] ?];
  [ match type of H with length ?dom = _ => destruct dom as [|d0 [|d1 [|? ?]]]; try discriminate H end
  | match type of H with length ?dom = _ => destruct dom as [|d0 [|d1 [|d2 [|? ?]]]]; try discriminate H end ];
  clear H;
  repeat match goal with K : Forall _ (_ :: _) |- _ => inversion K; clear K; subst end;
  repeat match goal with K : Forall _ [] |- _ => clear K end.

Ltac f2_inv :=
  repeat match goal with
    | K : Forall2 _ (_ :: _) _ |- _ => inversion K; clear K; subst
    | K : Forall2 _ [] _ |- _ => inversion K; clear K; subst
    | K : in_box _ _ |- _ => unfold in_box in K
    end.

Lemma go_div_pos a d : 0 < d -> go_div a d = Some (Z.quot a d).
Proof. unfold go_div. intros. destruct (Z.eqb_spec d 0); [lia|reflexivity]. Qed.
Lemma go_rem_pos a d : 0 < d -> go_rem a d = Some (Z.rem a d).
Proof. unfold go_rem. intros. destruct (Z.eqb_spec d 0); [lia|reflexivity]. Qed.

Lemma pos_node_idx dom p n : valid_domain dom -> in_box dom p ->
  node_idx dom p = Some n -> 0 <= n < num_nodes dom /\ pos dom n = Some p.
Proof.
  intros H Hb. dom_cases H; f2_inv; cbn; intros [= <-].
  - rename y into i0, y0 into i1.
    split; [nia|]. rewrite go_div_pos, go_rem_pos by lia.
    destruct (quot_rem_unique i0 i1 d1); try lia. congruence.
  - rename y into i0, y0 into i1, y1 into i2.
    split.
    { assert (0 <= i0 * d1 + i1 < d0 * d1) by nia. set (a := i0 * d1 + i1) in *.
      set (b := d0 * d1) in *. replace (d0 * (d1 * (d2 * 1))) with (b * d2) by (subst b; ring).
      replace (i2 * d0 * d1 + i0 * d1 + i1) with (i2 * b + a) by (subst a b; ring). nia. } rewrite !go_div_pos, !go_rem_pos by nia.
    replace (i2 * d0 * d1 + i0 * d1 + i1) with ((i2 * d0 + i0) * d1 + i1) by ring.
    destruct (quot_rem_unique (i2 * d0 + i0) i1 d1) as [E1 E2]; try nia. rewrite E1, E2.
    replace ((i2 * d0 + i0) * d1 + i1) with (i2 * (d0 * d1) + (i0 * d1 + i1)) by ring.
    destruct (quot_rem_unique i2 (i0 * d1 + i1) (d0 * d1)) as [E3 E4]; try nia. rewrite E3.
    destruct (quot_rem_unique i2 i0 d0) as [E5 E6]; try nia. rewrite E6. reflexivity.
Qed.

Lemma node_idx_defined dom p : valid_domain dom -> in_box dom p -> exists n, node_idx dom p = Some n.
Proof. intros H Hb. dom_cases H; f2_inv; cbn; eauto. Qed.

Lemma node_idx_pos dom n : valid_domain dom -> 0 <= n < num_nodes dom ->
  exists p, pos dom n = Some p /\ in_box dom p /\ node_idx dom p = Some n.
Proof.
  intros H Hb. dom_cases H; cbn in Hb; unfold pos.
  - rewrite go_div_pos, go_rem_pos by lia. eexists. split; [reflexivity|].
    rewrite Z.quot_div_nonneg, Z.rem_mod_nonneg by lia.
    assert (0 <= n / d1 < d0) by (apply div_bounds; lia). pose proof (Z.mod_pos_bound n d1 ltac:(lia)). pose proof (Z.div_mod n d1 ltac:(lia)).
    split; [unfold in_box; repeat (apply Forall2_cons; [lia|]); apply Forall2_nil|]. cbn. f_equal. lia.
  - rewrite !go_div_pos, !go_rem_pos by nia. eexists. split; [reflexivity|].
    rewrite (Z.rem_mod_nonneg n d1) by lia.
    rewrite (Z.quot_div_nonneg n d1) by lia.
    rewrite (Z.quot_div_nonneg n (d0 * d1)) by nia.
    rewrite Z.rem_mod_nonneg by (try apply Z.div_pos; lia).
    replace (d0 * d1) with (d1 * d0) by ring. rewrite <- Z.div_div by lia.
    pose proof (Z.mod_pos_bound n d1 ltac:(lia)) as E0.
    pose proof (Z.div_mod n d1 ltac:(lia)) as E1.
    assert (0 <= n / d1 < d2 * d0) by (apply div_bounds; nia). set (q := n / d1) in *.
    pose proof (Z.div_mod q d0 ltac:(lia)) as E2.
    pose proof (Z.mod_pos_bound q d0 ltac:(lia)) as E3.
    assert (0 <= q / d0 < d2) by (apply div_bounds; lia). set (s := q / d0) in *.
    split; [unfold in_box; repeat (apply Forall2_cons; [lia|]); apply Forall2_nil|]. cbn. f_equal. nia.
Qed.

Lemma node_idx_rejects dom p :
  ~ (length dom = 2%nat /\ length p = 2%nat) -> ~ (length dom = 3%nat /\ length p = 3%nat) ->
  node_idx dom p = None.
Proof.
  intros H2 H3. destruct dom as [|d0 [|d1 [|d2 [|? ?]]]], p as [|p0 [|p1 [|p2 [|? ?]]]];
    cbn; try reflexivity; exfalso; cbn in *; tauto.
Qed.

(** ** Wrap *)

Lemma wrap1_mod x d : 0 < d -> wrap1 x d = Some (x mod d).
Proof.
  intros Hd. unfold wrap1. destruct (Z.ltb_spec x 0) as [Hx|Hx].
  - rewrite go_div_pos by lia. rewrite go_rem_pos by lia.
    rewrite Z.quot_div_nonneg by lia.
    assert (0 <= x + (- x / d + 1) * d) by nia.
    rewrite Z.rem_mod_nonneg by lia. rewrite Z.mod_add by lia. reflexivity.
  - rewrite go_rem_pos by lia. rewrite Z.rem_mod_nonneg by lia. reflexivity.
Qed.

Lemma wrap_spec xs : forall dom, Forall (fun d => 0 < d) dom -> length xs = length dom ->
  exists ys, wrap xs dom = Some ys /\ in_box dom ys /\
             Forall2 (fun d yx => (fst yx - snd yx) mod d = 0) dom (combine ys xs).
Proof.
  induction xs as [|x xs IH]; intros [|d dom] Hd Hl; try discriminate.
  - exists []. repeat constructor.
  - inversion Hd; subst. injection Hl as Hl. destruct (IH _ H2 Hl) as (ys & E & Hb & Hc).
    exists (x mod d :: ys). cbn. rewrite wrap1_mod by lia. rewrite E.
    repeat split; constructor; auto.
    + apply Z.mod_pos_bound; lia.
    + cbn. rewrite Zminus_mod, Z.mod_mod, Z.sub_diag by lia. apply Z.mod_0_l. lia.
Qed.

Lemma wrap_total_mod xs : forall dom, Forall (fun d => 0 < d) dom -> length xs = length dom ->
  wrap xs dom = Some (map (fun xd => fst xd mod snd xd) (combine xs dom)).
Proof.
  induction xs as [|x xs IH]; intros [|d dom] Hd Hl; try discriminate; [reflexivity|].
  inversion Hd; subst. injection Hl as Hl. cbn. rewrite wrap1_mod, IH by auto. reflexivity.
Qed.

Lemma wrap_periodic xs : forall ks dom, Forall (fun d => 0 < d) dom -> length xs = length dom ->
  length ks = length dom ->
  wrap (map (fun t => fst (fst t) + snd (fst t) * snd t) (combine (combine xs ks) dom)) dom = wrap xs dom.
Proof.
  induction xs as [|x xs IH]; intros [|k ks] [|d dom] Hd Hl Hk; try discriminate; [reflexivity|].
  inversion Hd; subst. injection Hl as Hl. injection Hk as Hk. cbn.
  rewrite !wrap1_mod by lia. rewrite Z.mod_add by lia. rewrite IH by auto. reflexivity.
Qed.

Lemma in_box_wrap_id ys : forall dom, in_box dom ys -> wrap ys dom = Some ys.
Proof.
  induction ys as [|y ys IH]; intros dom H; inversion H; subst; [reflexivity|].
  cbn. rewrite wrap1_mod by lia. rewrite Z.mod_small by lia. rewrite IH by assumption. reflexivity.
Qed.

(** ** Frequencies *)

(** The numerator of the principal frequency of index [c] of [n]. *)
Definition princ (c n : Z) : Z := if 2 * c <=? n then c else c - n.

Lemma freq1_princ c n : 0 < n -> 0 <= c < n -> (freq1 c n == inject_Z (princ c n) / inject_Z n)%Q.
Proof.
  intros Hn Hc. unfold freq1, princ.
  assert (Hq : ~ (inject_Z n == 0)%Q) by (unfold Qeq; cbn; lia).
  assert (E : Qle_bool (inject_Z c / inject_Z n) (1 # 2) = (2 * c <=? n)).
  { apply eq_true_iff_eq. rewrite Qle_bool_iff, Z.leb_le.
    unfold Qle, Qdiv, Qinv, inject_Z. cbn. destruct n; cbn; lia. }
  rewrite E. destruct (2 * c <=? n); cbn [negb]; [reflexivity|].
  unfold Z.sub. rewrite inject_Z_plus, inject_Z_opp. field. assumption.
Qed.

Lemma princ_range c n : 0 < n -> 0 <= c < n -> - n < 2 * princ c n <= n.
Proof. intros. unfold princ. destruct (Z.leb_spec (2 * c) n); lia. Qed.

Lemma princ_cong c n : 0 < n -> 0 <= c < n -> princ c n = c \/ princ c n = c - n.
Proof. intros. unfold princ. destruct (2 * c <=? n); auto. Qed.

Lemma Qfrac_lt a b n : 0 < n -> (inject_Z a / inject_Z n < inject_Z b / inject_Z n)%Q <-> a < b.
Proof. intros Hn. unfold Qlt, Qdiv, Qinv, inject_Z. destruct n; cbn; try lia. nia. Qed.

Lemma freq1_range c n : 0 < n -> 0 <= c < n -> (-(1 # 2) < freq1 c n <= 1 # 2)%Q.
Proof.
  intros Hn Hc. rewrite freq1_princ by assumption. pose proof (princ_range c n Hn Hc).
  unfold Qlt, Qle, Qdiv, Qinv, inject_Z. destruct n; cbn; lia.
Qed.

Lemma freq1_cong c n : 0 < n -> 0 <= c < n -> is_int (freq1 c n - inject_Z c / inject_Z n).
Proof.
  intros Hn Hc.
  assert (Hq : ~ (inject_Z n == 0)%Q) by (unfold Qeq; cbn; lia).
  destruct (princ_cong c n Hn Hc) as [E|E].
  - exists 0. rewrite freq1_princ, E by assumption. unfold inject_Z at 5. ring.
  - exists (-1). rewrite freq1_princ, E by assumption.
    unfold Z.sub. rewrite inject_Z_plus, inject_Z_opp. unfold inject_Z at 6. field. assumption.
Qed.

Lemma freq1_inj c c' n : 0 < n -> 0 <= c < n -> 0 <= c' < n -> (freq1 c n == freq1 c' n)%Q -> c = c'.
Proof.
  intros Hn Hc Hc'. rewrite !freq1_princ by assumption.
  assert (Hq : ~ (inject_Z n == 0)%Q) by (unfold Qeq; cbn; lia).
  intros E. assert (E' : princ c n = princ c' n).
  { destruct (Z.lt_trichotomy (princ c n) (princ c' n)) as [L|[L|L]]; [|exact L|];
    apply (Qfrac_lt _ _ n Hn) in L; rewrite E in L; destruct (Qlt_irrefl _ L). }
  unfold princ in E'. destruct (Z.leb_spec (2 * c) n), (Z.leb_spec (2 * c') n); lia.
Qed.

(** Row, column and depth are the coordinates given by Pos. *)
Lemma row_col_pos d0 d1 n : 0 < d0 -> 0 < d1 -> 0 <= n < d0 * d1 ->
  pos [d0; d1] n = Some [row d0 d1 n; col d1 n].
Proof.
  intros. cbn. rewrite go_div_pos, go_rem_pos by lia. unfold row, col.
  rewrite Z.quot_div_nonneg by lia.
  rewrite (Z.rem_small (n / d1) d0) by nia. reflexivity.
Qed.

Lemma row_col_depth_pos d0 d1 d2 n : 0 < d0 -> 0 < d1 -> 0 < d2 -> 0 <= n < d0 * d1 * d2 ->
  pos [d0; d1; d2] n = Some [row d0 d1 n; col d1 n; depth d0 d1 n].
Proof. intros. cbn. rewrite !go_div_pos, !go_rem_pos by nia. reflexivity. Qed.

Lemma freq_pos dom n : valid_domain dom -> 0 <= n < num_nodes dom ->
  exists p f, pos dom n = Some p /\ in_box dom p /\ freq dom n = Some f /\
    f = map (fun t => freq1 (fst t) (snd t)) (combine p dom).
Proof.
  intros H Hn. destruct (node_idx_pos dom n H Hn) as (p & Hp & Hb & _).
  exists p. dom_cases H; cbn in Hn.
  - pose proof (row_col_pos d0 d1 n ltac:(lia) ltac:(lia) ltac:(lia)) as E. rewrite E in Hp.
    injection Hp as <-. eexists. split; [exact E|]. split; [assumption|]. split; reflexivity.
  - pose proof (row_col_depth_pos d0 d1 d2 n ltac:(lia) ltac:(lia) ltac:(lia) ltac:(lia)) as E. rewrite E in Hp.
    injection Hp as <-. eexists. split; [exact E|]. split; [assumption|]. split; reflexivity.
Qed.

Lemma freq_principal dom n : valid_domain dom -> 0 <= n < num_nodes dom ->
  exists p f, pos dom n = Some p /\ freq dom n = Some f /\ length f = length dom /\
    Forall (fun x => (-(1 # 2) < x <= 1 # 2)%Q) f /\
    Forall (fun t => is_int (fst t - inject_Z (fst (snd t)) / inject_Z (snd (snd t)))%Q) (combine f (combine p dom)).
Proof.
  intros H Hn. destruct (freq_pos dom n H Hn) as (p & f & Hp & Hb & Hf & E).
  exists p, f. repeat split; try assumption; subst f.
  - rewrite map_length, combine_length. apply Forall2_length in Hb. lia.
  - destruct H as [_ Hd]. clear -Hb Hd. induction Hb as [|d x dom p Hx Hb IH]; cbn; constructor.
    + inversion Hd; subst. apply freq1_range; lia.
    + apply IH. inversion Hd; assumption.
  - destruct H as [_ Hd]. clear -Hb Hd. induction Hb as [|d x dom p Hx Hb IH]; cbn; constructor.
    + inversion Hd; subst. cbn [fst snd]. apply freq1_cong; lia.
    + apply IH. inversion Hd; assumption.
Qed.

Lemma freq_injective dom n n' f f' : valid_domain dom ->
  0 <= n < num_nodes dom -> 0 <= n' < num_nodes dom ->
  freq dom n = Some f -> freq dom n' = Some f' -> Forall2 Qeq f f' -> n = n'.
Proof.
  intros H Hn Hn' Hf Hf' HQ.
  destruct (node_idx_pos dom n H Hn) as (p & Hp & Hb & Hi).
  destruct (node_idx_pos dom n' H Hn') as (p' & Hp' & Hb' & Hi').
  destruct (freq_pos dom n H Hn) as (p1 & f1 & E1 & _ & E2 & E3).
  destruct (freq_pos dom n' H Hn') as (p1' & f1' & E1' & _ & E2' & E3').
  rewrite Hp in E1. rewrite Hp' in E1'. rewrite Hf in E2. rewrite Hf' in E2'.
  injection E1 as <-. injection E1' as <-. injection E2 as <-. injection E2' as <-. subst f f'.
  assert (p = p'); [|subst; congruence].
  destruct H as [_ Hd]. clear -Hb Hb' Hd HQ. revert p' Hb' HQ.
  induction Hb as [|d x dom p Hx Hb IH]; intros p' Hb' HQ; inversion Hb' as [|? x' ? p'' Hx' Hb'']; subst; [reflexivity|].
  cbn in HQ. inversion HQ; subst. inversion Hd; subst. f_equal.
  - eapply freq1_inj; [| | |eassumption]; lia.
  - apply IH; assumption.
Qed.

(** ** Conjugate node *)

Lemma conj1_range c n : 0 < n -> 0 <= c < n -> 0 <= Z.rem (n - c) n < n.
Proof. intros. rewrite Z.rem_mod_nonneg by lia. apply Z.mod_pos_bound. lia. Qed.

Lemma conj1_val c n : 0 < n -> 0 <= c < n -> Z.rem (n - c) n = if c =? 0 then 0 else n - c.
Proof.
  intros. rewrite Z.rem_mod_nonneg by lia. destruct (Z.eqb_spec c 0).
  - subst. rewrite Z.sub_0_r. apply Z.mod_same. lia.
  - apply Z.mod_small. lia.
Qed.

Lemma conj1_invol c n : 0 < n -> 0 <= c < n -> Z.rem (n - Z.rem (n - c) n) n = c.
Proof.
  intros Hn Hc. pose proof (conj1_range c n Hn Hc).
  rewrite (conj1_val (Z.rem (n - c) n)) by assumption.
  rewrite conj1_val by assumption.
  destruct (Z.eqb_spec c 0); [subst; reflexivity|]. destruct (Z.eqb_spec (n - c) 0); lia.
Qed.

Lemma conj_pos dom n : valid_domain dom -> 0 <= n < num_nodes dom ->
  exists p m, pos dom n = Some p /\ in_box dom p /\ conjugate_node dom n = Some m /\
     0 <= m < num_nodes dom /\
     pos dom m = Some (map (fun t => Z.rem (snd t - fst t) (snd t)) (combine p dom)).
Proof.
  intros H Hn. destruct (node_idx_pos dom n H Hn) as (p & Hp & Hb & Hi).
  exists p.
  assert (Hc : in_box dom (map (fun t => Z.rem (snd t - fst t) (snd t)) (combine p dom))).
  { destruct H as [_ Hd]. clear -Hb Hd. induction Hb as [|d x dom p Hx Hb IH]; cbn; constructor.
    - inversion Hd; subst. apply conj1_range; lia.
    - apply IH. inversion Hd; assumption. }
  destruct (node_idx_defined _ _ H Hc) as (m & Hm).
  destruct (pos_node_idx _ _ _ H Hc Hm) as (Hr & Hpm).
  exists m. repeat split; try assumption; try lia.
  dom_cases H; cbn in Hn.
  - pose proof (row_col_pos d0 d1 n ltac:(lia) ltac:(lia) ltac:(lia)) as E. rewrite E in Hp.
    injection Hp as <-. cbn in Hm. injection Hm as Hm. cbn. f_equal. rewrite <- Hm. ring.
  - pose proof (row_col_depth_pos d0 d1 d2 n ltac:(lia) ltac:(lia) ltac:(lia) ltac:(lia)) as E. rewrite E in Hp.
    injection Hp as <-. cbn in Hm. injection Hm as Hm. cbn. f_equal. exact Hm.
Qed.

Lemma conj_involutive dom n m : valid_domain dom -> 0 <= n < num_nodes dom ->
  conjugate_node dom n = Some m -> 0 <= m < num_nodes dom /\ conjugate_node dom m = Some n.
Proof.
  intros H Hn Hm. destruct (conj_pos dom n H Hn) as (p & m' & Hp & Hb & Hm' & Hr & Hpm).
  rewrite Hm in Hm'. injection Hm' as <-. split; [lia|].
  destruct (conj_pos dom m H ltac:(lia)) as (p' & n' & Hp' & Hb' & Hn' & Hr' & Hpn').
  rewrite Hpm in Hp'. injection Hp' as <-.
  assert (E : map (fun t => Z.rem (snd t - fst t) (snd t))
            (combine (map (fun t => Z.rem (snd t - fst t) (snd t)) (combine p dom)) dom) = p).
  { destruct H as [_ Hd]. clear -Hb Hd. induction Hb as [|d x dom p Hx Hb IH]; cbn; [reflexivity|].
    inversion Hd; subst. f_equal; [apply conj1_invol; lia|apply IH; assumption]. }
  rewrite E in Hpn'. rewrite Hn'. f_equal.
  destruct (node_idx_pos dom n H Hn) as (q & Hq & _ & Hi). rewrite Hp in Hq. injection Hq as <-.
  destruct (node_idx_pos dom n' H Hr') as (q & Hq & _ & Hi'). rewrite Hpn' in Hq. injection Hq as <-.
  congruence.
Qed.

Lemma freq1_conj c n : 0 < n -> 0 <= c < n ->
  (freq1 (Z.rem (n - c) n) n == - freq1 c n)%Q \/
  ((freq1 (Z.rem (n - c) n) n == 1 # 2)%Q /\ (freq1 c n == 1 # 2)%Q).
Proof.
  intros Hn Hc. pose proof (conj1_range c n Hn Hc).
  rewrite !freq1_princ by assumption. rewrite conj1_val by assumption.
  assert (Hq : ~ (inject_Z n == 0)%Q) by (unfold Qeq; cbn; lia).
  destruct (Z.eqb_spec c 0).
  - subst. left. unfold princ. destruct (Z.leb_spec (2 * 0) n); [|lia]. cbn. unfold Qeq; cbn. lia.
  - destruct (Z.eq_dec (2 * c) n).
    + right. unfold princ. destruct (Z.leb_spec (2 * (n - c)) n); [|lia].
      destruct (Z.leb_spec (2 * c) n); [|lia].
      split; unfold Qeq, Qdiv, Qinv, inject_Z; destruct n; cbn; lia.
    + left. unfold princ. destruct (Z.leb_spec (2 * (n - c)) n), (Z.leb_spec (2 * c) n); try lia;
      unfold Z.sub; rewrite ?inject_Z_plus, ?inject_Z_opp; field; assumption.
Qed.

Lemma conj_freq dom n m f g : valid_domain dom -> 0 <= n < num_nodes dom ->
  conjugate_node dom n = Some m -> freq dom n = Some f -> freq dom m = Some g ->
  Forall2 (fun x y => (y == - x)%Q \/ ((y == 1 # 2)%Q /\ (x == 1 # 2)%Q)) f g.
Proof.
  intros H Hn Hm Hf Hg.
  destruct (conj_pos dom n H Hn) as (p & m' & Hp & Hb & Hm' & Hr & Hpm).
  rewrite Hm in Hm'. injection Hm' as <-.
  destruct (freq_pos dom n H Hn) as (p1 & f1 & E1 & _ & E2 & E3).
  destruct (freq_pos dom m H Hr) as (p2 & f2 & E1' & _ & E2' & E3').
  rewrite Hp in E1. injection E1 as <-. rewrite Hpm in E1'. injection E1' as <-.
  rewrite Hf in E2. injection E2 as <-. rewrite Hg in E2'. injection E2' as <-. subst f g.
  destruct H as [_ Hd]. clear -Hb Hd. induction Hb as [|d x dom p Hx Hb IH]; cbn; constructor.
  - inversion Hd; subst. apply freq1_conj; lia.
  - apply IH. inversion Hd; assumption.
Qed.

(** ** Spectrum iterators *)

(** The extents below which the tolerance of 1e-10 separates frequencies. *)
Definition tol_ok (dom : list Z) : Prop := Forall (fun d => d <= 5000000000) dom.

(** Self-conjugate component. *)
Definition self1 (c n : Z) : bool := (c =? 0) || (2 * c =? n).

Lemma Qlt_b_iff a b : Qlt_b a b = true <-> (a < b)%Q.
Proof.
  unfold Qlt_b. rewrite negb_true_iff. split.
  - intros H. apply Qnot_le_lt. intros C. apply Qle_bool_iff in C. congruence.
  - intros H. destruct (Qle_bool b a) eqn:E; [|reflexivity]. apply Qle_bool_iff in E.
    exfalso. apply (Qlt_not_le _ _ H E).
Qed.

Lemma Qlt_b_ext a a' b b' : (a == a')%Q -> (b == b')%Q -> Qlt_b a b = Qlt_b a' b'.
Proof. intros Ha Hb. apply eq_true_iff_eq. rewrite !Qlt_b_iff, Ha, Hb. reflexivity. Qed.

Lemma Qabs_frac a n : 0 < n -> (Qabs (inject_Z a / inject_Z n) == inject_Z (Z.abs a) / inject_Z n)%Q.
Proof.
  intros Hn. unfold Qeq, Qdiv, Qinv, inject_Z. destruct n; cbn; try lia.
Qed.

Lemma small_iff c n : 0 < n <= 5000000000 -> 0 <= c < n -> Qlt_b (Qabs (freq1 c n)) tol = (c =? 0).
Proof.
  intros Hn Hc. apply eq_true_iff_eq. rewrite Qlt_b_iff, freq1_princ, Qabs_frac, Z.eqb_eq by lia.
  unfold tol, Qlt, Qdiv, Qinv, inject_Z, princ. destruct n; cbn; try lia.
  destruct (Z.leb_spec (2 * c) (Z.pos p)); cbn; lia.
Qed.

Lemma nyq_iff c n : 0 < n <= 5000000000 -> 0 <= c < n ->
  Qlt_b ((1 # 2) - tol) (Qabs (freq1 c n)) = (2 * c =? n).
Proof.
  intros Hn Hc. apply eq_true_iff_eq. rewrite Qlt_b_iff, freq1_princ, Qabs_frac, Z.eqb_eq by lia.
  unfold tol, Qlt, Qdiv, Qinv, inject_Z, princ. destruct n; cbn; try lia.
  destruct (Z.leb_spec (2 * c) (Z.pos p)); cbn; lia.
Qed.

Lemma sign_iff c n : 0 < n <= 5000000000 -> 0 <= c < n ->
  Qlt_b (- tol) (freq1 c n) = (2 * c <=? n).
Proof.
  intros Hn Hc. apply eq_true_iff_eq. rewrite Qlt_b_iff, freq1_princ, Z.leb_le by lia.
  unfold tol, Qlt, Qdiv, Qinv, inject_Z, princ. destruct n; cbn; try lia.
  destruct (Z.leb_spec (2 * c) (Z.pos p)); cbn; lia.
Qed.

(** Acceptance in terms of integer coordinates (last axis first). *)
Fixpoint inc_rev (p dom : list Z) : bool :=
  match p, dom with
  | [c], [n] => 2 * c <=? n
  | c :: p', n :: dom' => if self1 c n then inc_rev p' dom' else 2 * c <=? n
  | _, _ => false
  end.

Lemma include_freq_rev_int p : forall dom, p <> [] -> in_box dom p -> tol_ok dom ->
  include_freq_rev (map (fun t => freq1 (fst t) (snd t)) (combine p dom)) = Some (inc_rev p dom).
Proof.
  induction p as [|c p IH]; intros dom Hne Hb Ht; [congruence|].
  unfold in_box in Hb. inversion Hb as [|n ? dom' ? Hc Hb']; subst. inversion Ht; subst.
  destruct p as [|c' p].
  - inversion Hb'; subst. cbn. rewrite sign_iff by lia. reflexivity.
  - inversion Hb' as [|n' ? dom'' ? Hc' Hb'']; subst.
    cbn [combine map include_freq_rev fst snd].
    rewrite small_iff, nyq_iff by lia. fold (self1 c n). cbn [inc_rev].
    destruct (self1 c n).
    + exact (IH (n' :: dom'') ltac:(discriminate) Hb' ltac:(assumption)).
    + rewrite sign_iff by lia. reflexivity.
Qed.

Definition conj_list (p dom : list Z) : list Z := map (fun t => Z.rem (snd t - fst t) (snd t)) (combine p dom).

Lemma self1_conj c n : 0 < n -> 0 <= c < n -> self1 c n = (Z.rem (n - c) n =? c).
Proof. intros. rewrite conj1_val by assumption. unfold self1. destruct (Z.eqb_spec c 0); lia. Qed.

Lemma self1_conj' c n : 0 < n -> 0 <= c < n -> self1 (Z.rem (n - c) n) n = self1 c n.
Proof. intros. rewrite conj1_val by assumption. unfold self1. destruct (Z.eqb_spec c 0); lia. Qed.

(** Exactly one of a node and its conjugate is accepted. *)
Lemma inc_rev_pair p : forall dom, p <> [] -> in_box dom p -> Forall (fun d => 0 < d) dom ->
  (conj_list p dom = p -> inc_rev p dom = true) /\
  (conj_list p dom <> p -> inc_rev (conj_list p dom) dom = negb (inc_rev p dom)).
Proof.
  induction p as [|c p IH]; intros dom Hne Hb Hd; [congruence|].
  unfold in_box in Hb. inversion Hb as [|n ? dom' ? Hc Hb']; subst. inversion Hd; subst.
  destruct p as [|c' p].
  - inversion Hb'; subst. cbn. rewrite conj1_val by lia. split.
    + intros [= E]. destruct (Z.eqb_spec c 0); lia.
    + intros E. destruct (Z.eqb_spec c 0); [subst; congruence|].
      assert (2 * c <> n) by (intros C; apply E; f_equal; lia). lia.
  - inversion Hb' as [|n' ? dom'' ? Hc' Hb'']; subst.
    specialize (IH (n' :: dom'') ltac:(discriminate) Hb' ltac:(assumption)).
    change (conj_list (c :: c' :: p) (n :: n' :: dom'')) with
      (Z.rem (n - c) n :: conj_list (c' :: p) (n' :: dom'')).
    cbn [inc_rev]. destruct IH as [IH1 IH2].
    assert (Ecl : conj_list (c' :: p) (n' :: dom'') = Z.rem (n' - c') n' :: conj_list p dom'') by reflexivity.
    rewrite Ecl in *. rewrite self1_conj' by lia.
    split.
    + intros [= E1 E2 E3]. rewrite (self1_conj c n), E1, Z.eqb_refl by lia. apply IH1. congruence.
    + intros E. destruct (self1 c n) eqn:Es.
      * apply IH2. intros E'. apply E. rewrite self1_conj in Es by lia.
        apply Z.eqb_eq in Es. congruence.
      * unfold self1 in Es. rewrite conj1_val by lia. destruct (Z.eqb_spec c 0); lia.
Qed.

Lemma combine_rev {A B} (a : list A) : forall (b : list B), length a = length b ->
  combine (rev a) (rev b) = rev (combine a b).
Proof.
  induction a as [|x a IH]; intros [|y b] H; try discriminate; [reflexivity|].
  injection H as H. cbn. rewrite <- IH by assumption.
  assert (L : length (rev a) = length (rev b)) by (rewrite !rev_length; assumption).
  revert L. generalize (rev a) (rev b). clear. intros a b. revert b.
  induction a as [|x' a IH]; intros [|y' b] L; try discriminate; [reflexivity|].
  injection L as L. cbn. rewrite IH by assumption. reflexivity.
Qed.

Lemma in_box_rev dom p : in_box dom p -> in_box (rev dom) (rev p).
Proof.
  induction 1 as [|d x dom p Hx Hb IH]; cbn; [constructor|].
  apply Forall2_app; [assumption|constructor; [assumption|constructor]].
Qed.

Lemma conj_list_rev p dom : length p = length dom -> conj_list (rev p) (rev dom) = rev (conj_list p dom).
Proof. intros. unfold conj_list. rewrite combine_rev, map_rev by assumption. reflexivity. Qed.

Lemma Forall_rev' {A} (P : A -> Prop) l : Forall P l -> Forall P (rev l).
Proof. rewrite !Forall_forall. intros H x Hx. apply H. apply in_rev. assumption. Qed.

Lemma unique_accept_spec dom n : valid_domain dom -> tol_ok dom -> 0 <= n < num_nodes dom ->
  exists p, pos dom n = Some p /\ in_box dom p /\ unique_accept dom n = Some (inc_rev (rev p) (rev dom)).
Proof.
  intros H Ht Hn. destruct (freq_pos dom n H Hn) as (p & f & Hp & Hb & Hf & E).
  exists p. repeat split; try assumption. unfold unique_accept. rewrite Hf. unfold include_freq.
  subst f. rewrite <- map_rev, <- combine_rev by (symmetry; eapply Forall2_length; eassumption).
  apply include_freq_rev_int.
  - intros E. apply (f_equal (@rev Z)) in E. rewrite rev_involutive in E. cbn in E. subst p.
    apply Forall2_length in Hb. destruct H as [[H|H] _]; rewrite H in Hb; discriminate.
  - apply in_box_rev. assumption.
  - apply Forall_rev'. assumption.
Qed.

Lemma pos_inj dom n m p : valid_domain dom -> 0 <= n < num_nodes dom -> 0 <= m < num_nodes dom ->
  pos dom n = Some p -> pos dom m = Some p -> n = m.
Proof.
  intros H Hn Hm E1 E2. destruct (node_idx_pos dom n H Hn) as (q & Hq & _ & Hi).
  destruct (node_idx_pos dom m H Hm) as (q' & Hq' & _ & Hi').
  rewrite E1 in Hq. injection Hq as <-. rewrite E2 in Hq'. injection Hq' as <-. congruence.
Qed.

Lemma unique_accept_pair dom n m : valid_domain dom -> tol_ok dom -> 0 <= n < num_nodes dom ->
  conjugate_node dom n = Some m ->
  exists b, unique_accept dom n = Some b /\
   if n =? m then b = true else unique_accept dom m = Some (negb b).
Proof.
  intros H Ht Hn Hm.
  destruct (unique_accept_spec dom n H Ht Hn) as (p & Hp & Hb & Ea).
  destruct (conj_pos dom n H Hn) as (p' & m' & Hp' & _ & Hm' & Hr & Hpm).
  rewrite Hp in Hp'. injection Hp' as <-. rewrite Hm in Hm'. injection Hm' as <-.
  fold (conj_list p dom) in Hpm.
  destruct (unique_accept_spec dom m H Ht Hr) as (q & Hq & _ & Ea').
  rewrite Hpm in Hq. injection Hq as <-.
  assert (L : length p = length dom) by (symmetry; eapply Forall2_length; eassumption).
  assert (Hne : rev p <> []).
  { intros E. apply (f_equal (@rev Z)) in E. rewrite rev_involutive in E. cbn in E. subst p.
    cbn in L. destruct H as [[H|H] _]; rewrite H in L; discriminate. }
  destruct (inc_rev_pair (rev p) (rev dom) Hne (in_box_rev _ _ Hb) (Forall_rev' _ _ (proj2 H))) as [K1 K2].
  rewrite conj_list_rev in K1, K2 by assumption.
  eexists. split; [exact Ea|]. destruct (Z.eqb_spec n m) as [E|E].
  - subst m. apply K1. rewrite Hp in Hpm. injection Hpm as E. rewrite <- E. reflexivity.
  - rewrite Ea'. f_equal. apply K2. intros C. apply E. apply (f_equal (@rev Z)) in C.
    rewrite !rev_involutive in C. rewrite C in Hpm. eapply pos_inj; eassumption.
Qed.

Lemma real_accept_spec dom n m : valid_domain dom -> tol_ok dom -> 0 <= n < num_nodes dom ->
  conjugate_node dom n = Some m -> real_accept dom n = Some (n =? m).
Proof.
  intros H Ht Hn Hm. destruct (freq_pos dom n H Hn) as (p & f & Hp & Hb & Hf & E).
  unfold real_accept. rewrite Hf. f_equal.
  destruct (conj_pos dom n H Hn) as (p' & m' & Hp' & _ & Hm' & Hr & Hpm).
  rewrite Hp in Hp'. injection Hp' as <-. rewrite Hm in Hm'. injection Hm' as <-.
  fold (conj_list p dom) in Hpm.
  apply eq_true_iff_eq. rewrite Z.eqb_eq. transitivity (conj_list p dom = p).
  - subst f. destruct H as [_ Hd]. clear -Hb Hd Ht.
    induction Hb as [|d x dom p Hx Hb IH]; cbn; [tauto|].
    inversion Hd; subst. inversion Ht; subst.
    rewrite andb_true_iff. unfold all_zero_or_nyquist in IH. rewrite IH by assumption.
    assert (S : negb (Qlt_b tol (Qabs (freq1 x d)) && Qlt_b (Qabs (freq1 x d)) ((1 # 2) - tol)) = true
                <-> Z.rem (d - x) d = x).
    { rewrite conj1_val by lia. rewrite negb_true_iff, andb_false_iff.
      rewrite <- !not_true_iff_false, !Qlt_b_iff, freq1_princ, Qabs_frac by lia.
      unfold tol, Qlt, Qdiv, Qinv, inject_Z, princ. destruct d; cbn; try lia.
      destruct (Z.leb_spec (2 * x) (Z.pos p0)), (Z.eqb_spec x 0); cbn; lia. }
    rewrite S. fold (conj_list p dom). split; [intros [E1 E2]; congruence|intros [= E1 E2]; auto].
  - split.
    + intros E'. rewrite E' in Hpm. eapply pos_inj; eassumption.
    + intros ->. rewrite Hp in Hpm. congruence.
Qed.

(** The iteration visits, in increasing order, exactly the accepted nodes. *)
Lemma scan_spec accept stop (Hacc : forall i, 0 <= i < stop -> exists b, accept i = Some b) :
  forall fuel nxt i, 0 <= i -> i + Z.of_nat fuel = stop ->
  (exists j, scan fuel accept nxt i = Some (j, j + 1) /\ i <= j < stop /\ accept j = Some true /\
             forall k, i <= k < j -> accept k = Some false) \/
  (scan fuel accept nxt i = Some (-1, nxt) /\ forall k, i <= k < stop -> accept k = Some false).
Proof.
  induction fuel as [|fuel IH]; intros nxt i Hi Hf; cbn.
  - right. split; [reflexivity|]. intros; lia.
  - destruct (Hacc i ltac:(lia)) as ([|] & E); rewrite E.
    + left. exists i. repeat split; try lia. assumption.
    + destruct (IH nxt (i + 1) ltac:(lia) ltac:(lia)) as [(j & Hs & Hj & Ha & Hk)|(Hs & Hk)].
      * left. exists j. repeat split; try lia; try assumption.
        intros k Hk'. destruct (Z.eq_dec k i); [subst; assumption|apply Hk; lia].
      * right. split; [assumption|]. intros k Hk'. destruct (Z.eq_dec k i); [subst; assumption|apply Hk; lia].
Qed.

Lemma iter_next_spec accept stop (Hacc : forall i, 0 <= i < stop -> exists b, accept i = Some b) nxt :
  0 <= nxt <= stop ->
  (exists j, iter_next accept stop nxt = Some (j, j + 1) /\ nxt <= j < stop /\ accept j = Some true /\
             forall k, nxt <= k < j -> accept k = Some false) \/
  (iter_next accept stop nxt = Some (-1, nxt) /\ forall k, nxt <= k < stop -> accept k = Some false).
Proof. intros H. apply (scan_spec accept stop Hacc); lia. Qed.

Lemma visit_spec accept stop (Hacc : forall i, 0 <= i < stop -> exists b, accept i = Some b) :
  forall fuel nxt, 0 <= nxt <= stop -> stop - nxt < Z.of_nat fuel ->
  exists L, visit fuel accept stop nxt = Some L /\ increasing L /\
    forall i, In i L <-> (nxt <= i < stop /\ accept i = Some true).
Proof.
  induction fuel as [|fuel IH]; intros nxt Hn Hf; [lia|]. cbn [visit].
  destruct (iter_next_spec accept stop Hacc nxt Hn) as [(j & Hs & Hj & Ha & Hk)|(Hs & Hk)]; rewrite Hs.
  - destruct (Z.eqb_spec j (-1)); [lia|].
    destruct (IH (j + 1) ltac:(lia) ltac:(lia)) as (L & EL & HL & HIn). rewrite EL.
    exists (j :: L). repeat split.
    + apply Forall_forall. intros x Hx. apply HIn in Hx. lia.
    + assumption.
    + destruct H as [<-|H]; [lia|]. apply HIn in H. lia.
    + destruct H as [<-|H]; [lia|]. apply HIn in H. lia.
    + destruct H as [<-|H]; [assumption|]. apply HIn in H. tauto.
    + intros [Hr Hi]. destruct (Z.lt_trichotomy i j) as [L1|[L1|L1]].
      * rewrite Hk in Hi by lia. discriminate.
      * left. congruence.
      * right. apply HIn. split; [lia|assumption].
  - rewrite Z.eqb_refl. exists []. split; [reflexivity|]. split; [exact I|].
    intros i. split; [intros []|]. intros [Hr Hi]. rewrite Hk in Hi by lia. discriminate.
Qed.

Lemma num_nodes_pos dom : Forall (fun d => 0 < d) dom -> 0 < num_nodes dom.
Proof. induction 1; cbn; [lia|fold (num_nodes l); nia]. Qed.

Lemma unique_visits dom : valid_domain dom -> tol_ok dom ->
  exists L, visit (S (Z.to_nat (num_nodes dom))) (unique_accept dom) (num_nodes dom) 0 = Some L /\
    increasing L /\ (forall i, In i L -> 0 <= i < num_nodes dom) /\
    forall i j, 0 <= i < num_nodes dom -> conjugate_node dom i = Some j ->
      (In i L \/ In j L) /\ (In i L -> In j L -> i = j).
Proof.
  intros H Ht.
  pose proof (num_nodes_pos dom (proj2 H)) as Hpos.
  assert (Hacc : forall i, 0 <= i < num_nodes dom -> exists b, unique_accept dom i = Some b).
  { intros i Hi. destruct (unique_accept_spec dom i H Ht Hi) as (? & _ & _ & E). eauto. }
  destruct (visit_spec _ _ Hacc (S (Z.to_nat (num_nodes dom))) 0 ltac:(lia) ltac:(lia)) as (L & EL & HL & HIn).
  exists L. repeat split; try assumption.
  - apply HIn in H0. lia.
  - apply HIn in H0. lia.
  - destruct (unique_accept_pair dom i j H Ht H0 H1) as (b & Eb & Hb).
    destruct (conj_involutive dom i j H H0 H1) as [Hj _].
    destruct (Z.eqb_spec i j).
    + subst. left. apply HIn. auto.
    + destruct b; [left; apply HIn; auto|right; apply HIn; auto].
  - intros Hi Hj. apply HIn in Hi, Hj. destruct (unique_accept_pair dom i j H Ht H0 H1) as (b & Eb & Hb).
    destruct (Z.eqb_spec i j); [assumption|]. destruct Hi as [_ Hi], Hj as [_ Hj].
    rewrite Eb in Hi. injection Hi as ->. rewrite Hj in Hb. discriminate.
Qed.

Lemma real_visits dom : valid_domain dom -> tol_ok dom ->
  exists L, visit (S (Z.to_nat (num_nodes dom))) (real_accept dom) (num_nodes dom) 0 = Some L /\
    increasing L /\
    forall i, In i L <-> (0 <= i < num_nodes dom /\ conjugate_node dom i = Some i).
Proof.
  intros H Ht.
  pose proof (num_nodes_pos dom (proj2 H)) as Hpos.
  assert (Hc : forall i, 0 <= i < num_nodes dom -> exists m, conjugate_node dom i = Some m).
  { intros i Hi. destruct (conj_pos dom i H Hi) as (? & m & _ & _ & E & _). eauto. }
  assert (Hacc : forall i, 0 <= i < num_nodes dom -> exists b, real_accept dom i = Some b).
  { intros i Hi. destruct (Hc i Hi) as (m & E). rewrite (real_accept_spec dom i m H Ht Hi E). eauto. }
  destruct (visit_spec _ _ Hacc (S (Z.to_nat (num_nodes dom))) 0 ltac:(lia) ltac:(lia)) as (L & EL & HL & HIn).
  exists L. repeat split; try assumption.
  - apply HIn in H0. lia.
  - apply HIn in H0. lia.
  - apply HIn in H0. destruct H0 as [Hi Ha]. destruct (Hc i Hi) as (m & E).
    rewrite (real_accept_spec dom i m H Ht Hi E) in Ha. injection Ha as Ha. rewrite E. f_equal. lia.
  - intros [Hi E]. apply HIn. split; [assumption|]. rewrite (real_accept_spec dom i i H Ht Hi E).
    f_equal. apply Z.eqb_refl.
Qed.
