(** Proofs about the crystal initialisation: the field and grain boundaries. *)
From Coq Require Import Lra.
From Verif Require Import CrystalSpec IndexProofs ProductProofs GridProofs GridProofs2 GridProofs3 GridProofs4 CrystalProofs.
From Verif Require Import CrystalModel.
Open Scope R_scope.

(** ** Writes *)
Definition hits (dom q : list Z) (w : list Z * R) : Prop := mod_list (fst w) dom = q.
Lemma node_idx_inj dom p q n : valid_domain dom -> in_box dom p -> in_box dom q -> node_idx dom p = Some n -> node_idx dom q = Some n -> p = q.
Proof.
  intros V Bp Bq Ep Eq. destruct (pos_node_idx dom p n V Bp Ep) as [_ A]. destruct (pos_node_idx dom q n V Bq Eq) as [_ B]. congruence.
Qed.
Lemma grid_write_spec dom data w : valid_domain dom -> Z.of_nat (length data) = num_nodes dom -> length (fst w) = length dom ->
  exists out, grid_write dom data w = Some out /\ length out = length data /\
  forall q n, in_box dom q -> node_idx dom q = Some n ->
    (hits dom q w -> nth (Z.to_nat n) out 0 = snd w) /\ (~ hits dom q w -> nth (Z.to_nat n) out 0 = nth (Z.to_nat n) data 0).
Proof.
  intros V Hl Hw. destruct (wrap_mod_list (fst w) dom (proj2 V) Hw) as [E B]. unfold grid_write. rewrite E.
  destruct (node_idx_defined dom _ V B) as [i Ei]. rewrite Ei. destruct (pos_node_idx _ _ i V B Ei) as [Hi _].
  rewrite zget_nth by lia. eexists. split; [reflexivity|]. split; [apply upd_length|]. intros q n Bq En. destruct (pos_node_idx _ _ n V Bq En) as [Hn _].
  rewrite upd_nth by lia. unfold hits. split.
  - intros <-. rewrite Ei in En. injection En as <-. rewrite Nat.eqb_refl. reflexivity.
  - intros N. destruct (Nat.eqb_spec (Z.to_nat n) (Z.to_nat i)) as [En'|]; [|reflexivity]. exfalso. apply N.
    assert (n = i) as -> by lia. exact (node_idx_inj dom _ _ i V B Bq Ei En).
Qed.
Lemma grid_writes_spec dom : valid_domain dom -> forall ws data, Z.of_nat (length data) = num_nodes dom -> Forall (fun w => length (fst w) = length dom) ws ->
  exists out, grid_writes dom data ws = Some out /\ length out = length data /\
  forall q n, in_box dom q -> node_idx dom q = Some n ->
    (Forall (fun w => ~ hits dom q w) ws /\ nth (Z.to_nat n) out 0 = nth (Z.to_nat n) data 0) \/
    (exists l1 w l2, ws = l1 ++ w :: l2 /\ hits dom q w /\ Forall (fun w => ~ hits dom q w) l2 /\ nth (Z.to_nat n) out 0 = snd w).
Proof.
  intros V. induction ws as [|w ws IH]; intros data Hl F; cbn [grid_writes].
  - exists data. split; [reflexivity|split; [reflexivity|]]. intros q n _ _. left. split; [constructor|reflexivity].
  - destruct (grid_write_spec dom data w V Hl (Forall_inv F)) as (d & Ed & Ld & Nd). rewrite Ed.
    destruct (IH d ltac:(lia) (Forall_inv_tail F)) as (out & Eo & Lo & No). exists out. split; [exact Eo|]. split; [lia|].
    intros q n Bq En. destruct (Nd q n Bq En) as [N1 N2]. destruct (No q n Bq En) as [[Fn Ev]|(l1 & w' & l2 & -> & Hw & F2 & Ev)].
    + destruct (list_eq_dec Z.eq_dec (mod_list (fst w) dom) q) as [H|H].
      * right. exists [], w, ws. split; [reflexivity|]. split; [exact H|]. split; [exact Fn|]. rewrite Ev. apply N1. exact H.
      * left. split; [constructor; assumption|]. rewrite Ev. apply N2. exact H.
    + right. exists (w :: l1), w', l2. auto.
Qed.

(** ** Rounding *)
Lemma trunc_rounds x : rounds_to_zero x (trunc x).
Proof.
  unfold rounds_to_zero, trunc. destruct (Rle_dec 0 x) as [H|H].
  - destruct (base_Int_part x) as [A B]. split; intros K; [lra|]. assert (x = 0) by lra. subst x.
    assert (H1 : IZR (Int_part 0) <= 0) by lra. assert (H2 : -1 < IZR (Int_part 0)) by lra. apply le_IZR in H1. apply lt_IZR in H2.
    replace (Int_part 0) with 0%Z by lia. lra.
  - destruct (base_Int_part (- x)) as [A B]. rewrite opp_IZR. split; intros; lra.
Qed.
Lemma rounds_unique x n m : rounds_to_zero x n -> rounds_to_zero x m -> n = m.
Proof.
  intros [A1 A2] [B1 B2]. destruct (Rle_dec 0 x) as [H|H].
  - specialize (A1 H). specialize (B1 H). assert (IZR n < IZR (m + 1)) by (rewrite plus_IZR; lra). assert (IZR m < IZR (n + 1)) by (rewrite plus_IZR; lra).
    apply lt_IZR in H0, H1. lia.
  - specialize (A2 ltac:(lra)). specialize (B2 ltac:(lra)). assert (IZR n < IZR (m + 1)) by (rewrite plus_IZR; lra). assert (IZR m < IZR (n + 1)) by (rewrite plus_IZR; lra).
    apply lt_IZR in H0, H1. lia.
Qed.
Lemma mod_list_length p dom : length p = length dom -> length (mod_list p dom) = length dom.
Proof. intros H. unfold mod_list. rewrite map_length, combine_length. lia. Qed.
Lemma mod_list_nth p : forall dom k, length p = length dom -> (k < length dom)%nat -> nth k (mod_list p dom) 0%Z = (nth k p 0 mod nth k dom 0)%Z.
Proof.
  unfold mod_list. induction p as [|x p IH]; intros [|d dom] [|k] L H; cbn [length combine map nth fst snd] in *; try lia. apply IH; lia.
Qed.
Lemma in_box_nth dom q k : in_box dom q -> (k < length dom)%nat -> (0 <= nth k q 0 < nth k dom 0)%Z.
Proof.
  intros H. revert k. induction H as [|d x dom q Hx H IH]; intros [|k] Hk; cbn [length nth] in *; try lia. apply IH. lia.
Qed.
Lemma in_box_length dom q : in_box dom q -> length q = length dom.
Proof. intros H. induction H; cbn [length]; lia. Qed.
Lemma falls_on_mod dim dom p q : length dom = dim -> in_box dom q ->
  falls_on dim dom p q <-> mod_list (map (fun k => trunc (p k)) (seq 0 dim)) dom = q.
Proof.
  intros Hd B. assert (Ll : length (map (fun k => trunc (p k)) (seq 0 dim)) = length dom) by (rewrite map_length, seq_length; lia). split.
  - intros H. apply (nth_ext _ _ 0%Z 0%Z).
    { rewrite mod_list_length by exact Ll. symmetry. apply in_box_length, B. }
    intros k Hk. rewrite mod_list_length in Hk by exact Ll. rewrite mod_list_nth by assumption. rewrite (nth_map_seq (fun k => trunc (p k))) by lia.
    destruct (H k ltac:(lia)) as (n & per & Hn & E). rewrite (rounds_unique _ _ _ (trunc_rounds (p k)) Hn).
    pose proof (in_box_nth dom q k B Hk). assert (n = nth k q 0 + (- per) * nth k dom 0)%Z as -> by lia.
    rewrite Z.mod_add by lia. apply Z.mod_small. lia.
  - intros <- k Hk. rewrite mod_list_nth by (assumption || lia). rewrite (nth_map_seq (fun k => trunc (p k))) by lia.
    exists (trunc (p k)), (- (trunc (p k) / nth k dom 0))%Z. split; [apply trunc_rounds|].
    assert (L : (k < length dom)%nat) by lia. pose proof (in_box_nth dom _ k B L) as X. pose proof (Z_div_mod_eq_full (trunc (p k)) (nth k dom 0%Z)). lia.
Qed.

(** ** The list of writes *)
Definition triples (cells : list (list Z)) (nb : nat) (offs : list (list Z)) : list (list Z * nat * list Z) :=
  flat_map (fun z => flat_map (fun j => map (fun o => (z, j, o)) offs) (seq 0 nb)) cells.
Definition lat (t t' : list Z * nat * list Z) : Prop := let '(z, j, o) := t in let '(z', j', o') := t' in later z j o z' j' o'.
Definition write_of dim cell basis kern mn (t : list Z * nat * list Z) : list Z * R :=
  let '(z, j, o) := t in atom_write dim kern (cell_origin dim cell mn z) (mvec dim cell (fun i => basis i j)) o.
Lemma map_flat_map {A B D} (f : B -> D) (g : A -> list B) l : map f (flat_map g l) = flat_map (fun x => map f (g x)) l.
Proof. induction l as [|x l IH]; cbn [flat_map map]; [reflexivity|]. rewrite map_app, IH. reflexivity. Qed.
Lemma crystal_writes_map dim cell basis nb kern mn cells offs :
  crystal_writes dim cell basis nb kern mn cells offs = map (write_of dim cell basis kern mn) (triples cells nb offs).
Proof.
  unfold crystal_writes, triples. rewrite map_flat_map. apply flat_map_ext. intros z. rewrite map_flat_map. apply flat_map_ext. intros j.
  rewrite map_map. reflexivity.
Qed.
Lemma triples_In cells nb offs z j o : In (z, j, o) (triples cells nb offs) <-> In z cells /\ (j < nb)%nat /\ In o offs.
Proof.
  unfold triples. rewrite in_flat_map. split.
  - intros (z' & Hz & H). apply in_flat_map in H. destruct H as (j' & Hj & H). apply in_map_iff in H. destruct H as (o' & E & Ho). injection E as -> -> ->. apply in_seq in Hj. split; [exact Hz|split; [lia|exact Ho]].
  - intros (Hz & Hj & Ho). exists z. split; [exact Hz|]. apply in_flat_map. exists j. split; [apply in_seq; lia|]. apply in_map_iff. exists o. auto.
Qed.
Fixpoint sorted_by {A} (r : A -> A -> Prop) (l : list A) : Prop := match l with [] => True | x :: l' => Forall (r x) l' /\ sorted_by r l' end.
Lemma sorted_by_app {A} (r : A -> A -> Prop) l1 l2 : sorted_by r l1 -> sorted_by r l2 -> (forall a b, In a l1 -> In b l2 -> r a b) -> sorted_by r (l1 ++ l2).
Proof.
  induction l1 as [|x l1 IH]; cbn [sorted_by app]; [auto|]. intros [H1 H2] H3 H4. split.
  - apply Forall_app. split; [exact H1|]. apply Forall_forall. intros b Hb. apply H4; [left; reflexivity|exact Hb].
  - apply IH; auto. intros a b Ha Hb. apply H4; [right; exact Ha|exact Hb].
Qed.
Lemma sorted_flat_map {A B} (rA : A -> A -> Prop) (rB : B -> B -> Prop) (f : A -> list B) l : sorted_by rA l ->
  (forall a, In a l -> sorted_by rB (f a)) -> (forall a a' b b', rA a a' -> In b (f a) -> In b' (f a') -> rB b b') -> sorted_by rB (flat_map f l).
Proof.
  induction l as [|x l IH]; intros H1 H2 H3; cbn [flat_map sorted_by] in *; [exact I|]. destruct H1 as [F S]. apply sorted_by_app.
  - apply H2. left. reflexivity.
  - apply IH; auto. intros a Ha. apply H2. right. exact Ha.
  - intros b b' Hb Hb'. apply in_flat_map in Hb'. destruct Hb' as (a' & Ha' & Hb'). rewrite Forall_forall in F. exact (H3 x a' b b' (F a' Ha') Hb Hb').
Qed.
Lemma lex_sorted_by L : lex_sorted L -> sorted_by lex_lt L.
Proof. induction L as [|x L IH]; cbn [lex_sorted sorted_by]; [auto|]. intros [A B]. auto. Qed.
Lemma seq_sorted n : forall a, sorted_by lt (seq a n).
Proof. induction n as [|n IH]; intros a; cbn [seq sorted_by]; [exact I|]. split; [|apply IH]. apply Forall_forall. intros x Hx. apply in_seq in Hx. lia. Qed.
Lemma sorted_map {A B} (rA : A -> A -> Prop) (rB : B -> B -> Prop) (f : A -> B) l : sorted_by rA l -> (forall a a', rA a a' -> rB (f a) (f a')) -> sorted_by rB (map f l).
Proof.
  induction l as [|x l IH]; intros H K; cbn [map sorted_by] in *; [exact I|]. destruct H as [F S]. split; [|apply IH; auto].
  rewrite Forall_forall in *. intros y Hy. apply in_map_iff in Hy. destruct Hy as (a & <- & Ha). auto.
Qed.
Lemma triples_sorted cells nb offs : lex_sorted cells -> lex_sorted offs -> sorted_by lat (triples cells nb offs).
Proof.
  intros Hc Ho. unfold triples. apply (sorted_flat_map lex_lt).
  - apply lex_sorted_by, Hc.
  - intros z _. apply (sorted_flat_map lt).
    + apply seq_sorted.
    + intros j _. apply (sorted_map lex_lt); [apply lex_sorted_by, Ho|]. intros o o' H. cbn. right. split; [reflexivity|right; auto].
    + intros j j' b b' Hj Hb Hb'. apply in_map_iff in Hb, Hb'. destruct Hb as (o & <- & _), Hb' as (o' & <- & _). cbn. right. auto.
  - intros z z' b b' Hz Hb Hb'. apply in_flat_map in Hb, Hb'. destruct Hb as (j & _ & Hb), Hb' as (j' & _ & Hb').
    apply in_map_iff in Hb, Hb'. destruct Hb as (o & <- & _), Hb' as (o' & <- & _). cbn. left. exact Hz.
Qed.
Lemma lex_lt_irrefl a : ~ lex_lt a a.
Proof. induction a as [|x a IH]; cbn [lex_lt]; [tauto|]. intros [H|[_ H]]; [lia|tauto]. Qed.
Lemma lex_lt_asym a : forall b, lex_lt a b -> ~ lex_lt b a.
Proof.
  induction a as [|x a IH]; intros [|y b]; cbn [lex_lt]; try tauto. intros [H|[E H]] [K|[E' K]]; try lia. exact (IH b H K).
Qed.
Lemma lat_asym t t' : lat t t' -> ~ lat t' t.
Proof.
  destruct t as [[z j] o], t' as [[z' j'] o']. cbn. intros [H|[<- [H|[<- H]]]] [K|[E [K|[E' K]]]]; subst; try lia;
    try (exact (lex_lt_asym _ _ H K)); try (exact (lex_lt_irrefl _ H)); try (exact (lex_lt_irrefl _ K)).
Qed.
Lemma lat_irrefl t : ~ lat t t.
Proof. intros H. exact (lat_asym t t H H). Qed.
Lemma sorted_split {A} (r : A -> A -> Prop) l1 x l2 : sorted_by r (l1 ++ x :: l2) -> forall y, In y l1 -> r y x.
Proof.
  induction l1 as [|a l1 IH]; cbn [app sorted_by In]; [tauto|]. intros [F S] y [<-|Hy]; [|apply IH; assumption].
  rewrite Forall_forall in F. apply F. apply in_or_app. right. left. reflexivity.
Qed.
Lemma map_split {A B} (f : A -> B) l : forall l1 y l2, map f l = l1 ++ y :: l2 -> exists k1 x k2, l = k1 ++ x :: k2 /\ f x = y /\ map f k2 = l2.
Proof.
  induction l as [|a l IH]; intros [|b l1] y l2 E; cbn [map app] in E; try discriminate.
  - injection E as E1 E2. exists [], a, l. auto.
  - injection E as _ E. destruct (IH l1 y l2 E) as (k1 & x & k2 & -> & H). exists (a :: k1), x, k2. auto.
Qed.
Lemma write_covers dim cell basis kern mn dom z j o q : length dom = dim -> in_box dom q ->
  hits dom q (write_of dim cell basis kern mn (z, j, o)) <-> covers dim cell basis mn (ak_cutoff kern) dom z j o q.
Proof.
  intros Hd B. unfold hits, write_of, atom_write, covers. cbn [fst]. rewrite (falls_on_mod dim dom _ q Hd B).
  enough (E : forall k, delta (ak_cutoff kern) o k + cell_origin dim cell mn z k + mvec dim cell (fun i => basis i j) k = atom dim cell basis mn z j k + offset (ak_cutoff kern) o k).
  { rewrite (map_ext _ _ (fun k => f_equal trunc (E k))). tauto. }
  intros k. unfold delta, atom, offset. rewrite site_origin. unfold mvec. lra.
Qed.
Lemma write_value dim cell basis kern mn z j o : snd (write_of dim cell basis kern mn (z, j, o)) = ak_eval kern (offset_length dim (ak_cutoff kern) o).
Proof.
  unfold write_of, atom_write, offset_length. cbn [snd]. do 2 f_equal. apply rsum_ext. intros k _. unfold delta, offset. replace 0.5 with (1 / 2) by lra. ring.
Qed.
Lemma valid_offset_iff dim c o : 0 <= c -> (length o = dim /\ Forall (fun y => (0 <= y < trunc (2 * c))%Z) o) <-> valid_offset dim c o.
Proof.
  intros Hc. unfold valid_offset. split; intros [L F]; (split; [exact L|]); revert F; apply Forall_impl; intros y Hy.
  - split; [lia|]. assert (y + 1 <= trunc (2 * c))%Z as X by lia. apply trunc_below in X; [|lra]. rewrite plus_IZR in X. exact X.
  - split; [lia|]. assert (y + 1 <= trunc (2 * c))%Z; [|lia]. apply trunc_below; [lra|]. rewrite plus_IZR. tauto.
Qed.
Lemma build_spec dim cell inv vol basis nb kern dom data mn cells : valid_domain dom -> length dom = dim -> is_inverse dim cell inv ->
  Z.of_nat (length data) = num_nodes dom -> 1 / 2 <= ak_cutoff kern -> placed_cells dim cell inv vol dom = Some (mn, cells) ->
  exists out, build_crystal dim cell inv vol basis nb kern dom data = Some out /\ length out = length data /\
  forall q n, in_box dom q -> node_idx dom q = Some n ->
    painted dim cell basis nb mn kern dom cells q (nth (Z.to_nat n) data 0) (nth (Z.to_nat n) out 0).
Proof.
  intros V Hd HI Hl Hc Hp. assert (D0 : (dim <> 0)%nat) by (destruct V as [V _]; lia).
  assert (T : (0 < trunc (2 * ak_cutoff kern))%Z) by (assert (1 <= trunc (2 * ak_cutoff kern))%Z; [apply trunc_below; lra|lia]).
  destruct (placed_spec dim cell inv vol dom D0 Hd HI) as (mn' & cells' & Hp' & SC & _). rewrite Hp in Hp'. injection Hp' as <- <-.
  destruct (indices_repeat (trunc (2 * ak_cutoff kern)) dim D0 T) as (offs & Eo & So & Io). unfold build_crystal. rewrite Hp, Eo.
  rewrite crystal_writes_map. set (T3 := triples cells nb offs).
  destruct (grid_writes_spec dom V (map (write_of dim cell basis kern mn) T3) data Hl) as (out & E & L & N).
  { apply Forall_forall. intros w Hw. apply in_map_iff in Hw. destruct Hw as ([[z j] o] & <- & _). unfold write_of, atom_write. cbn [fst]. rewrite map_length, seq_length. lia. }
  exists out. split; [exact E|]. split; [exact L|]. intros q n Bq En.
  assert (Hh : forall z j o, In (z, j, o) T3 /\ hits dom q (write_of dim cell basis kern mn (z, j, o)) <->
     (In z cells /\ (j < nb)%nat /\ valid_offset dim (ak_cutoff kern) o /\ covers dim cell basis mn (ak_cutoff kern) dom z j o q)).
  { intros z j o. unfold T3. rewrite triples_In, Io, (write_covers dim cell basis kern mn dom z j o q Hd Bq), valid_offset_iff by lra. tauto. }
  unfold painted. cbv zeta beta. destruct (N q n Bq En) as [[F Ev]|(l1 & w & l2 & Ew & Hw & F2 & Ev)].
  - left. split; [|exact Ev]. intros z j o H. apply Hh in H. destruct H as [Hin Hi]. rewrite Forall_forall in F. apply (F _ (in_map _ _ _ Hin)). exact Hi.
  - right. destruct (map_split _ _ _ _ _ Ew) as (k1 & [[z j] o] & k2 & E3 & E4 & E5). exists z, j, o. subst w.
    split; [apply Hh; split; [rewrite E3; apply in_or_app; right; left; reflexivity|exact Hw]|]. split; [rewrite Ev; apply write_value|].
    intros z' j' o' H Hlt. apply Hh in H. destruct H as [Hin Hi]. rewrite E3 in Hin. apply in_app_or in Hin.
    pose proof (triples_sorted cells nb offs SC So) as SS. fold T3 in SS. rewrite E3 in SS.
    destruct Hin as [Hin|[Hin|Hin]].
    + exact (lat_asym (z, j, o) (z', j', o') Hlt (sorted_split _ _ _ _ SS _ Hin)).
    + injection Hin as <- <- <-. exact (lat_irrefl (z, j, o) Hlt).
    + rewrite Forall_forall in F2. subst l2. apply (F2 _ (in_map _ _ _ Hin)). exact Hi.
Qed.

(** ** Grain boundary *)
Lemma copy_row_spec dom ix src : valid_domain dom -> Z.of_nat (length src) = num_nodes dom ->
  forall iys dst, length dst = length src -> (forall iy, In iy iys -> in_box dom [ix; iy]) ->
  exists out, copy_row dom dst src ix iys = Some out /\ length out = length dst /\
  forall jx jy n, in_box dom [jx; jy] -> node_idx dom [jx; jy] = Some n ->
    nth (Z.to_nat n) out 0 = if (Z.eqb jx ix && existsb (Z.eqb jy) iys)%bool then nth (Z.to_nat n) src 0 else nth (Z.to_nat n) dst 0.
Proof.
  intros V Hs. induction iys as [|iy iys IH]; intros dst Hl Hin; cbn [copy_row].
  - exists dst. split; [reflexivity|]. split; [reflexivity|]. intros. cbn [existsb]. rewrite andb_false_r. reflexivity.
  - assert (B := Hin iy (or_introl eq_refl)). destruct (node_idx_defined dom _ V B) as [i Ei]. rewrite Ei. destruct (pos_node_idx _ _ i V B Ei) as [Hi _].
    rewrite !zget_nth by lia.
    destruct (IH (upd dst (Z.to_nat i) (nth (Z.to_nat i) src 0))) as (out & E & L & N); [rewrite upd_length; exact Hl|intros y Hy; apply Hin; right; exact Hy|].
    exists out. split; [exact E|]. rewrite upd_length in L. split; [exact L|]. intros jx jy n Bj En. rewrite (N jx jy n Bj En).
    destruct (pos_node_idx _ _ n V Bj En) as [Hn _]. rewrite upd_nth by lia. cbn [existsb].
    destruct (Z.eqb_spec jx ix) as [->|Nx]; cbn [andb].
    + destruct (Z.eqb_spec jy iy) as [->|Ny]; cbn [orb].
      * rewrite Ei in En. injection En as <-. rewrite Nat.eqb_refl. destruct (existsb (Z.eqb iy) iys); reflexivity.
      * destruct (existsb (Z.eqb jy) iys); [reflexivity|]. destruct (Nat.eqb_spec (Z.to_nat n) (Z.to_nat i)) as [Q|]; [|reflexivity].
        exfalso. assert (n = i) as -> by lia. pose proof (node_idx_inj dom _ _ i V B Bj Ei En) as X. injection X as X. lia.
    + destruct (Nat.eqb_spec (Z.to_nat n) (Z.to_nat i)) as [Q|]; [|reflexivity].
      exfalso. assert (n = i) as -> by lia. pose proof (node_idx_inj dom _ _ i V B Bj Ei En) as X. injection X as X. lia.
Qed.
Lemma copy_rows_spec dom src iys : valid_domain dom -> Z.of_nat (length src) = num_nodes dom ->
  forall ixs dst, length dst = length src -> (forall ix iy, In ix ixs -> In iy iys -> in_box dom [ix; iy]) ->
  exists out, copy_rows dom dst src ixs iys = Some out /\ length out = length dst /\
  forall jx jy n, in_box dom [jx; jy] -> node_idx dom [jx; jy] = Some n ->
    nth (Z.to_nat n) out 0 = if (existsb (Z.eqb jx) ixs && existsb (Z.eqb jy) iys)%bool then nth (Z.to_nat n) src 0 else nth (Z.to_nat n) dst 0.
Proof.
  intros V Hs. induction ixs as [|ix ixs IH]; intros dst Hl Hin; cbn [copy_rows].
  - exists dst. split; [reflexivity|]. split; reflexivity.
  - destruct (copy_row_spec dom ix src V Hs iys dst Hl) as (d & Ed & Ld & Nd); [intros iy Hy; apply Hin; [left; reflexivity|exact Hy]|]. rewrite Ed.
    destruct (IH d) as (out & E & L & N); [lia|intros; apply Hin; [right|]; assumption|]. exists out. split; [exact E|]. split; [lia|].
    intros jx jy n Bj En. rewrite (N jx jy n Bj En), (Nd jx jy n Bj En). cbn [existsb]. destruct (Z.eqb jx ix), (existsb (Z.eqb jx) ixs), (existsb (Z.eqb jy) iys); reflexivity.
Qed.
Lemma existsb_range n x : existsb (Z.eqb x) (node_range n) = ((0 <=? x) && (x <? Z.of_nat n))%Z%bool.
Proof.
  apply eq_true_iff_eq. rewrite existsb_exists, andb_true_iff, Z.leb_le, Z.ltb_lt. split.
  - intros (y & Hy & E). apply Z.eqb_eq in E. subst y. apply node_range_In in Hy. lia.
  - intros H. exists x. split; [apply node_range_In; lia|apply Z.eqb_refl].
Qed.
Lemma tilt_gb_rotations d0 d1 data angle : (0 < d0)%Z -> (0 < d1)%Z -> Z.of_nat (length data) = num_nodes [d0; d1] ->
  exists a b out, rotate2d [d0; d1] data (angle / 2) = Some a /\ rotate2d [d0; d1] data (- angle / 2) = Some b /\
  tilt_gb [d0; d1] data angle = Some out /\ length out = length data /\
  forall ix iy n, in_box [d0; d1] [ix; iy] -> node_idx [d0; d1] [ix; iy] = Some n ->
    nth (Z.to_nat n) out 0 = nth (Z.to_nat n) (if (ix <? d0 / 2)%Z then a else b) 0.
Proof.
  intros P0 P1 Hl. assert (V : valid_domain [d0; d1]) by (split; [left; reflexivity|repeat constructor; lia]).
  destruct (rotate2d_spec d0 d1 data (angle / 2) P0 P1 Hl) as (a & Ea & La & _). destruct (rotate2d_spec d0 d1 data (- angle / 2) P0 P1 Hl) as (b & Eb & Lb & _).
  assert (Q0 : Z.quot d0 2 = (d0 / 2)%Z) by (apply Z.quot_div_nonneg; lia).
  assert (D : (0 <= d0 / 2 <= d0)%Z) by (split; [apply Z.div_pos; lia|apply Z.div_le_upper_bound; lia]).
  destruct (copy_rows_spec [d0; d1] a (node_range (Z.to_nat d1)) V ltac:(lia) (node_range (Z.to_nat (Z.quot d0 2))) b ltac:(lia)) as (out & E & L & N).
  { intros ix iy Hx Hy. apply node_range_In in Hx, Hy. rewrite Q0 in Hx. repeat constructor; lia. }
  exists a, b, out. split; [exact Ea|]. split; [exact Eb|]. split; [unfold tilt_gb; rewrite Ea, Eb; exact E|]. split; [lia|].
  intros ix iy n B En. rewrite (N ix iy n B En), !existsb_range, Q0. inversion B as [|? ? ? ? Hx B']; subst. inversion B' as [|? ? ? ? Hy _]; subst.
  rewrite !Z2Nat.id by lia. replace (0 <=? ix)%Z with true by (symmetry; apply Z.leb_le; lia). replace (0 <=? iy)%Z with true by (symmetry; apply Z.leb_le; lia).
  replace (iy <? d1)%Z with true by (symmetry; apply Z.ltb_lt; lia). cbn [andb]. rewrite andb_true_r. destruct (ix <? d0 / 2)%Z; reflexivity.
Qed.
Lemma tilt_gb_spec d0 d1 data angle : (0 < d0)%Z -> (0 < d1)%Z -> Z.of_nat (length data) = num_nodes [d0; d1] ->
  exists out, tilt_gb [d0; d1] data angle = Some out /\ length out = length data /\
  forall ix iy n, in_box [d0; d1] [ix; iy] -> node_idx [d0; d1] [ix; iy] = Some n ->
    turned_value d0 d1 data (if (ix <? d0 / 2)%Z then angle / 2 else - (angle / 2)) ix iy (nth (Z.to_nat n) out 0).
Proof.
  intros P0 P1 Hl. assert (V : valid_domain [d0; d1]) by (split; [left; reflexivity|repeat constructor; lia]).
  destruct (tilt_gb_rotations d0 d1 data angle P0 P1 Hl) as (a & b & out & Ea & Eb & Eo & L & N). exists out. split; [exact Eo|]. split; [exact L|].
  intros ix iy n B En. rewrite (N ix iy n B En). destruct (pos_node_idx _ _ n V B En) as [Hn Hp].
  destruct (rotate2d_spec d0 d1 data (angle / 2) P0 P1 Hl) as (a' & Ea' & _ & Na). rewrite Ea in Ea'. injection Ea' as <-.
  destruct (rotate2d_spec d0 d1 data (- angle / 2) P0 P1 Hl) as (b' & Eb' & _ & Nb). rewrite Eb in Eb'. injection Eb' as <-.
  specialize (Na (Z.to_nat n) [ix; iy] ltac:(lia)). specialize (Nb (Z.to_nat n) [ix; iy] ltac:(lia)). rewrite Z2Nat.id in Na, Nb by lia. specialize (Na Hp). specialize (Nb Hp).
  cbn [nth] in Na, Nb. unfold turned_value. destruct (ix <? d0 / 2)%Z; [exact Na|]. replace (- (angle / 2)) with (- angle / 2) by lra. exact Nb.
Qed.
Lemma list_nodes_ext d0 d1 (a b : list R) : (0 < d0)%Z -> (0 < d1)%Z -> Z.of_nat (length a) = num_nodes [d0; d1] -> length b = length a ->
  (forall ix iy n, in_box [d0; d1] [ix; iy] -> node_idx [d0; d1] [ix; iy] = Some n -> nth (Z.to_nat n) a 0 = nth (Z.to_nat n) b 0) -> a = b.
Proof.
  intros P0 P1 L L' H. assert (V : valid_domain [d0; d1]) by (split; [left; reflexivity|repeat constructor; lia]).
  apply (nth_ext _ _ 0 0); [lia|]. intros i Hi. destruct (node_idx_pos [d0; d1] (Z.of_nat i) V ltac:(lia)) as (p & Ep & Bp & En).
  assert (exists x y, p = [x; y]) as (x & y & ->). { inversion Bp as [|? x ? p' _ B1]; subst. inversion B1 as [|? y ? p'' _ B2]; subst. inversion B2; subst. eauto. }
  specialize (H x y (Z.of_nat i) Bp En). rewrite Nat2Z.id in H. exact H.
Qed.
