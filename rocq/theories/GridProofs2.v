(** Proofs about Blur. *)
From Verif Require Import GridModel GridSpec IndexProofs ProductProofs GridProofs.
From Coq Require Import Psatz Permutation.
Open Scope R_scope.

(** ** Sums over lists *)
Lemma lsum_ext {A} (f g : A -> R) l : (forall x, In x l -> f x = g x) -> lsum f l = lsum g l.
Proof. induction l as [|x l IH]; intros H; cbn [lsum]; [reflexivity|]. rewrite (H x) by (left; reflexivity). rewrite IH; [reflexivity|]. intros y Hy. apply H. right. exact Hy. Qed.
Lemma lsum_plus {A} (f g : A -> R) l : lsum (fun x => f x + g x) l = lsum f l + lsum g l.
Proof. induction l as [|x l IH]; cbn [lsum]; [ring|]. rewrite IH. ring. Qed.
Lemma lsum_mul_l {A} c (f : A -> R) l : lsum (fun x => c * f x) l = c * lsum f l.
Proof. induction l as [|x l IH]; cbn [lsum]; [ring|]. rewrite IH. ring. Qed.
Lemma lsum_mul_r {A} c (f : A -> R) l : lsum (fun x => f x * c) l = lsum f l * c.
Proof. induction l as [|x l IH]; cbn [lsum]; [ring|]. rewrite IH. ring. Qed.
Lemma lsum_0 {A} (l : list A) : lsum (fun _ => 0) l = 0.
Proof. induction l as [|x l IH]; cbn [lsum]; [reflexivity|]. rewrite IH. ring. Qed.
Lemma lsum_swap {A B} (f : A -> B -> R) l m : lsum (fun x => lsum (f x) m) l = lsum (fun y => lsum (fun x => f x y) l) m.
Proof. induction l as [|x l IH]; cbn [lsum]; [rewrite lsum_0; reflexivity|]. rewrite IH, <- lsum_plus. reflexivity. Qed.
Lemma lsum_perm {A} (f : A -> R) l m : Permutation l m -> lsum f l = lsum f m.
Proof. induction 1; cbn [lsum]; try congruence; lra. Qed.
Lemma lsum_map {A B} (f : B -> R) (g : A -> B) l : lsum f (map g l) = lsum (fun x => f (g x)) l.
Proof. induction l as [|x l IH]; cbn [lsum map]; [reflexivity|]. rewrite IH. reflexivity. Qed.
Lemma lsum_le {A} (f g : A -> R) l : (forall x, In x l -> f x <= g x) -> lsum f l <= lsum g l.
Proof. induction l as [|x l IH]; intros H; cbn [lsum]; [lra|]. pose proof (H x (or_introl eq_refl)). assert (lsum f l <= lsum g l) by (apply IH; intros y Hy; apply H; right; exact Hy). lra. Qed.
Lemma lsum_nonneg {A} (f : A -> R) l : (forall x, In x l -> 0 <= f x) -> 0 <= lsum f l.
Proof. intros H. pose proof (lsum_le (fun _ => 0) f l H) as X. rewrite lsum_0 in X. exact X. Qed.
Lemma lsum_pos {A} (f : A -> R) l x : (forall x, In x l -> 0 <= f x) -> In x l -> 0 < f x -> 0 < lsum f l.
Proof.
  induction l as [|y l IH]; intros H Hin Hx; [contradiction|]. cbn [lsum].
  assert (Hy := H y (or_introl eq_refl)). assert (Hl : 0 <= lsum f l) by (apply lsum_nonneg; intros z Hz; apply H; right; exact Hz).
  destruct Hin as [->|Hin]; [lra|]. assert (0 < lsum f l) by (apply IH; auto; intros z Hz; apply H; right; exact Hz). lra.
Qed.

(** ** The offsets *)
Lemma drain_calls L : forall p, calls (S (length L)) p = Some (map Some L ++ [None]) -> drain (S (length L)) p = Some L.
Proof.
  induction L as [|x L IH]; intros p H.
  - cbn [calls length map app] in H. cbn [drain length]. destruct (next p) as [[o p']|]; [|discriminate]. injection H as ->. reflexivity.
  - cbn [length] in *. remember (S (length L)) as n eqn:En. cbn [calls] in H. cbn [drain].
    destruct (next p) as [[o p']|]; [|discriminate]. destruct (calls n p') as [os|] eqn:Ec; [|discriminate]. cbn [map app] in H.
    injection H as -> ->. subst n. rewrite (IH p' Ec). reflexivity.
Qed.
Definition blur_box (k : kernel) (dom : list Z) : list Z := map (fun _ => (2 * k_cutoff k + 1)%Z) dom.
Lemma shift_of_inj c p q : shift_of c p = shift_of c q -> p = q.
Proof.
  revert q. induction p as [|x p IH]; intros [|y q] H; cbn in H; try discriminate; [reflexivity|].
  injection H as H1 H2. f_equal; [lia|apply IH, H2].
Qed.
Lemma in_box_const_gen {A} (b : Z) (dom : list A) s : in_box (map (fun _ => b) dom) s <-> length s = length dom /\ Forall (fun x => (0 <= x < b)%Z) s.
Proof.
  revert s. induction dom as [|d dom IH]; intros s; cbn [map].
  - split.
    + intros H. inversion H. split; [reflexivity|constructor].
    + intros [H _]. destruct s; [constructor|discriminate].
  - split.
    + intros H. inversion H as [|? x ? s' Hx Hs]; subst. apply IH in Hs. destruct Hs as [L F]. split; [cbn; lia|]. constructor; [lia|exact F].
    + intros [L F]. destruct s as [|x s]; [discriminate|]. pose proof (Forall_inv F). pose proof (Forall_inv_tail F). cbv beta in *. constructor; [lia|]. apply IH. split; [cbn in L; lia|assumption].
Qed.
Lemma in_box_const {A} c (dom : list A) s : in_box (map (fun _ => (2 * c + 1)%Z) dom) s <-> length s = length dom /\ Forall (fun x => (0 <= x < 2 * c + 1)%Z) s.
Proof. apply in_box_const_gen. Qed.
Lemma offsets_exist k dom : valid_domain dom -> (0 <= k_cutoff k)%Z ->
  exists ps, drain (S (Z.to_nat (fold_right Z.mul 1%Z (blur_box k dom)))) (new_product (blur_box k dom)) = Some ps /\
  all_offsets (k_cutoff k) (length dom) (map (shift_of (k_cutoff k)) ps).
Proof.
  intros V Hc. destruct (product_enumerates (blur_box k dom)) as (L & HL & Hs & Hin & Hlen).
  - destruct V as [V _]. unfold blur_box. destruct dom; [destruct V; discriminate|discriminate].
  - unfold blur_box. apply Forall_forall. intros x Hx. apply in_map_iff in Hx. destruct Hx as (d & <- & _). lia.
  - exists L. fold (num_nodes (blur_box k dom)). rewrite <- Hlen, Nat2Z.id. split; [apply drain_calls, HL|]. split.
    + apply FinFun.Injective_map_NoDup; [intros p q; apply shift_of_inj|apply lex_sorted_NoDup, Hs].
    + intros s. rewrite in_map_iff. split.
      * intros (p & <- & Hp). apply Hin in Hp. apply in_box_const in Hp. destruct Hp as [Lp Fp]. split; [unfold shift_of; rewrite map_length; exact Lp|].
        apply Forall_forall. intros y Hy. unfold shift_of in Hy. apply in_map_iff in Hy. destruct Hy as (z & <- & Hz). rewrite Forall_forall in Fp. specialize (Fp z Hz). lia.
      * intros [Ls Fs]. exists (map (fun x => (x + k_cutoff k)%Z) s). split.
        -- unfold shift_of. rewrite map_map. transitivity (map (fun x : Z => x) s); [apply map_ext; intros; lia|apply map_id].
        -- apply Hin. apply in_box_const. rewrite map_length. split; [exact Ls|]. apply Forall_forall. intros y Hy. apply in_map_iff in Hy. destruct Hy as (z & <- & Hz).
           rewrite Forall_forall in Fs. specialize (Fs z Hz). lia.
Qed.

(** ** Neighbours *)
Lemma wrap_mod_list xs : forall dom, Forall (fun d => (0 < d)%Z) dom -> length xs = length dom -> wrap xs dom = Some (mod_list xs dom) /\ in_box dom (mod_list xs dom).
Proof.
  induction xs as [|x xs IH]; intros [|d dom] Hd L; try discriminate; [split; [reflexivity|constructor]|].
  inversion Hd as [|? ? P Hd']; subst. destruct (IH dom Hd' ltac:(cbn in L; lia)) as [E B]. cbn [wrap]. rewrite (wrap1_mod x d P), E. split; [reflexivity|].
  unfold mod_list in *. cbn [combine map fst snd]. constructor; [apply Z.mod_pos_bound, P|exact B].
Qed.
Lemma zadd_length a : forall b, length a = length b -> length (zadd a b) = length a.
Proof. induction a as [|x a IH]; intros [|y b] H; try discriminate; [reflexivity|]. cbn [zadd length] in *. f_equal. apply IH. lia. Qed.
Lemma zget_nth (data : list R) i : (0 <= i < Z.of_nat (length data))%Z -> zget data i = Some (nth (Z.to_nat i) data 0).
Proof. intros H. unfold zget. destruct (Z.ltb_spec i 0); [lia|]. apply nth_error_nth'. lia. Qed.
Lemma neighbour_value data dom p s : valid_domain dom -> Z.of_nat (length data) = num_nodes dom -> in_box dom p -> length s = length dom ->
  neighbour data dom p s = Some (periodic_value dom data (zadd p s)).
Proof.
  intros V Hl Hp Hs. assert (Lp : length p = length dom) by (symmetry; exact (ListAux.Forall2_length _ _ _ Hp)).
  unfold neighbour, periodic_value. destruct (wrap_mod_list (zadd p s) dom (proj2 V)) as [E B].
  { rewrite zadd_length; lia. }
  rewrite E. destruct (node_idx_defined dom _ V B) as [n En]. rewrite En.
  destruct (pos_node_idx dom _ n V B En) as [Hn _]. apply zget_nth. lia.
Qed.
Lemma blur_sum_spec k data dom p : valid_domain dom -> Z.of_nat (length data) = num_nodes dom -> in_box dom p -> forall ps acc integral,
  (forall q, In q ps -> length q = length dom) ->
  blur_sum k data dom p ps acc integral =
  Some (acc + lsum (fun s => k_value k s * periodic_value dom data (zadd p s)) (map (shift_of (k_cutoff k)) ps),
        integral + lsum (k_value k) (map (shift_of (k_cutoff k)) ps)).
Proof.
  intros V Hl Hp. induction ps as [|q ps IH]; intros acc integral Hq; cbn [blur_sum map lsum].
  - rewrite !Rplus_0_r. reflexivity.
  - rewrite (neighbour_value data dom p _ V Hl Hp) by (unfold shift_of; rewrite map_length; apply Hq; left; reflexivity).
    rewrite IH by (intros r Hr; apply Hq; right; exact Hr). f_equal. f_equal; ring.
Qed.

(** One list of offsets describes the blurring of every data array. *)
Theorem blur_formula k dom : valid_domain dom -> (0 <= k_cutoff k)%Z ->
  exists L, all_offsets (k_cutoff k) (length dom) L /\
  forall data, Z.of_nat (length data) = num_nodes dom ->
  exists out, blur k data dom = Some out /\ length out = length data /\
  forall i p, (i < length data)%nat -> IndexModel.pos dom (Z.of_nat i) = Some p ->
  nth i out 0 = lsum (fun s => k_value k s * periodic_value dom data (zadd p s)) L / lsum (k_value k) L.
Proof.
  intros V Hc. destruct (offsets_exist k dom V Hc) as (ps & Hps & HL). exists (map (shift_of (k_cutoff k)) ps). split; [exact HL|].
  intros data Hl. unfold blur. fold (blur_box k dom). rewrite Hps.
  assert (Hq : forall q, In q ps -> length q = length dom).
  { intros q Hq. destruct HL as [_ HL]. specialize (HL (shift_of (k_cutoff k) q)). destruct HL as [HL _]. specialize (HL (in_map _ _ _ Hq)).
    destruct HL as [HL _]. unfold shift_of in HL. rewrite map_length in HL. exact HL. }
  assert (Ev : forall i, (0 <= i < num_nodes dom)%Z -> exists p, IndexModel.pos dom i = Some p /\
     match IndexModel.pos dom i with Some c => match blur_sum k data dom c ps 0 0 with Some (v, s) => Some (v / s) | None => None end | None => None end
     = Some (lsum (fun s => k_value k s * periodic_value dom data (zadd p s)) (map (shift_of (k_cutoff k)) ps) / lsum (k_value k) (map (shift_of (k_cutoff k)) ps))).
  { intros i Hi. destruct (node_idx_pos dom i V Hi) as (p & Ep & Bp & _). exists p. split; [exact Ep|]. rewrite Ep.
    rewrite (blur_sum_spec k data dom p V Hl Bp ps 0 0 Hq). rewrite !Rplus_0_l. reflexivity. }
  match goal with |- context[all_some ?l] => destruct (all_some_total l) as [out E] end.
  { intros x Hx. apply in_map_iff in Hx. destruct Hx as (i & <- & Hi). apply node_range_In in Hi. destruct (Ev i ltac:(lia)) as (p & _ & ->). discriminate. }
  exists out. split; [exact E|]. destruct (all_some_nth _ _ E) as [Lo No]. rewrite map_length, node_range_length in Lo. split; [exact Lo|].
  intros i p Hi Hp. specialize (No i). rewrite nth_error_map, node_range_nth in No by exact Hi. cbn [option_map] in No.
  destruct (Ev (Z.of_nat i) ltac:(lia)) as (p' & Ep' & Ev'). rewrite Hp in Ep'. injection Ep' as <-. rewrite Ev' in No.
  apply nth_error_nth with (d := 0) in No. exact No.
Qed.

Lemma averaging_pos k dim L : averaging k dim -> all_offsets (k_cutoff k) dim L -> 0 < lsum (k_value k) L.
Proof.
  intros (Hc & Hn & s & Ls & Fs & Ps) [_ HL]. apply (lsum_pos _ _ s); [intros; apply Hn| |exact Ps]. apply HL. auto.
Qed.
Lemma periodic_value_node dom data q : valid_domain dom -> Z.of_nat (length data) = num_nodes dom -> length q = length dom ->
  exists n, (n < length data)%nat /\ periodic_value dom data q = nth n data 0 /\ node_idx dom (mod_list q dom) = Some (Z.of_nat n).
Proof.
  intros V Hl Hq. destruct (wrap_mod_list q dom (proj2 V) Hq) as [_ B]. destruct (node_idx_defined dom _ V B) as [n En].
  destruct (pos_node_idx dom _ n V B En) as [Hn _]. exists (Z.to_nat n). split; [lia|]. unfold periodic_value. rewrite En, Z2Nat.id by lia. auto.
Qed.

Definition pos_of (dom : list Z) (i : nat) : list Z := match IndexModel.pos dom (Z.of_nat i) with Some p => p | None => [] end.
Lemma pos_of_spec dom i : valid_domain dom -> (Z.of_nat i < num_nodes dom)%Z -> IndexModel.pos dom (Z.of_nat i) = Some (pos_of dom i) /\ in_box dom (pos_of dom i) /\ node_idx dom (pos_of dom i) = Some (Z.of_nat i).
Proof. intros V H. destruct (node_idx_pos dom (Z.of_nat i) V ltac:(lia)) as (p & Ep & Bp & Np). unfold pos_of. rewrite Ep. auto. Qed.

Lemma blur_exists k data dom : valid_domain dom -> (0 <= k_cutoff k)%Z -> Z.of_nat (length data) = num_nodes dom -> exists out, blur k data dom = Some out /\ length out = length data.
Proof. intros V Hc Hl. destruct (blur_formula k dom V Hc) as (L & _ & H). destruct (H data Hl) as (out & E & Lo & _). exists out. auto. Qed.

Theorem blur_bounds k data dom lo hi : valid_domain dom -> averaging k (length dom) -> Z.of_nat (length data) = num_nodes dom ->
  Forall (fun x => lo <= x <= hi) data -> exists out, blur k data dom = Some out /\ length out = length data /\ Forall (fun x => lo <= x <= hi) out.
Proof.
  intros V A Hl HF. destruct (blur_formula k dom V (proj1 A)) as (L & HL & H). destruct (H data Hl) as (out & E & Lo & N).
  exists out. split; [exact E|]. split; [exact Lo|]. apply Forall_forall. intros x Hx. destruct (In_nth _ _ 0 Hx) as (i & Hi & Ei).
  destruct (pos_of_spec dom i V ltac:(lia)) as (Ep & Bp & _). rewrite (N i _ ltac:(lia) Ep) in Ei.
  pose proof (averaging_pos k _ L A HL) as PL. destruct A as (_ & Hn & _).
  assert (Hv : forall s, In s L -> lo <= periodic_value dom data (zadd (pos_of dom i) s) <= hi).
  { intros s Hs. apply HL in Hs. destruct Hs as [Ls _]. assert (Lp : length (pos_of dom i) = length dom) by (symmetry; exact (ListAux.Forall2_length _ _ _ Bp)).
    destruct (periodic_value_node dom data (zadd (pos_of dom i) s) V Hl) as (n & Hn' & -> & _); [rewrite zadd_length; lia|].
    rewrite Forall_forall in HF. apply HF, nth_In, Hn'. }
  assert (U : lsum (fun s => k_value k s * periodic_value dom data (zadd (pos_of dom i) s)) L <= lsum (k_value k) L * hi).
  { rewrite <- lsum_mul_r. apply lsum_le. intros s Hs. specialize (Hv s Hs). specialize (Hn s). nra. }
  assert (B : lsum (k_value k) L * lo <= lsum (fun s => k_value k s * periodic_value dom data (zadd (pos_of dom i) s)) L).
  { rewrite <- lsum_mul_r. apply lsum_le. intros s Hs. specialize (Hv s Hs). specialize (Hn s). nra. }
  rewrite <- Ei. split.
  - apply Rmult_le_reg_r with (lsum (k_value k) L); [exact PL|]. unfold Rdiv. rewrite Rmult_assoc, Rinv_l, Rmult_1_r by lra. lra.
  - apply Rmult_le_reg_r with (lsum (k_value k) L); [exact PL|]. unfold Rdiv. rewrite Rmult_assoc, Rinv_l, Rmult_1_r by lra. lra.
Qed.

Theorem blur_constant k data dom c : valid_domain dom -> averaging k (length dom) -> Z.of_nat (length data) = num_nodes dom ->
  Forall (fun x => x = c) data -> blur k data dom = Some data.
Proof.
  intros V A Hl HF. destruct (blur_bounds k data dom c c V A Hl) as (out & E & Lo & HF').
  { apply Forall_impl with (2 := HF). intros a ->. lra. }
  rewrite E. f_equal. apply (nth_ext _ _ 0 0 Lo). intros i Hi. rewrite Forall_forall in HF, HF'.
  rewrite (HF (nth i data 0)) by (apply nth_In; lia). specialize (HF' (nth i out 0) (nth_In _ _ Hi)). lra.
Qed.

(** Every offset permutes the nodes. *)
Definition moved (dom s : list Z) (i : nat) : nat :=
  match node_idx dom (mod_list (zadd (pos_of dom i) s) dom) with Some n => Z.to_nat n | None => 0%nat end.
Lemma mod_add_inj dom : forall p q s, Forall (fun d => (0 < d)%Z) dom -> in_box dom p -> in_box dom q -> length s = length dom ->
  mod_list (zadd p s) dom = mod_list (zadd q s) dom -> p = q.
Proof.
  induction dom as [|d dom IH]; intros p q s Hd Hp Hq Ls E; inversion Hp as [|? x ? p' Hx Hp']; inversion Hq as [|? y ? q' Hy Hq']; subst; [reflexivity|].
  destruct s as [|t s]; [discriminate|]. inversion Hd as [|? ? P Hd']; subst. unfold mod_list in E. cbn [zadd combine map fst snd] in E. injection E as E1 E2.
  f_equal.
  - assert (X : ((x - y) mod d = 0)%Z).
    { replace (x - y)%Z with ((x + t) - (y + t))%Z by ring. rewrite Zminus_mod, E1, Z.sub_diag. apply Z.mod_0_l. lia. }
    apply Z.mod_divide in X; [|lia]. destruct X as [m Hm]. assert (m = 0)%Z by nia. nia.
  - apply (IH p' q' s Hd' Hp' Hq'); [cbn in Ls; lia|exact E2].
Qed.
Lemma moved_perm dom s N : valid_domain dom -> length s = length dom -> Z.of_nat N = num_nodes dom ->
  Permutation (map (moved dom s) (seq 0 N)) (seq 0 N).
Proof.
  intros V Ls HN.
  assert (M : forall i, (i < N)%nat -> node_idx dom (mod_list (zadd (pos_of dom i) s) dom) = Some (Z.of_nat (moved dom s i)) /\ (moved dom s i < N)%nat).
  { intros i Hi. destruct (pos_of_spec dom i V ltac:(lia)) as (_ & B & _). assert (Lp : length (pos_of dom i) = length dom) by (symmetry; exact (ListAux.Forall2_length _ _ _ B)).
    destruct (wrap_mod_list (zadd (pos_of dom i) s) dom (proj2 V)) as [_ B']; [rewrite zadd_length; lia|].
    destruct (node_idx_defined dom _ V B') as [n En]. destruct (pos_node_idx dom _ n V B' En) as [Hn _]. unfold moved. rewrite En, Z2Nat.id by lia. split; [reflexivity|lia]. }
  assert (ND : NoDup (map (moved dom s) (seq 0 N))).
  { apply NoDup_nth with (d := 0%nat). rewrite map_length, seq_length. intros i j Hi Hj E.
    rewrite !(nth_indep _ 0%nat (moved dom s 0%nat)) in E by (rewrite map_length, seq_length; assumption).
    rewrite !map_nth, !seq_nth in E by assumption. cbn [Nat.add] in E.
    destruct (M i Hi) as [Mi _]. destruct (M j Hj) as [Mj _]. rewrite E in Mi.
    destruct (pos_of_spec dom i V ltac:(lia)) as (_ & Bi & Ni). destruct (pos_of_spec dom j V ltac:(lia)) as (_ & Bj & Nj).
    assert (Li : length (pos_of dom i) = length dom) by (symmetry; exact (ListAux.Forall2_length _ _ _ Bi)).
    assert (Lj : length (pos_of dom j) = length dom) by (symmetry; exact (ListAux.Forall2_length _ _ _ Bj)).
    destruct (wrap_mod_list (zadd (pos_of dom i) s) dom (proj2 V)) as [_ Bi']; [rewrite zadd_length; lia|].
    destruct (wrap_mod_list (zadd (pos_of dom j) s) dom (proj2 V)) as [_ Bj']; [rewrite zadd_length; lia|].
    destruct (pos_node_idx dom _ _ V Bi' Mi) as [_ Qi]. destruct (pos_node_idx dom _ _ V Bj' Mj) as [_ Qj]. rewrite Qi in Qj. injection Qj as Q.
    apply (mod_add_inj dom _ _ s (proj2 V) Bi Bj Ls) in Q. rewrite Q in Ni. rewrite Ni in Nj. injection Nj. lia. }
  apply NoDup_Permutation_bis; [exact ND| |].
  - rewrite map_length. reflexivity.
  - intros x Hx. apply in_map_iff in Hx. destruct Hx as (i & <- & Hi). apply in_seq in Hi. apply in_seq. destruct (M i ltac:(lia)). lia.
Qed.
Lemma lsum_list (l : list R) : lsum (fun x => x) l = lsum (fun i => nth i l 0) (seq 0 (length l)).
Proof.
  induction l as [|x l IH]; [reflexivity|]. cbn [lsum length seq nth]. rewrite IH, <- seq_shift, lsum_map. reflexivity.
Qed.

Theorem blur_sum_conserved k data dom : valid_domain dom -> averaging k (length dom) -> Z.of_nat (length data) = num_nodes dom ->
  exists out, blur k data dom = Some out /\ lsum (fun x => x) out = lsum (fun x => x) data.
Proof.
  intros V A Hl. destruct (blur_formula k dom V (proj1 A)) as (L & HL & H). destruct (H data Hl) as (out & E & Lo & N).
  exists out. split; [exact E|]. rewrite !lsum_list, Lo. pose proof (averaging_pos k _ L A HL) as PL.
  rewrite (lsum_ext _ (fun i => lsum (fun s => k_value k s * nth (moved dom s i) data 0) L * / lsum (k_value k) L)).
  - rewrite lsum_mul_r, lsum_swap.
    rewrite (lsum_ext _ (fun s => k_value k s * lsum (fun i => nth i data 0) (seq 0 (length data)))).
    + rewrite lsum_mul_r. field. lra.
    + intros s Hs. apply HL in Hs. destruct Hs as [Ls _]. rewrite lsum_mul_l. f_equal.
      rewrite <- (lsum_perm (fun i => nth i data 0) _ _ (moved_perm dom s (length data) V Ls Hl)). rewrite lsum_map. reflexivity.
  - intros i Hi. apply in_seq in Hi. destruct (pos_of_spec dom i V ltac:(lia)) as (Ep & Bp & _). rewrite (N i _ ltac:(lia) Ep). unfold Rdiv. f_equal.
    apply lsum_ext. intros s Hs. apply HL in Hs. destruct Hs as [Ls _]. f_equal.
    assert (Lp : length (pos_of dom i) = length dom) by (symmetry; exact (ListAux.Forall2_length _ _ _ Bp)).
    unfold periodic_value, moved. destruct (node_idx dom (mod_list (zadd (pos_of dom i) s) dom)) eqn:En; [reflexivity|].
    destruct (periodic_value_node dom data (zadd (pos_of dom i) s) V Hl) as (n & _ & _ & En'); [rewrite zadd_length; lia|]. congruence.
Qed.

Theorem blur_linear k dom a b x y : valid_domain dom -> (0 <= k_cutoff k)%Z -> Z.of_nat (length x) = num_nodes dom -> length y = length x ->
  exists ox oy, blur k x dom = Some ox /\ blur k y dom = Some oy /\
  blur k (map (fun t => a * fst t + b * snd t) (combine x y)) dom = Some (map (fun t => a * fst t + b * snd t) (combine ox oy)).
Proof.
  intros V Hc Hx Hy. destruct (blur_formula k dom V Hc) as (L & HL & H).
  destruct (H x Hx) as (ox & Ex & Lx & Nx). destruct (H y ltac:(lia)) as (oy & Ey & Ly & Ny).
  set (f := fun t : R * R => a * fst t + b * snd t). assert (Lz : length (map f (combine x y)) = length x) by (rewrite map_length, combine_length; lia).
  destruct (H (map f (combine x y)) ltac:(lia)) as (oz & Ez & Lz' & Nz).
  exists ox, oy. split; [exact Ex|]. split; [exact Ey|]. rewrite Ez. f_equal.
  assert (Nf : forall u v i, length u = length v -> (i < length u)%nat -> nth i (map f (combine u v)) 0 = a * nth i u 0 + b * nth i v 0).
  { intros u v i Huv Hi. rewrite (nth_indep _ 0 (f (0, 0))) by (rewrite map_length, combine_length; lia). rewrite map_nth, combine_nth by exact Huv. reflexivity. }
  apply (nth_ext _ _ 0 0); [rewrite map_length, combine_length; lia|]. intros i Hi.
  destruct (pos_of_spec dom i V ltac:(lia)) as (Ep & Bp & _). rewrite (Nz i _ ltac:(lia) Ep), Nf by lia. rewrite (Nx i _ ltac:(lia) Ep), (Ny i _ ltac:(lia) Ep).
  unfold Rdiv. rewrite <- !Rmult_assoc, <- Rmult_plus_distr_r. f_equal. rewrite <- !lsum_mul_l, <- lsum_plus. apply lsum_ext. intros s Hs.
  apply HL in Hs. destruct Hs as [Ls _]. assert (Lp : length (pos_of dom i) = length dom) by (symmetry; exact (ListAux.Forall2_length _ _ _ Bp)).
  destruct (periodic_value_node dom x (zadd (pos_of dom i) s) V Hx) as (n & Hn & _ & En); [rewrite zadd_length; lia|].
  unfold periodic_value. rewrite En, Nat2Z.id, Nf by lia. ring.
Qed.

(** ** The box kernel *)
Lemma box_value_inside w s : (1 <= w)%Z -> Forall (fun x => (- (Z.quot w 2 + 1) <= x <= Z.quot w 2 + 1)%Z) s -> box_value w s = 1.
Proof.
  intros Hw HF. unfold box_value. rewrite (proj2 (forallb_forall _ _)); [reflexivity|]. intros x Hx. rewrite Forall_forall in HF. specialize (HF x Hx).
  assert (Q : (Z.quot w 2 + 1 <= w)%Z) by (rewrite Z.quot_div_nonneg by lia; pose proof (Z.div_mod w 2 ltac:(lia)); pose proof (Z.mod_pos_bound w 2 ltac:(lia)); lia).
  destruct (Z.ltb_spec w x); [lia|]. destruct (Z.ltb_spec x (- w)); [lia|]. reflexivity.
Qed.
Lemma box_kernel_averaging w dim : (0 <= w)%Z -> averaging (box_kernel w) dim.
Proof.
  intros Hw. assert (Q : (0 <= Z.quot w 2)%Z) by (apply Z.quot_pos; lia). split; [|split].
  - cbn. lia.
  - intros s. cbn. unfold box_value. destruct (forallb _ s); lra.
  - exists (repeat 0%Z dim). split; [apply repeat_length|]. split.
    + apply Forall_forall. intros x Hx. apply repeat_spec in Hx. subst. cbn [box_kernel k_cutoff]. lia.
    + cbn [box_kernel k_value]. unfold box_value. rewrite (proj2 (forallb_forall _ _)); [lra|]. intros x Hx. apply repeat_spec in Hx. subst.
      destruct (Z.ltb_spec w 0); [lia|]. destruct (Z.ltb_spec 0 (- w)); [lia|]. reflexivity.
Qed.
(** The mean over the cube with 2(w/2+1)+1 nodes along every axis. *)
Theorem box_blur_mean w dom : valid_domain dom -> (1 <= w)%Z ->
  exists L, all_offsets (Z.quot w 2 + 1) (length dom) L /\
  forall data, Z.of_nat (length data) = num_nodes dom ->
  exists out, blur (box_kernel w) data dom = Some out /\
  forall i p, (i < length data)%nat -> IndexModel.pos dom (Z.of_nat i) = Some p ->
  nth i out 0 = lsum (fun s => periodic_value dom data (zadd p s)) L / INR (length L).
Proof.
  intros V Hw. assert (Q : (0 <= Z.quot w 2)%Z) by (apply Z.quot_pos; lia).
  destruct (blur_formula (box_kernel w) dom V ltac:(cbn; lia)) as (L & HL & H). exists L. split; [exact HL|].
  assert (One : forall s, In s L -> k_value (box_kernel w) s = 1).
  { intros s Hs. apply HL in Hs. destruct Hs as [_ Fs]. apply box_value_inside; [exact Hw|exact Fs]. }
  intros data Hl. destruct (H data Hl) as (out & E & Lo & N). exists out. split; [exact E|]. intros i p Hi Hp. rewrite (N i p Hi Hp). f_equal.
  - apply lsum_ext. intros s Hs. rewrite (One s Hs). ring.
  - transitivity (lsum (fun _ : list Z => 1) L); [apply lsum_ext; exact One|]. clear. induction L as [|x L IH]; [reflexivity|]. cbn [lsum length]. rewrite IH, S_INR. ring.
Qed.
