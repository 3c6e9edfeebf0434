(** Proofs about the mode expansion solver: sums, products of powers, keys. *)
From Verif Require Import ModeModel ModeSpec MillerProofs ProductProofs GridProofs2 FileProofs IndexSpec.
From Coq Require Import Lra Lia.
Open Scope R_scope.

(** ** Loops *)
Lemma fold_sum {A} (f : A -> R) l s : fold_left (fun s x => s + f x) l s = s + lsum f l.
Proof. revert s. induction l as [|x l IH]; intros s; cbn [fold_left lsum]; [lra|]. rewrite IH. lra. Qed.
Lemma sum_loop_lsum {A} (f : A -> R) l : sum_loop f l = lsum f l.
Proof. unfold sum_loop. rewrite fold_sum. lra. Qed.
Fixpoint lprod {A} (f : A -> R) (l : list A) : R := match l with [] => 1 | x :: l' => f x * lprod f l' end.
Lemma fold_prod {A} (f : A -> R) l s : fold_left (fun s x => s * f x) l s = s * lprod f l.
Proof. revert s. induction l as [|x l IH]; intros s; cbn [fold_left lprod]; [lra|]. rewrite IH. lra. Qed.
Lemma prod_loop_lprod {A} (f : A -> R) l : prod_loop f l = lprod f l.
Proof. unfold prod_loop. rewrite fold_prod. lra. Qed.
Lemma lprod_ext {A} (f g : A -> R) l : (forall x, In x l -> f x = g x) -> lprod f l = lprod g l.
Proof. induction l as [|x l IH]; intros H; cbn [lprod]; [reflexivity|]. rewrite H by (left; reflexivity). rewrite IH; [reflexivity|]. intros y Hy. apply H. right. exact Hy. Qed.
Lemma lsum_app {A} (f : A -> R) l m : lsum f (l ++ m) = lsum f l + lsum f m.
Proof. induction l as [|x l IH]; cbn [app lsum]; [lra|]. rewrite IH. lra. Qed.
Lemma lsum_flat_map {A B} (f : B -> R) (g : A -> list B) l : lsum f (flat_map g l) = lsum (fun x => lsum f (g x)) l.
Proof. induction l as [|x l IH]; cbn [flat_map lsum]; [reflexivity|]. rewrite lsum_app, IH. reflexivity. Qed.
Lemma lsum_abs {A} (f : A -> R) l : Rabs (lsum f l) <= lsum (fun x => Rabs (f x)) l.
Proof. induction l as [|x l IH]; cbn [lsum]; [rewrite Rabs_R0; lra|]. eapply Rle_trans; [apply Rabs_triang|]. lra. Qed.
Lemma rsum_lsum n f : rsum n f = lsum f (seq 0 n).
Proof. induction n as [|n IH]; [reflexivity|]. rewrite seq_S, lsum_app. cbn [rsum lsum]. rewrite IH, Nat.add_0_l. lra. Qed.
Lemma lprod_map {A B} (f : B -> R) (g : A -> B) l : lprod f (map g l) = lprod (fun x => f (g x)) l.
Proof. induction l as [|x l IH]; cbn [map lprod]; [reflexivity|]. rewrite IH. reflexivity. Qed.
Lemma fold_right_lprod {A} (f : A -> R) l : fold_right Rmult 1 (map f l) = lprod f l.
Proof. induction l as [|x l IH]; cbn [map fold_right lprod]; [reflexivity|]. rewrite IH. reflexivity. Qed.

(** ** The density of a mode *)
Lemma fold_skip {A} (c : A -> bool) (f : A -> R) l s :
  fold_left (fun s x => if c x then s else s + f x) l s = s + lsum f (filter (fun x => negb (c x)) l).
Proof.
  revert s. induction l as [|x l IH]; intros s; cbn [fold_left filter lsum]; [lra|].
  destruct (c x); cbn [negb]; rewrite IH; [reflexivity|]. cbn [lsum]. lra.
Qed.
Definition hkl_pos (e : miller) (pos : list R) : R :=
  let '(h, k, l) := e in
  let arg := IZR h * nth 0 pos 0 + IZR k * nth 1 pos 0 in
  if Nat.eqb (length pos) 3 then arg + IZR l * nth 2 pos 0 else arg.
Lemma mode_density_filter m pos :
  mode_density m pos = lsum (fun e => cos (2 * PI * hkl_pos e pos))
    (filter (fun e => negb (Nat.eqb (length pos) 2 && negb (snd e =? 0)%Z)) (equivalent_miller m)).
Proof.
  unfold mode_density. rewrite <- (Rplus_0_l (lsum _ _)), <- fold_skip.
  assert (G : forall l s, fold_left (fun density (e : miller) =>
    let '(h, k, l) := e in
    if (Nat.eqb (length pos) 2 && negb (l =? 0)%Z)%bool then density
    else
      let arg := IZR h * nth 0 pos 0 + IZR k * nth 1 pos 0 in
      let arg := if Nat.eqb (length pos) 3 then arg + IZR l * nth 2 pos 0 else arg in
      density + cos (2 * PI * arg)) l s =
    fold_left (fun s x => if (Nat.eqb (length pos) 2 && negb (snd x =? 0)%Z)%bool then s else s + cos (2 * PI * hkl_pos x pos)) l s).
  { intros l. induction l as [|[[h k] l'] l IH]; intros s; [reflexivity|]. cbn [fold_left]. rewrite <- IH. reflexivity. }
  apply G.
Qed.
Lemma hkl_pos_dot e pos : length pos = 2%nat \/ length pos = 3%nat -> hkl_pos e pos = hkl_dot e pos.
Proof.
  destruct e as [[h k] l]. unfold hkl_pos, hkl_dot. intros [H|H]; rewrite H; cbn [Nat.eqb rsum nth fst snd]; ring.
Qed.
Theorem mode_density_spec m pos L : length pos = 2%nat \/ length pos = 3%nat -> family (length pos) m L ->
  mode_density m pos = lsum (fun e => cos (2 * PI * hkl_dot e pos)) L.
Proof.
  intros Hd [HN HL]. rewrite mode_density_filter. destruct (equivalent_miller_spec m) as [EN EI].
  rewrite (lsum_perm _ _ L).
  - apply lsum_ext. intros e _. rewrite hkl_pos_dot by exact Hd. reflexivity.
  - apply NoDup_Permutation; [apply NoDup_filter; exact EN|exact HN|]. intros e. rewrite filter_In, HL, EI.
    rewrite negb_true_iff, andb_false_iff, negb_false_iff, Nat.eqb_neq, Z.eqb_eq. split; intros [A B]; (split; [exact A|]).
    + intros H. destruct B as [B|B]; [congruence|exact B].
    + destruct Hd as [H|H]; [right; apply B; exact H|left; lia].
Qed.

(** ** Products of powers *)
Fixpoint mono (xs : list R) (ps : list nat) : R :=
  match xs, ps with x :: xs', p :: ps' => x ^ p * mono xs' ps' | _, _ => 1 end.
Lemma mono_lprod xs : forall ps, mono xs ps = lprod (fun j => nth j xs 0 ^ nth j ps 0%nat) (seq 0 (length xs)).
Proof.
  induction xs as [|x xs IH]; intros ps; [destruct ps; reflexivity|]. cbn [length seq lprod]. rewrite <- seq_shift, lprod_map. destruct ps as [|p ps].
  - cbn [mono nth pow].
    assert (E : forall l : list nat, lprod (fun _ => 1) l = 1) by (induction l as [|a l IHl]; cbn [lprod]; [|rewrite IHl]; lra).
    rewrite E. lra.
  - cbn [mono nth]. rewrite IH. reflexivity.
Qed.
Lemma amp_prod_mono amp ps : amp_prod amp ps = mono amp ps.
Proof. unfold amp_prod. rewrite prod_loop_lprod, mono_lprod. reflexivity. Qed.
Lemma mono_zero n xs : mono xs (repeat 0%nat n) = 1.
Proof. revert n. induction xs as [|x xs IH]; intros [|n]; cbn [repeat mono pow]; try reflexivity. rewrite IH. lra. Qed.
Lemma mono_increment i : forall xs ps, (i < length xs)%nat -> length ps = length xs -> mono xs (increment i ps) = nth i xs 0 * mono xs ps.
Proof.
  induction i as [|i IH]; intros [|x xs] [|p ps] Hi Hl; cbn [length] in *; try lia; cbn [increment mono nth pow]; [lra|].
  rewrite IH by lia. lra.
Qed.
Lemma increment_length i : forall ps, length (increment i ps) = length ps.
Proof. induction i as [|i IH]; intros [|p ps]; cbn [increment length]; try reflexivity. rewrite IH. reflexivity. Qed.
Lemma powers_fold_length idx : forall ps, length (fold_left (fun ps j => increment (Z.to_nat j) ps) idx ps) = length ps.
Proof. induction idx as [|j idx IH]; intros ps; cbn [fold_left]; [reflexivity|]. rewrite IH, increment_length. reflexivity. Qed.
Lemma powers_of_length n idx : length (powers_of n idx) = n.
Proof. unfold powers_of. rewrite powers_fold_length, repeat_length. reflexivity. Qed.
Lemma mono_powers xs idx : Forall (fun j => (0 <= j < Z.of_nat (length xs))%Z) idx ->
  mono xs (powers_of (length xs) idx) = lprod (fun j => nth (Z.to_nat j) xs 0) idx.
Proof.
  intros H. unfold powers_of.
  assert (G : forall ps, length ps = length xs ->
    mono xs (fold_left (fun ps j => increment (Z.to_nat j) ps) idx ps) = lprod (fun j => nth (Z.to_nat j) xs 0) idx * mono xs ps).
  { induction H as [|j idx Hj H IH]; intros ps Hl; cbn [fold_left lprod]; [lra|].
    rewrite IH by (rewrite increment_length; exact Hl). rewrite mono_increment by (try exact Hl; lia). lra. }
  rewrite G by apply repeat_length. rewrite mono_zero. lra.
Qed.
Lemma mono_mult xs : forall ys ps, length ys = length xs -> mono xs ps * mono ys ps = mono (map (fun xy => fst xy * snd xy) (combine xs ys)) ps.
Proof.
  induction xs as [|x xs IH]; intros [|y ys] ps Hl; cbn [length] in *; try lia; destruct ps as [|p ps]; cbn [combine map mono]; try lra.
  rewrite <- IH by lia. cbn [fst snd]. rewrite Rpow_mult_distr. ring.
Qed.
Lemma mono_abs xs : forall ps, Rabs (mono xs ps) = mono (map Rabs xs) ps.
Proof.
  induction xs as [|x xs IH]; intros [|p ps]; cbn [map mono]; try apply Rabs_R1.
  rewrite Rabs_mult, <- RPow_abs, IH. reflexivity.
Qed.
Definition nsum (l : list nat) : nat := fold_right Nat.add 0%nat l.
Lemma increment_sum i : forall ps, (i < length ps)%nat -> nsum (increment i ps) = S (nsum ps).
Proof. induction i as [|i IH]; intros [|p ps] H; cbn [length] in *; try lia; cbn [increment nsum fold_right]; [unfold nsum; cbn; lia|].
  fold (nsum (increment i ps)). rewrite IH by lia. unfold nsum. cbn. lia. Qed.
Lemma nsum_zero n : nsum (repeat 0%nat n) = 0%nat.
Proof. unfold nsum. induction n as [|n IH]; cbn [repeat fold_right]; [reflexivity|]. rewrite IH. reflexivity. Qed.
Lemma powers_of_sum n idx : Forall (fun j => (0 <= j < Z.of_nat n)%Z) idx -> nsum (powers_of n idx) = length idx.
Proof.
  intros H. unfold powers_of.
  assert (G : forall ps, length ps = n -> nsum (fold_left (fun ps j => increment (Z.to_nat j) ps) idx ps) = (length idx + nsum ps)%nat).
  { induction H as [|j idx Hj H IH]; intros ps Hl; cbn [fold_left length]; [lia|].
    rewrite IH by (rewrite increment_length; exact Hl). rewrite increment_sum by lia. lia. }
  rewrite G by apply repeat_length. rewrite nsum_zero. lia.
Qed.

(** ** The sum over all combinations is a power of the sum *)
Lemma lsum_zseq_nth (xs : list R) : lsum (fun i => nth (Z.to_nat i) xs 0) (zseq 0 (length xs)) = lsum (fun x => x) xs.
Proof.
  unfold zseq. rewrite lsum_map. rewrite (lsum_list xs). apply lsum_ext. intros i _. rewrite Z.add_0_l, Nat2Z.id. reflexivity.
Qed.
Lemma box_power (xs : list R) k :
  lsum (lprod (fun j => nth (Z.to_nat j) xs 0)) (box (repeat (Z.of_nat (length xs)) k)) = lsum (fun x => x) xs ^ k.
Proof.
  induction k as [|k IH]; cbn [repeat box pow]; [cbn [lsum lprod]; lra|].
  rewrite lsum_flat_map. rewrite Nat2Z.id.
  rewrite (lsum_ext _ (fun i => nth (Z.to_nat i) xs 0 * lsum (fun x => x) xs ^ k)).
  - rewrite lsum_mul_r, lsum_zseq_nth. reflexivity.
  - intros i _. rewrite lsum_map. cbn [lprod]. rewrite lsum_mul_l, IH. reflexivity.
Qed.

Lemma visited_calls l : forall p fuel, (length l < fuel)%nat -> calls (S (length l)) p = Some (map Some l ++ [None]) -> visited fuel p = Some l.
Proof.
  induction l as [|x l IH]; intros p fuel Hf Hc; (destruct fuel as [|fuel]; [cbn [length] in Hf; lia|]); cbn [visited calls length map app] in *.
  - destruct (next p) as [[o p']|]; [|discriminate]. injection Hc as ->. reflexivity.
  - destruct (next p) as [[o p']|] eqn:E; [|discriminate].
    destruct (next p') as [[o' p'']|] eqn:E'; [|discriminate].
    destruct (calls (length l) p'') as [os|] eqn:E''; [|discriminate].
    injection Hc as -> Ho. rewrite (IH p' fuel); [reflexivity|lia|]. cbn [calls]. rewrite E', E''. rewrite Ho. reflexivity.
Qed.
Lemma num_nodes_repeat n k : num_nodes (repeat (Z.of_nat n) k) = Z.of_nat (n ^ k).
Proof. induction k as [|k IH]; [reflexivity|]. cbn [repeat]. unfold num_nodes in *. cbn [fold_right]. rewrite IH. cbn [Nat.pow]. lia. Qed.
Lemma combinations n k : (0 < n)%nat -> (0 < k)%nat -> exists L,
  visited (S (n ^ k)) (new_product (repeat (Z.of_nat n) k)) = Some L /\ Permutation L (box (repeat (Z.of_nat n) k))
  /\ Forall (fun idx => Forall (fun j => (0 <= j < Z.of_nat n)%Z) idx /\ length idx = k) L.
Proof.
  intros Hn Hk. set (e := repeat (Z.of_nat n) k).
  assert (He : e <> []) by (unfold e; destruct k; [lia|discriminate]).
  assert (Hp : Forall (fun d => (0 < d)%Z) e) by (unfold e; apply Forall_forall; intros d Hd; apply repeat_spec in Hd; lia).
  destruct (product_enumerates e He Hp) as (L & HC & HS & HI & HL). exists L.
  assert (HB : forall idx, In idx L -> Forall (fun j => (0 <= j < Z.of_nat n)%Z) idx /\ length idx = k).
  { intros idx Hin. apply HI in Hin. unfold in_box, e in Hin. clear - Hin. revert idx Hin. induction k as [|k IH]; intros idx H; cbn [repeat] in H.
    - inversion H. split; [constructor|reflexivity].
    - inversion H as [|a b c d Hb Hd]; subst. destruct (IH _ Hd) as [A B]. split; [constructor; assumption|cbn [length]; lia]. }
  split; [|split].
  - apply visited_calls; [|exact HC]. unfold e in HL. rewrite num_nodes_repeat in HL. lia.
  - apply NoDup_Permutation; [apply lex_sorted_NoDup; exact HS|apply lex_sorted_NoDup, box_sorted|]. intros x. rewrite HI, box_In. reflexivity.
  - apply Forall_forall. exact HB.
Qed.

(** ** Keys *)
Lemma digits_split a b r s : forallb digit_c a = true -> forallb digit_c b = true ->
  (match r with [] => True | c :: _ => digit_c c = false end) -> (match s with [] => True | c :: _ => digit_c c = false end) ->
  a ++ r = b ++ s -> a = b /\ r = s.
Proof.
  revert b. induction a as [|x a IH]; intros [|y b] Ha Hb Hr Hs E; cbn [app] in E.
  - auto.
  - subst r. cbn [forallb] in Hb. apply andb_true_iff in Hb. destruct Hb as [Hb _]. congruence.
  - subst s. cbn [forallb] in Ha. apply andb_true_iff in Ha. destruct Ha as [Ha _]. congruence.
  - injection E as -> E. cbn [forallb] in Ha, Hb. apply andb_true_iff in Ha, Hb. destruct (IH b) as [-> ->]; tauto.
Qed.
Lemma dec_of_nat i : dec (Z.of_nat i) = dec_nat (Z.of_nat i).
Proof. unfold dec. destruct (Z.ltb_spec (Z.of_nat i) 0); [lia|reflexivity]. Qed.
Lemma key_shape i ps : key_from i ps = [] \/ exists j r, (i <= j)%nat /\ key_from i ps = lit "m" ++ dec_nat (Z.of_nat j) ++ lit "p" ++ r.
Proof.
  revert i. induction ps as [|p ps IH]; intros i; cbn [key_from]; [left; reflexivity|]. destruct (Nat.eqb_spec p 0).
  - cbn [app]. destruct (IH (S i)) as [E|(j & r & Hj & E)]; [left; exact E|right]. exists j, r. split; [lia|exact E].
  - right. exists i, (dec_nat (Z.of_nat p) ++ key_from (S i) ps). split; [lia|]. rewrite !dec_of_nat, <- !app_assoc. reflexivity.
Qed.
Lemma key_tail i ps : match key_from i ps with [] => True | c :: _ => digit_c c = false end.
Proof. destruct (key_shape i ps) as [->|(j & r & _ & ->)]; [exact I|reflexivity]. Qed.
Lemma m_p_split i j r s : lit "m" ++ dec_nat (Z.of_nat i) ++ lit "p" ++ r = lit "m" ++ dec_nat (Z.of_nat j) ++ lit "p" ++ s -> i = j /\ r = s.
Proof.
  intros E. apply app_inv_head in E. apply digits_split in E; [|apply dec_nat_spec; lia|apply dec_nat_spec; lia|reflexivity|reflexivity].
  destruct E as [A B]. apply dec_nat_inj in A; [|lia|lia]. apply app_inv_head in B. split; [lia|exact B].
Qed.
Lemma key_inj ps : forall i ps', length ps = length ps' -> key_from i ps = key_from i ps' -> ps = ps'.
Proof.
  induction ps as [|p ps IH]; intros i [|p' ps'] Hl E; cbn [length] in Hl; try lia; [reflexivity|].
  cbn [key_from] in E. destruct (Nat.eqb_spec p 0) as [->|Hp]; destruct (Nat.eqb_spec p' 0) as [->|Hp']; cbn [app] in E.
  - f_equal. apply (IH (S i)); [lia|exact E].
  - exfalso. rewrite !dec_of_nat, <- !app_assoc in E. destruct (key_shape (S i) ps) as [Q|(j & r & Hj & Q)]; rewrite Q in E; [discriminate|].
    apply m_p_split in E. lia.
  - exfalso. rewrite !dec_of_nat, <- !app_assoc in E. destruct (key_shape (S i) ps') as [Q|(j & r & Hj & Q)]; rewrite Q in E; [discriminate|].
    apply m_p_split in E. lia.
  - rewrite !dec_of_nat, <- !app_assoc in E. apply m_p_split in E. destruct E as [_ E].
    apply digits_split in E; [|apply dec_nat_spec; lia|apply dec_nat_spec; lia|apply key_tail|apply key_tail].
    destruct E as [A B]. apply dec_nat_inj in A; [|lia|lia]. f_equal; [lia|]. apply (IH (S i)); [lia|exact B].
Qed.
Theorem power2key_inj ps ps' : length ps = length ps' -> power2key ps = power2key ps' -> ps = ps'.
Proof. apply key_inj. Qed.
