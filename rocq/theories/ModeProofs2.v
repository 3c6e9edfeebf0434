(** Proofs about the mode expansion solver: the terms and the energy. *)
From Verif Require Import ModeModel ModeSpec ModeProofs MillerProofs ProductProofs GridProofs2 IndexSpec ParseProofs.
From Coq Require Import Lra Lia.
Open Scope R_scope.

Lemma str_eqb_true a b : str_eqb a b = true <-> a = b.
Proof. apply str_eqb_eq. Qed.

(** ** Quadrature *)
Definition cells (dim : nat) (q : rule) : list (R * list R) :=
  if Nat.eqb dim 2 then flat_map (fun x => map (fun y => (snd x * snd y, [fst x; fst y])) q) q
  else flat_map (fun x => flat_map (fun y => map (fun z => (snd x * snd y * snd z, [fst x; fst y; fst z])) q) q) q.
Definition avg (dim : nat) (q : rule) (f : list R -> R) : R := lsum (fun c : R * list R => fst c * f (snd c)) (cells dim q).
Lemma rule_average_avg dim q f : rule_average dim q f = avg dim q f.
Proof.
  unfold rule_average, avg, cells. destruct (Nat.eqb dim 2); rewrite lsum_flat_map; apply lsum_ext; intros x _.
  - rewrite lsum_map. reflexivity.
  - rewrite lsum_flat_map. apply lsum_ext. intros y _. rewrite lsum_map. reflexivity.
Qed.
Lemma fold_fold_sum {A B} (f : A -> B -> R) l m s : fold_left (fun i x => fold_left (fun i y => i + f x y) m i) l s = s + lsum (fun x => lsum (f x) m) l.
Proof. revert s. induction l as [|x l IH]; intros s; cbn [fold_left lsum]; [lra|]. rewrite IH, fold_sum. lra. Qed.
Lemma quad_square_spec q f : quad_square q f = rule_average 2 q (fun p => f (nth 0 p 0) (nth 1 p 0)).
Proof. unfold quad_square, rule_average. rewrite fold_fold_sum. cbn [Nat.eqb nth]. lra. Qed.
Lemma quad_cube_spec q f : quad_cube q f = rule_average 3 q (fun p => f (nth 0 p 0) (nth 1 p 0) (nth 2 p 0)).
Proof.
  unfold quad_cube, rule_average. cbn [Nat.eqb nth].
  assert (G : forall l s, fold_left (fun i (x : R * R) => fold_left (fun i (y : R * R) => fold_left (fun i (z : R * R) =>
    i + snd x * snd y * snd z * f (fst x) (fst y) (fst z)) q i) q i) l s =
    s + lsum (fun x : R * R => lsum (fun y : R * R => lsum (fun z : R * R => snd x * snd y * snd z * f (fst x) (fst y) (fst z)) q) q) l).
  { induction l as [|x l IH]; intros s; cbn [fold_left lsum]; [lra|]. rewrite IH.
    rewrite (fold_fold_sum (fun y z => snd x * snd y * snd z * f (fst x) (fst y) (fst z))). lra. }
  rewrite G. lra.
Qed.
Lemma rule_ext dim q f g : (forall x, f x = g x) -> rule_average dim q f = rule_average dim q g.
Proof. intros H. rewrite !rule_average_avg. unfold avg. apply lsum_ext. intros c _. rewrite H. reflexivity. Qed.
Lemma rule_cell_average dim q modes : cell_average modes (rule_average dim q).
Proof.
  split; [apply rule_ext|]. intros l. rewrite rule_average_avg. unfold avg.
  rewrite (lsum_ext _ (fun c : R * list R => lsum (fun a : R * list nat => fst c * (fst a * mode_product modes (snd a) (snd c))) l)) by (intros; rewrite lsum_mul_l; reflexivity).
  rewrite lsum_swap. apply lsum_ext. intros a _. rewrite rule_average_avg. unfold avg. rewrite <- lsum_mul_l. apply lsum_ext. intros; ring.
Qed.

(** ** The integrals *)
Definition densities (modes : list miller) (pos : list R) : list R := map (fun m => mode_density m pos) modes.
Lemma integrand_mono modes : forall powers pos, length powers = length modes -> integrand modes powers pos = mono (densities modes pos) powers.
Proof.
  unfold integrand, densities.
  assert (G : forall modes powers pos s, length powers = length modes ->
    fold_left (fun res (mp : miller * nat) => if Nat.eqb (snd mp) 0 then res else res * mode_density (fst mp) pos ^ snd mp) (combine modes powers) s
    = s * mono (map (fun m => mode_density m pos) modes) powers).
  { clear. induction modes as [|m modes IH]; intros [|p powers] pos s Hl; cbn [length] in Hl; try lia; cbn [combine fold_left map mono]; [lra|].
    rewrite IH by lia. cbn [fst snd]. destruct (Nat.eqb_spec p 0) as [->|_]; cbn [pow]; ring. }
  intros. rewrite G by assumption. lra.
Qed.
Lemma mode_product_mono modes powers pos : mode_product modes powers pos = mono (densities modes pos) powers.
Proof.
  unfold mode_product. rewrite fold_right_lprod, mono_lprod. unfold densities. rewrite map_length. apply lprod_ext. intros i Hi.
  apply in_seq in Hi. f_equal. erewrite nth_indep with (d' := mode_density (0, 0, 0)%Z pos) by (rewrite map_length; lia).
  rewrite (map_nth (fun m => mode_density m pos)). reflexivity.
Qed.
Definition integral (dim : nat) (q : rule) (modes : list miller) (powers : list nat) : R :=
  rule_average dim q (fun p => mono (densities modes p) powers).
Lemma unitcell_integral_spec dim q modes powers : dim = 2%nat \/ dim = 3%nat -> length powers = length modes ->
  unitcell_integral dim q modes powers = Some (integral dim q modes powers).
Proof.
  intros Hd Hl. unfold unitcell_integral, integral. rewrite (proj2 (Nat.eqb_eq _ _) Hl). cbn [negb].
  destruct Hd as [->| ->]; cbn [Nat.eqb]; f_equal.
  - rewrite quad_square_spec. unfold rule_average. cbn [Nat.eqb nth]. apply lsum_ext. intros x _. apply lsum_ext. intros y _.
    rewrite integrand_mono by exact Hl. reflexivity.
  - rewrite quad_cube_spec. unfold rule_average. cbn [Nat.eqb nth]. apply lsum_ext. intros x _. apply lsum_ext. intros y _. apply lsum_ext. intros z _.
    rewrite integrand_mono by exact Hl. reflexivity.
Qed.

(** ** Maps *)
Definition keys (m : terms) : list str := map fst m.
Lemma tget_None k m : tget k m = None <-> ~ In k (keys m).
Proof.
  induction m as [|[k' v] m IH]; cbn [tget keys map fst In]; [tauto|]. destruct (str_eqb k k') eqn:E.
  - apply str_eqb_true in E. subst k'. split; [discriminate|tauto].
  - rewrite IH. unfold keys. split; [|tauto]. intros H [->|Hin]; [|tauto]. rewrite (proj2 (str_eqb_true k k) eq_refl) in E. discriminate.
Qed.
Lemma tset_new k v m : tget k m = None -> tset k v m = m ++ [(k, v)].
Proof. induction m as [|[k' v'] m IH]; cbn [tget tset app]; [reflexivity|]. destruct (str_eqb k k'); [discriminate|]. intros H. rewrite IH by exact H. reflexivity. Qed.
Lemma tset_old k v m v0 : tget k m = Some v0 -> exists a b, m = a ++ (k, v0) :: b /\ tset k v m = a ++ (k, v) :: b.
Proof.
  induction m as [|[k' v'] m IH]; cbn [tget tset]; [discriminate|]. destruct (str_eqb k k') eqn:E.
  - intros [= ->]. apply str_eqb_true in E. subst k'. exists [], m. split; reflexivity.
  - intros H. destruct (IH H) as (a & b & -> & ->). exists ((k', v') :: a), b. split; reflexivity.
Qed.

(** An entry is stored under the key of its powers, with [n] powers of sum [k]. *)
Definition well_keyed (n k : nat) (m : terms) : Prop :=
  NoDup (keys m) /\ Forall (fun kv => fst kv = power2key (fst (snd kv)) /\ length (fst (snd kv)) = n /\ nsum (fst (snd kv)) = k) m.
Definition weigh (g : list nat -> R) (m : terms) : R := lsum (fun kv : str * fterm => g (fst (snd kv)) * snd (snd kv)) m.
Definition spread (g : list nat -> R) (m : terms) : R := lsum (fun kv : str * fterm => g (fst (snd kv))) m.

Lemma add_combination_step dim q modes ts idx k : dim = 2%nat \/ dim = 3%nat ->
  well_keyed (length modes) k ts -> Forall (fun j => (0 <= j < Z.of_nat (length modes))%Z) idx -> length idx = k ->
  let ps := powers_of (length modes) idx in
  exists ts', add_combination dim q modes (Some ts) idx = Some ts' /\ well_keyed (length modes) k ts'
    /\ (forall g, weigh g ts' = weigh g ts + g ps * integral dim q modes ps)
    /\ (forall g, (forall p, 0 <= g p) -> spread g ts' <= spread g ts + g ps).
Proof.
  intros Hd [HN HF] Hi Hk ps. cbn [add_combination]. fold ps. rewrite unitcell_integral_spec by (try exact Hd; apply powers_of_length).
  destruct (tget (power2key ps) ts) as [v0|] eqn:E.
  - destruct (tset_old _ (ps, snd v0 + integral dim q modes ps) _ _ E) as (a & b & -> & ->).
    apply Forall_app in HF. destruct HF as [Ha Hb]. inversion Hb as [|x l [K1 [K2 K3]] Hb']; subst x l. cbn [fst snd] in K1, K2, K3.
    assert (Ev : fst v0 = ps). { apply power2key_inj; [rewrite K2; unfold ps; rewrite powers_of_length; reflexivity|symmetry; exact K1]. }
    eexists. split; [reflexivity|]. split; [|split].
    + split.
      * unfold keys in *. rewrite map_app in *. cbn [map fst] in *. exact HN.
      * apply Forall_app. split; [exact Ha|]. constructor; [|exact Hb']. cbn [fst snd]. rewrite <- Ev. split; [rewrite Ev; reflexivity|]. split; assumption.
    + intros g. unfold weigh. rewrite !lsum_app. cbn [lsum fst snd]. rewrite Ev. lra.
    + intros g Hg. unfold spread. rewrite !lsum_app. cbn [lsum fst snd]. rewrite Ev. assert (H := Hg ps). lra.
  - rewrite tset_new by exact E. eexists. split; [reflexivity|]. split; [|split].
    + split.
      * unfold keys in *. rewrite map_app. cbn [map fst]. apply tget_None in E. apply NoDup_Add with (a := power2key ps) (l := map fst ts); [|split; assumption].
        assert (A := Add_app (power2key ps) (map fst ts) []). rewrite app_nil_r in A. exact A.
      * apply Forall_app. split; [exact HF|]. constructor; [|constructor]. cbn [fst snd]. split; [reflexivity|]. split; [apply powers_of_length|].
        unfold ps. rewrite powers_of_sum by exact Hi. exact Hk.
    + intros g. unfold weigh. rewrite lsum_app. cbn [lsum fst snd]. lra.
    + intros g Hg. unfold spread. rewrite lsum_app. cbn [lsum fst snd]. lra.
Qed.

Lemma add_combinations dim q modes k : dim = 2%nat \/ dim = 3%nat -> forall L ts,
  well_keyed (length modes) k ts -> Forall (fun idx => Forall (fun j => (0 <= j < Z.of_nat (length modes))%Z) idx /\ length idx = k) L ->
  exists ts', fold_left (add_combination dim q modes) L (Some ts) = Some ts' /\ well_keyed (length modes) k ts'
    /\ (forall g, weigh g ts' = weigh g ts + lsum (fun idx => g (powers_of (length modes) idx) * integral dim q modes (powers_of (length modes) idx)) L)
    /\ (forall g, (forall p, 0 <= g p) -> spread g ts' <= spread g ts + lsum (fun idx => g (powers_of (length modes) idx)) L).
Proof.
  intros Hd. induction L as [|idx L IH]; intros ts Hw HL.
  - exists ts. split; [reflexivity|]. split; [exact Hw|]. split; intros; cbn [lsum]; lra.
  - inversion HL as [|x l [H1 H2] HL']; subst x l. destruct (add_combination_step dim q modes ts idx k Hd Hw H1 H2) as (ts1 & E1 & W1 & G1 & S1).
    destruct (IH ts1 W1 HL') as (ts2 & E2 & W2 & G2 & S2). exists ts2. cbn [fold_left]. rewrite E1. split; [exact E2|]. split; [exact W2|]. split.
    + intros g. rewrite G2, G1. cbn [lsum]. lra.
    + intros g Hg. cbn [lsum]. specialize (S1 g Hg). specialize (S2 g Hg). lra.
Qed.

Lemma build_spec dim q modes k : dim = 2%nat \/ dim = 3%nat -> modes <> [] -> (0 < k)%nat ->
  exists ts, build_terms dim q modes k = Some ts /\ well_keyed (length modes) k ts
    /\ (forall g, weigh g ts = lsum (fun idx => g (powers_of (length modes) idx) * integral dim q modes (powers_of (length modes) idx)) (box (repeat (Z.of_nat (length modes)) k)))
    /\ (forall g, (forall p, 0 <= g p) -> spread g ts <= lsum (fun idx => g (powers_of (length modes) idx)) (box (repeat (Z.of_nat (length modes)) k))).
Proof.
  intros Hd Hm Hk. destruct (combinations (length modes) k) as (L & HV & HP & HF); [destruct modes; [congruence|cbn [length]; lia]|exact Hk|].
  unfold build_terms. rewrite HV.
  destruct (add_combinations dim q modes k Hd L []) as (ts & E & W & G & S); [split; constructor|exact HF|].
  exists ts. split; [exact E|]. split; [exact W|]. split.
  - intros g. rewrite G. rewrite (lsum_perm _ _ _ HP). unfold weigh. cbn [lsum]. lra.
  - intros g Hg. specialize (S g Hg). rewrite (lsum_perm _ _ _ HP) in S. change (spread g []) with 0 in S. lra.
Qed.

Lemma scale_well_keyed n k c m : well_keyed n k m -> well_keyed n k (scale_terms c m).
Proof.
  intros [A B]. split.
  - unfold keys, scale_terms in *. rewrite map_map. cbn [fst]. exact A.
  - unfold scale_terms. apply Forall_map. cbn [fst snd]. exact B.
Qed.
Lemma scale_weigh g c m : weigh g (scale_terms c m) = c * weigh g m.
Proof. unfold weigh, scale_terms. rewrite lsum_map. cbn [fst snd]. rewrite <- lsum_mul_l. apply lsum_ext. intros [k [p v]] _; cbn [fst snd]; ring. Qed.
Lemma scale_spread g c m : spread g (scale_terms c m) = spread g m.
Proof. unfold spread, scale_terms. rewrite lsum_map. reflexivity. Qed.

Lemma merge_app src : forall dst, NoDup (keys src) -> (forall k, In k (keys src) -> ~ In k (keys dst)) -> merge_terms dst src = dst ++ src.
Proof.
  induction src as [|[k v] src IH]; intros dst HN HD; [cbn; rewrite app_nil_r; reflexivity|].
  unfold merge_terms in *. cbn [fold_left fst snd]. rewrite tset_new.
  - rewrite IH.
    + rewrite <- app_assoc. reflexivity.
    + inversion HN; assumption.
    + intros k' Hk'. unfold keys. rewrite map_app, in_app_iff. cbn [map fst In]. intros [H|[<-|[]]].
      * apply (HD k'); [right; exact Hk'|exact H].
      * inversion HN; contradiction.
  - apply tget_None. apply HD. left. reflexivity.
Qed.
Lemma keys_disjoint n k k' a b : well_keyed n k a -> well_keyed n k' b -> k <> k' -> forall s, In s (keys b) -> ~ In s (keys a).
Proof.
  intros [_ A] [_ B] Hk s Hb Ha. unfold keys in *. apply in_map_iff in Ha, Hb. destruct Ha as ([sx [px cx]] & <- & Hx). destruct Hb as ([sy [py cy]] & E & Hy).
  rewrite Forall_forall in A, B. destruct (A _ Hx) as (K1 & L1 & S1). destruct (B _ Hy) as (K2 & L2 & S2). cbn [fst snd] in *.
  assert (Q : px = py) by (apply power2key_inj; congruence). congruence.
Qed.

(** ** All terms *)
Section All.
  Variables (mix : ideal_mix) (dim : nat) (q : rule) (modes : list miller).
  Hypothesis Hd : dim = 2%nat \/ dim = 3%nat.
  Hypothesis Hm : modes <> [].
  Definition combos (k : nat) := box (repeat (Z.of_nat (length modes)) k).

  Lemma all_spec : exists ts, all_terms mix dim q modes = Some ts
    /\ Forall (fun kv : str * fterm => length (fst (snd kv)) = length modes /\ (3 <= nsum (fst (snd kv)))%nat) ts
    /\ (forall g, weigh g ts = third_prefactor mix * lsum (fun idx => g (powers_of (length modes) idx) * integral dim q modes (powers_of (length modes) idx)) (combos 3)
                             + fourth_prefactor mix * lsum (fun idx => g (powers_of (length modes) idx) * integral dim q modes (powers_of (length modes) idx)) (combos 4))
    /\ (forall g, (forall p, 0 <= g p) ->
         spread g ts <= lsum (fun idx => g (powers_of (length modes) idx)) (combos 3) + lsum (fun idx => g (powers_of (length modes) idx)) (combos 4)).
  Proof.
    destruct (build_spec dim q modes 3 Hd Hm ltac:(lia)) as (t3 & E3 & W3 & G3 & S3).
    destruct (build_spec dim q modes 4 Hd Hm ltac:(lia)) as (t4 & E4 & W4 & G4 & S4).
    unfold all_terms. rewrite E3, E4.
    assert (W3' := scale_well_keyed _ _ (third_prefactor mix) _ W3). assert (W4' := scale_well_keyed _ _ (fourth_prefactor mix) _ W4).
    rewrite (merge_app _ []) by (try apply W3'; intros ? _ []). cbn [app].
    rewrite merge_app by (try apply W4'; apply (keys_disjoint _ 3 4 _ _ W3' W4'); lia).
    eexists. split; [reflexivity|]. split; [|split].
    - apply Forall_app. split; [destruct W3' as [_ F]|destruct W4' as [_ F]]; (eapply Forall_impl; [|exact F]); intros [sa [pa ca]] (H1 & H2 & H3); cbn [fst snd] in *; (split; [assumption|rewrite H3; lia]).
    - intros g. unfold weigh. rewrite lsum_app. fold (weigh g (scale_terms (third_prefactor mix) t3)). fold (weigh g (scale_terms (fourth_prefactor mix) t4)).
      rewrite !scale_weigh, G3, G4. reflexivity.
    - intros g Hg. unfold spread. rewrite lsum_app. fold (spread g (scale_terms (third_prefactor mix) t3)). fold (spread g (scale_terms (fourth_prefactor mix) t4)).
      rewrite !scale_spread. specialize (S3 g Hg). specialize (S4 g Hg). unfold combos. lra.
  Qed.

  Lemma in_combos k idx : In idx (combos k) -> Forall (fun j => (0 <= j < Z.of_nat (length modes))%Z) idx.
  Proof.
    unfold combos. revert idx. induction k as [|k IH]; intros idx H; cbn [repeat box] in H.
    - destruct H as [<-|[]]. constructor.
    - apply in_flat_map in H. destruct H as (i & Hi & H). apply in_map_iff in H. destruct H as (r & <- & Hr). apply zseq_In in Hi.
      constructor; [lia|apply IH; exact Hr].
  Qed.

  Lemma combos_length k idx : In idx (combos k) -> length idx = k.
  Proof.
    unfold combos. revert idx. induction k as [|k IH]; intros idx H; cbn [repeat box] in H.
    - destruct H as [<-|[]]. reflexivity.
    - apply in_flat_map in H. destruct H as (i & Hi & H). apply in_map_iff in H. destruct H as (r & <- & Hr). cbn [length]. rewrite (IH r Hr). reflexivity.
  Qed.

  (** Sums over the combinations of products of powers. *)
  Lemma combos_power (xs : list R) k : length xs = length modes ->
    lsum (fun idx => mono xs (powers_of (length modes) idx)) (combos k) = lsum (fun x => x) xs ^ k.
  Proof.
    intros Hl. rewrite <- box_power. unfold combos. rewrite Hl. apply lsum_ext. intros idx Hidx. rewrite <- Hl. apply mono_powers.
    rewrite Hl. apply (in_combos k). exact Hidx.
  Qed.

  Lemma energy_weigh ts amp : energy ts amp = weigh (mono amp) ts.
  Proof. unfold energy, weigh. rewrite sum_loop_lsum. apply lsum_ext. intros kv _. rewrite amp_prod_mono. reflexivity. Qed.

  Lemma expansion_sum amp pos : length amp = length modes ->
    expansion modes amp pos = lsum (fun x => x) (map (fun xy => fst xy * snd xy) (combine amp (densities modes pos))).
  Proof.
    unfold expansion, densities. generalize dependent amp. clear Hm. induction modes as [|m ms IH]; intros [|a amp] Hl; cbn [length] in Hl; try lia; [reflexivity|].
    cbn [map combine lsum fst snd]. rewrite <- IH by lia. rewrite !rsum_lsum. cbn [length seq lsum nth]. rewrite <- seq_shift, lsum_map. reflexivity.
  Qed.

  (** Any average of the energy density. *)
  Lemma expansion_power amp k p : length amp = length modes ->
    expansion modes amp p ^ k = lsum (fun idx => mono amp (powers_of (length modes) idx) * mode_product modes (powers_of (length modes) idx) p) (combos k).
  Proof.
    intros Hl. rewrite expansion_sum by exact Hl.
    assert (Hd2 : length (densities modes p) = length amp) by (unfold densities; rewrite map_length; lia).
    rewrite <- combos_power by (rewrite map_length, combine_length, Hd2, Nat.min_id; exact Hl).
    apply lsum_ext. intros idx _. rewrite <- mono_mult by exact Hd2. rewrite mode_product_mono. reflexivity.
  Qed.
  Lemma average_energy I amp : cell_average modes I -> length amp = length modes ->
    I (energy_density mix modes amp)
    = third_prefactor mix * lsum (fun idx => mono amp (powers_of (length modes) idx) * I (mode_product modes (powers_of (length modes) idx))) (combos 3)
      + fourth_prefactor mix * lsum (fun idx => mono amp (powers_of (length modes) idx) * I (mode_product modes (powers_of (length modes) idx))) (combos 4).
  Proof.
    intros HI Hl.
    set (l := map (fun idx => (third_prefactor mix * mono amp (powers_of (length modes) idx), powers_of (length modes) idx)) (combos 3)
           ++ map (fun idx => (fourth_prefactor mix * mono amp (powers_of (length modes) idx), powers_of (length modes) idx)) (combos 4)).
    rewrite (ca_ext _ _ HI _ (fun p => lsum (fun a => fst a * mode_product modes (snd a) p) l)).
    - rewrite (ca_linear _ _ HI). unfold l. rewrite lsum_app, !lsum_map. cbn [fst snd]. rewrite <- !lsum_mul_l. f_equal; apply lsum_ext; intros; ring.
    - intros p. unfold energy_density. rewrite !expansion_power by exact Hl. unfold l. rewrite lsum_app, !lsum_map. cbn [fst snd]. rewrite <- !lsum_mul_l. f_equal; apply lsum_ext; intros; ring.
  Qed.

  Lemma integral_average powers : integral dim q modes powers = rule_average dim q (mode_product modes powers).
  Proof. unfold integral. apply rule_ext. intros p. rewrite mode_product_mono. reflexivity. Qed.

  Lemma energy_average ts amp : all_terms mix dim q modes = Some ts -> length amp = length modes ->
    energy ts amp = rule_average dim q (energy_density mix modes amp).
  Proof.
    intros E Hl. destruct all_spec as (ts' & E' & _ & G & _). rewrite E in E'. injection E' as <-.
    rewrite energy_weigh, G. rewrite (average_energy _ amp (rule_cell_average dim q modes) Hl).
    f_equal; f_equal; apply lsum_ext; intros idx _; rewrite integral_average; reflexivity.
  Qed.

  Lemma lsum_id_map_abs (l : list R) : lsum (fun x => x) (map Rabs l) = lsum Rabs l.
  Proof. rewrite lsum_map. reflexivity. Qed.
  Lemma combos_abs amp k : length amp = length modes ->
    lsum (fun idx => Rabs (mono amp (powers_of (length modes) idx))) (combos k) = amp_size amp ^ k.
  Proof.
    intros Hl. unfold amp_size. rewrite <- lsum_id_map_abs, <- combos_power by (rewrite map_length; exact Hl).
    apply lsum_ext. intros idx _. apply mono_abs.
  Qed.

  Lemma energy_close I ts amp eps : cell_average modes I -> all_terms mix dim q modes = Some ts -> length amp = length modes ->
    (forall powers, length powers = length modes -> list_sum powers = 3%nat \/ list_sum powers = 4%nat ->
      Rabs (rule_average dim q (mode_product modes powers) - I (mode_product modes powers)) <= eps) ->
    Rabs (energy ts amp - I (energy_density mix modes amp))
    <= eps * (Rabs (third_prefactor mix) * amp_size amp ^ 3 + Rabs (fourth_prefactor mix) * amp_size amp ^ 4).
  Proof.
    intros HI E Hl He. rewrite (energy_average ts amp E Hl).
    rewrite (average_energy _ amp (rule_cell_average dim q modes) Hl), (average_energy _ amp HI Hl).
    set (g := fun idx => mono amp (powers_of (length modes) idx)). set (u := fun idx => mode_product modes (powers_of (length modes) idx)).
    assert (B : forall k, k = 3%nat \/ k = 4%nat -> Rabs (lsum (fun idx => g idx * rule_average dim q (u idx)) (combos k) - lsum (fun idx => g idx * I (u idx)) (combos k)) <= eps * amp_size amp ^ k).
    { intros k Hk. rewrite <- (combos_abs amp k Hl).
      assert (Es : lsum (fun idx => g idx * rule_average dim q (u idx)) (combos k) - lsum (fun idx => g idx * I (u idx)) (combos k)
              = lsum (fun idx => g idx * (rule_average dim q (u idx) - I (u idx))) (combos k)).
      { generalize (combos k). induction l as [|a l IHl]; cbn [lsum]; [lra|]. lra. }
      rewrite Es. clear Es. eapply Rle_trans; [apply lsum_abs|]. rewrite <- lsum_mul_l. apply lsum_le. intros idx Hidx.
      rewrite Rabs_mult. assert (Hs : list_sum (powers_of (length modes) idx) = k).
      { change list_sum with nsum. rewrite powers_of_sum by (apply (in_combos k); exact Hidx). apply (combos_length k). exact Hidx. }
      specialize (He (powers_of (length modes) idx) (powers_of_length _ _)). rewrite Hs in He. specialize (He Hk). fold (u idx) in He.
      rewrite Rmult_comm. apply Rmult_le_compat_r; [apply Rabs_pos|exact He]. }
    assert (B3 := B 3%nat (or_introl eq_refl)). assert (B4 := B 4%nat (or_intror eq_refl)). fold g u.
    change (Rabs (third_prefactor mix * lsum (fun idx => g idx * rule_average dim q (u idx)) (combos 3) + fourth_prefactor mix * lsum (fun idx => g idx * rule_average dim q (u idx)) (combos 4)
      - (third_prefactor mix * lsum (fun idx => g idx * I (u idx)) (combos 3) + fourth_prefactor mix * lsum (fun idx => g idx * I (u idx)) (combos 4)))
      <= eps * (Rabs (third_prefactor mix) * amp_size amp ^ 3 + Rabs (fourth_prefactor mix) * amp_size amp ^ 4)).
    set (a3 := lsum (fun idx => g idx * rule_average dim q (u idx)) (combos 3)) in *. set (a4 := lsum (fun idx => g idx * rule_average dim q (u idx)) (combos 4)) in *.
    set (i3 := lsum (fun idx => g idx * I (u idx)) (combos 3)) in *. set (i4 := lsum (fun idx => g idx * I (u idx)) (combos 4)) in *.
    replace (_ + _ - (_ + _)) with (third_prefactor mix * (a3 - i3) + fourth_prefactor mix * (a4 - i4)) by ring.
    eapply Rle_trans; [apply Rabs_triang|]. rewrite !Rabs_mult.
    assert (P3 := Rabs_pos (third_prefactor mix)). assert (P4 := Rabs_pos (fourth_prefactor mix)). nra.
  Qed.

  (** ** The cutoff *)
  Lemma max_coeff_from m : forall s, s <= fold_left (fun mx (kv : str * fterm) => if Rlt_dec mx (Rabs (snd (snd kv))) then Rabs (snd (snd kv)) else mx) m s
    /\ forall M, s <= M -> Forall (fun kv : str * fterm => Rabs (snd (snd kv)) <= M) m ->
       fold_left (fun mx (kv : str * fterm) => if Rlt_dec mx (Rabs (snd (snd kv))) then Rabs (snd (snd kv)) else mx) m s <= M.
  Proof.
    induction m as [|kv m IH]; intros s; cbn [fold_left]; [split; [lra|]; intros; lra|].
    destruct (Rlt_dec s (Rabs (snd (snd kv)))) as [H|H]; split.
    - destruct (IH (Rabs (snd (snd kv)))) as [A _]. lra.
    - intros M Hs HF. inversion HF; subst. apply IH; assumption.
    - apply IH.
    - intros M Hs HF. inversion HF; subst. apply IH; assumption.
  Qed.
  Lemma max_coeff_bound m M : 0 <= M -> Forall (fun kv : str * fterm => Rabs (snd (snd kv)) <= M) m -> 0 <= max_coeff m <= M.
  Proof. intros HM HF. unfold max_coeff. destruct (max_coeff_from m 0) as [A B]. split; [exact A|apply B; assumption]. Qed.

  Lemma weigh_filter g (c : str * fterm -> bool) mc (m : terms) : 0 <= mc -> (forall kv : str * fterm, In kv m -> c kv = false -> Rabs (g (fst (snd kv)) * snd (snd kv)) <= Rabs (g (fst (snd kv))) * (1 / 10000 * mc)) ->
    Rabs (weigh g (filter c m) - weigh g m) <= 1 / 10000 * mc * spread (fun p => Rabs (g p)) m.
  Proof.
    intros HM. unfold weigh, spread, terms in *. induction m as [|kv m IH]; intros H; cbn [filter lsum]; [rewrite Rminus_0_r, Rabs_R0; lra|].
    assert (IH' := IH (fun kv Hin => H kv (or_intror Hin))). assert (Hkv := H kv (or_introl eq_refl)).
    set (A := lsum (fun kv : str * fterm => g (fst (snd kv)) * snd (snd kv)) (filter c m)) in *. set (B := lsum (fun kv : str * fterm => g (fst (snd kv)) * snd (snd kv)) m) in *.
    assert (Pg := Rabs_pos (g (fst (snd kv)))). destruct (c kv); cbn [lsum].
    - fold A. replace (_ + A - (_ + B)) with (A - B) by ring. assert (Q : 0 <= Rabs (g (fst (snd kv))) * mc) by (apply Rmult_le_pos; lra). lra.
    - replace (A - _) with ((A - B) - g (fst (snd kv)) * snd (snd kv)) by ring. eapply Rle_trans; [apply Rabs_triang|]. rewrite Rabs_Ropp.
      specialize (Hkv eq_refl). lra.
  Qed.
  Lemma cut_close ts amp M : all_terms mix dim q modes = Some ts -> length amp = length modes ->
    0 <= M -> Forall (fun kv : str * fterm => Rabs (snd (snd kv)) <= M) ts ->
    Rabs (energy (cut_terms ts) amp - energy ts amp) <= 1 / 10000 * M * (amp_size amp ^ 3 + amp_size amp ^ 4).
  Proof.
    intros E Hl HM HF. destruct all_spec as (ts' & E' & _ & _ & S). rewrite E in E'. injection E' as <-.
    rewrite !energy_weigh. destruct (max_coeff_bound ts M HM HF) as [B1 B2].
    eapply Rle_trans.
    - unfold cut_terms. apply (weigh_filter _ _ (max_coeff ts)); [exact B1|]. intros [k [p v]] _ Hc. cbn [fst snd] in *. destruct (Rlt_dec (1 / 10000 * max_coeff ts) (Rabs v)); [discriminate|].
      rewrite Rabs_mult. apply Rmult_le_compat_l; [apply Rabs_pos|lra].
    - specialize (S (fun p => Rabs (mono amp p)) (fun p => Rabs_pos _)). cbv beta in S. rewrite !combos_abs in S by exact Hl.
      assert (P : 0 <= spread (fun p => Rabs (mono amp p)) ts) by (apply lsum_nonneg; intros; apply Rabs_pos). nra.
  Qed.
End All.
