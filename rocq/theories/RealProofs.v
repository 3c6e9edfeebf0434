From Verif Require Import RealSpec DftProofs IndexProofs StepProofs EnergyProofs3 CVec Complex.
From Coq Require Import Lra Lia Qreals.
Open Scope R_scope.

Lemma conj_defined dom k : valid_domain dom -> (k < nodes dom)%nat ->
  exists m, conjugate_node dom (Z.of_nat k) = Some (Z.of_nat m) /\ (m < nodes dom)%nat /\
            conjugate_node dom (Z.of_nat m) = Some (Z.of_nat k).
Proof.
  intros Hv Hk. pose proof (nodes_lt dom k (proj2 Hv) Hk) as B.
  destruct (conj_pos dom (Z.of_nat k) Hv B) as (p & m & _ & _ & Hm & _).
  destruct (conj_involutive dom _ m Hv B Hm) as (Bm & H).
  exists (Z.to_nat m). rewrite Z2Nat.id by lia. split; [exact Hm|]. split; [unfold nodes; lia|exact H].
Qed.

Lemma real_field_nth x : real_field x <-> forall j, (j < length x)%nat -> Im (nth j x C0) = 0.
Proof.
  unfold real_field. rewrite Forall_forall. split.
  - intros H j Hj. apply H, nth_In, Hj.
  - intros H z Hz. destruct (In_nth x z C0 Hz) as (j & Hj & <-). apply H, Hj.
Qed.

Lemma Cconj_eq_real z : Cconj z = z -> Im z = 0.
Proof. destruct z as [a b]. intros H. injection H as H. cbn. lra. Qed.

(** Transforming the conjugated field. *)
Lemma fft_conj dom x k m : valid_domain dom -> square_layout dom -> (k < nodes dom)%nat -> length x = nodes dom ->
  conjugate_node dom (Z.of_nat k) = Some m ->
  nth (Z.to_nat m) (fft (fftw_transform dom) (map Cconj x)) C0 = Cconj (nth k (fft (fftw_transform dom) x) C0).
Proof.
  intros Hv Hs Hk Hx Hm. pose proof (nodes_lt dom k (proj2 Hv) Hk) as Bk.
  destruct (conj_involutive dom (Z.of_nat k) m Hv Bk Hm) as (Bm & _).
  assert (Hm' : (Z.to_nat m < nodes dom)%nat) by (unfold nodes; lia).
  destruct (freq_defined dom k Hv Hk) as (_ & f & _ & Hf).
  destruct (freq_defined dom (Z.to_nat m) Hv Hm') as (_ & g & _ & Hg).
  rewrite (fft_amplitude dom x k f), (fft_amplitude dom _ (Z.to_nat m) g) by assumption.
  rewrite Z2Nat.id in Hg by lia. pose proof (conj_freq dom (Z.of_nat k) m f g Hv Bk Hm Hf Hg) as Hfg.
  unfold amplitude. rewrite csum_conj. apply csum_ext. intros j Hj.
  destruct (freq_defined dom j Hv Hj) as (p & _ & Hp & _). rewrite Hp, Cconj_mul. f_equal.
  - rewrite nth_map_data by lia. reflexivity.
  - rewrite <- cis_opp. destruct (freq_dot_conj f g Hfg p) as [z Hz]. apply (cis_cong _ _ (- z)). rewrite Hz, opp_IZR. ring.
Qed.

Theorem hermitian_of_real dom x : valid_domain dom -> square_layout dom -> real_field x -> hermitian dom (fft (fftw_transform dom) x).
Proof. intros Hv Hs Hx k m Hk Hm. apply fft_real_symmetry; assumption. Qed.

Theorem real_of_hermitian dom X : valid_domain dom -> square_layout dom -> length X = nodes dom ->
  hermitian dom X -> real_field (to_real (fftw_transform dom) X).
Proof.
  intros Hv Hs HX HH. set (ft := fftw_transform dom). pose proof (fftw_good dom Hv) as G. fold ft in G.
  set (x := to_real ft X). assert (Lx : length x = nodes dom).
  { unfold x, to_real. rewrite div_real_length. apply (gt_ifft_len _ _ G), HX. }
  assert (Fx : fft ft x = X) by (apply (gt_inverse _ _ G), HX).
  assert (E : map Cconj x = x).
  { assert (Lc : length (map Cconj x) = nodes dom) by (rewrite map_length; exact Lx).
    transitivity (to_real ft (fft ft (map Cconj x))); [symmetry; exact (gt_left _ _ G _ Lc)|].
    transitivity (to_real ft (fft ft x)); [|exact (gt_left _ _ G _ Lx)]. f_equal.
    apply (list_eq_nth _ _ (nodes dom)).
    - apply (gt_fft_len _ _ G). rewrite map_length. exact Lx.
    - apply (gt_fft_len _ _ G), Lx.
    - intros i Hi. destruct (conj_defined dom i Hv Hi) as (k & _ & Hk & Hc).
      rewrite <- (Nat2Z.id i) at 1. unfold ft. rewrite (fft_conj dom x k _ Hv Hs Hk Lx Hc).
      fold ft. rewrite Fx. rewrite <- (HH k _ Hk Hc), Nat2Z.id. reflexivity. }
  apply real_field_nth. intros j Hj. apply Cconj_eq_real. rewrite <- (nth_map_data Cconj C0 x j Hj). rewrite E. reflexivity.
Qed.

Theorem real_iff_hermitian dom x : valid_domain dom -> square_layout dom -> length x = nodes dom ->
  (real_field x <-> hermitian dom (fft (fftw_transform dom) x)).
Proof.
  intros Hv Hs Hx. split; [apply hermitian_of_real; assumption|]. intros H.
  pose proof (fftw_good dom Hv) as G. rewrite <- (gt_left _ _ G x Hx). apply real_of_hermitian; try assumption.
  apply (gt_fft_len _ _ G), Hx.
Qed.

(** ** Conjugate pairs of nodes *)
Definition herm_fun (dom : list Z) (g : nat -> C) : Prop :=
  forall k m, (k < nodes dom)%nat -> (m < nodes dom)%nat -> conjugate_node dom (Z.of_nat k) = Some (Z.of_nat m) -> g m = Cconj (g k).

Lemma herm_iff dom X : valid_domain dom -> hermitian dom X <-> herm_fun dom (fun j => nth j X C0).
Proof.
  intros Hv. split.
  - intros H k m Hk _ Hm. rewrite <- (H k _ Hk Hm), Nat2Z.id. reflexivity.
  - intros H k m Hk Hm. destruct (conj_involutive dom _ m Hv (nodes_lt dom k (proj2 Hv) Hk) Hm) as (B & _).
    apply H; [exact Hk|unfold nodes; lia|]. rewrite Z2Nat.id by lia. exact Hm.
Qed.

Lemma herm_ext dom X g : valid_domain dom -> (forall j, (j < nodes dom)%nat -> nth j X C0 = g j) -> herm_fun dom g -> hermitian dom X.
Proof. intros Hv E H. apply herm_iff; [exact Hv|]. intros k m Hk Hm Hc. rewrite !E by assumption. apply H; assumption. Qed.

Lemma Cconj_inv z : Cconj (Cinv z) = Cinv (Cconj z).
Proof. destruct z as [a b]. unfold Cconj, Cinv, Cnorm2. apply C_eq; cbn; replace (a * a + - b * - b) with (a * a + b * b) by ring; [reflexivity|]. unfold Rdiv. ring. Qed.
Lemma Cconj_add a b : Cconj (Cadd a b) = Cadd (Cconj a) (Cconj b).
Proof. csolve. Qed.
Lemma Cconj_sub a b : Cconj (Csub a b) = Csub (Cconj a) (Cconj b).
Proof. csolve. Qed.
Lemma Cconj_RtoC r : Cconj (RtoC r) = RtoC r.
Proof. csolve. Qed.
Lemma Cconj_div a b : Cconj (Cdiv a b) = Cdiv (Cconj a) (Cconj b).
Proof. unfold Cdiv. rewrite Cconj_mul, Cconj_inv. reflexivity. Qed.

(** ** The frequencies of a conjugate pair *)
Definition conj_freqs (f g : list R) : Prop := Forall2 (fun x y => y = - x \/ (y = 1 / 2 /\ x = 1 / 2)) f g.
Lemma conj_tfreq dom k m : valid_domain dom -> (k < nodes dom)%nat -> (m < nodes dom)%nat -> conjugate_node dom (Z.of_nat k) = Some (Z.of_nat m) ->
  conj_freqs (tfreq (fftw_transform dom) k) (tfreq (fftw_transform dom) m).
Proof.
  intros Hv Hk Hm Hc. destruct (freq_defined dom k Hv Hk) as (_ & f & _ & Hf). destruct (freq_defined dom m Hv Hm) as (_ & g & _ & Hg).
  cbn [tfreq fftw_transform]. rewrite Hf, Hg. pose proof (conj_freq dom _ _ f g Hv (nodes_lt dom k (proj2 Hv) Hk) Hc Hf Hg) as H.
  unfold conj_freqs. clear - H. induction H as [|x y f g Hxy H IH]; cbn [map]; constructor; [|exact IH].
  destruct Hxy as [E|[Ey Ex]].
  - left. rewrite (Qeq_eqR _ _ E), Q2R_opp. reflexivity.
  - right. rewrite (Qeq_eqR _ _ Ex), (Qeq_eqR _ _ Ey). unfold Q2R. cbn. lra.
Qed.
Lemma conj_norm_sq f g : conj_freqs f g -> norm_sq g = norm_sq f.
Proof. induction 1 as [|x y f g Hxy H IH]; [reflexivity|]. cbn [norm_sq]. rewrite IH. destruct Hxy as [->|[-> ->]]; ring. Qed.
Lemma conj_nth f g d : conj_freqs f g -> nth d g 0 = - nth d f 0 \/ (nth d g 0 = 1 / 2 /\ nth d f 0 = 1 / 2).
Proof. intros H. revert d. induction H as [|x y f g Hxy H IH]; intros [|d]; cbn [nth]; try (left; lra); [exact Hxy|apply IH]. Qed.

(** ** Lists *)
  Lemma nth_vadd d s j : length d = length s -> (j < length d)%nat -> nth j (vadd d s) C0 = Cadd (nth j d C0) (nth j s C0).
  Proof.
    revert s j. induction d as [|a d IH]; intros [|b s] j E Hj; cbn [length] in *; try lia.
    destruct j as [|j]; cbn [vadd nth]; [reflexivity|]. apply IH; lia.
  Qed.
  Lemma nth_map3 (f : C -> C -> C -> C) a b d j : length b = length a -> length d = length a -> (j < length a)%nat ->
    nth j (map3 f a b d) C0 = f (nth j a C0) (nth j b C0) (nth j d C0).
  Proof.
    revert b d j. induction a as [|x a IH]; intros [|y b] [|z d] j E1 E2 Hj; cbn [length] in *; try lia.
    destruct j as [|j]; cbn [map3 nth]; [reflexivity|]. apply IH; lia.
  Qed.
  Lemma mapi_ext {B} (f g : nat -> C -> B) d : (forall j z, f j z = g j z) -> forall i, mapi_from i f d = mapi_from i g d.
  Proof. intros E. induction d as [|z d IH]; intros i; cbn [mapi_from]; [reflexivity|]. rewrite E, IH. reflexivity. Qed.
  Lemma Forall_set_nth {A} (P : A -> Prop) i x l : Forall P l -> P x -> Forall P (set_nth i x l).
  Proof.
    intros H Hx. revert i. induction H as [|y l Hy H IH]; intros [|i]; cbn [set_nth]; constructor; auto.
  Qed.
  Lemma Forall_nth_error {A} (P : A -> Prop) i x l : Forall P l -> nth_error l i = Some x -> P x.
  Proof. intros H E. rewrite Forall_forall in H. apply H. eapply nth_error_In, E. Qed.
  Lemma firstn_set_nth {A} i (x : A) l : (i < length l)%nat -> firstn (S i) (set_nth i x l) = firstn i l ++ [x].
  Proof. revert l. induction i as [|i IH]; intros [|y l] H; cbn [length] in H; try lia; cbn [set_nth firstn app]; [reflexivity|]. f_equal. apply IH. lia. Qed.

(** ** Steps *)
Section Real.
  Variables (dom : list Z) (nf : nat) (p : pde) (filt : option (R -> R)) (dt : R).
  Hypothesis Hv : valid_domain dom.
  Hypothesis Hs : square_layout dom.
  Let n := nodes dom.
  Let ft := fftw_transform dom.
  Definition herm (d : data) : Prop := length d = nodes dom /\ hermitian dom d.

  Lemma herm_zero : herm (repeat C0 n).
  Proof.
    split; [apply repeat_length|]. apply (herm_ext dom _ (fun _ => C0) Hv); [intros j _; apply nth_repeat|].
    intros k m _ _ _. csolve.
  Qed.
  Lemma herm_vadd d s : herm d -> herm s -> herm (vadd d s).
  Proof.
    intros [L1 H1] [L2 H2]. split; [rewrite vadd_length; exact L1|].
    apply (herm_ext dom _ (fun j => Cadd (nth j d C0) (nth j s C0)) Hv); [intros j Hj; apply nth_vadd; lia|].
    intros k m Hk Hm Hc. rewrite Cconj_add. apply (herm_iff dom d Hv) in H1. apply (herm_iff dom s Hv) in H2.
    rewrite (H1 k m Hk Hm Hc), (H2 k m Hk Hm Hc). reflexivity.
  Qed.
  Lemma herm_semi h y k a : herm y -> herm k -> herm a -> herm (map3 (semi_implicit h) y k a).
  Proof.
    intros [L1 H1] [L2 H2] [L3 H3]. split; [apply map3_length; assumption|].
    apply (herm_ext dom _ (fun j => semi_implicit h (nth j y C0) (nth j k C0) (nth j a C0)) Hv); [intros j Hj; apply nth_map3; lia|].
    intros u w Hu Hw Hc. apply (herm_iff dom y Hv) in H1. apply (herm_iff dom k Hv) in H2. apply (herm_iff dom a Hv) in H3.
    rewrite (H1 u w Hu Hw Hc), (H2 u w Hu Hw Hc), (H3 u w Hu Hw Hc). unfold semi_implicit.
    rewrite Cconj_div, Cconj_add, Cconj_sub, !Cconj_mul, Cconj_RtoC. f_equal. f_equal. csolve.
  Qed.
  Lemma herm_map2 (f : C -> C -> C) y k : (forall a b, f (Cconj a) (Cconj b) = Cconj (f a b)) -> herm y -> herm k -> herm (map2 f y k).
  Proof.
    intros Hf [L1 H1] [L2 H2]. split; [apply StepProofs.map2_length; assumption|].
    apply (herm_ext dom _ (fun j => f (nth j y C0) (nth j k C0)) Hv); [intros j Hj; apply nth_map2; lia|].
    intros u w Hu Hw Hc. apply (herm_iff dom y Hv) in H1. apply (herm_iff dom k Hv) in H2.
    rewrite (H1 u w Hu Hw Hc), (H2 u w Hu Hw Hc). apply Hf.
  Qed.
  (** multiplication by a function of the frequency *)
  Lemma herm_mapi (g : nat -> C) d : herm_fun dom g -> herm d -> herm (mapi_from 0 (fun j z => Cmul (g j) z) d).
  Proof.
    intros Hg [L H]. split; [rewrite mapi_from_length; exact L|].
    apply (herm_ext dom _ (fun j => Cmul (g j) (nth j d C0)) Hv).
    - intros j Hj. rewrite nth_mapi by (rewrite L; exact Hj). reflexivity.
    - intros u w Hu Hw Hc. apply (herm_iff dom d Hv) in H. rewrite (H u w Hu Hw Hc), (Hg u w Hu Hw Hc), Cconj_mul. reflexivity.
  Qed.
  Lemma isotropic_herm (g : R -> R) : herm_fun dom (fun j => RtoC (g (norm_sq (tfreq ft j)))).
  Proof. intros u w Hu Hw Hc. cbv beta. unfold ft. rewrite (conj_norm_sq _ _ (conj_tfreq dom u w Hv Hu Hw Hc)). csolve. Qed.
  Lemma herm_filter d : herm d -> herm (apply_filter filt ft d).
  Proof.
    intros H. unfold apply_filter. destruct filt as [g|]; [|exact H].
    rewrite (mapi_ext _ (fun j z => Cmul (RtoC (g (sqrt (norm_sq (tfreq ft j)) * 2 / PI))) z)) by (intros; ring).
    apply herm_mapi; [|exact H]. exact (isotropic_herm (fun s => g (sqrt s * 2 / PI))).
  Qed.

  Definition herm_env (e : env) : Prop := sized nf (length (p_calc p)) e /\ hermitian_fields dom (e_fields e) /\ hermitian_fields dom (e_derived e).

  Lemma herm_terms e t fs : (forall f, In f fs -> real_term dom nf (length (p_calc p)) f) -> herm_env e -> forall st, herm (fst st) -> herm (snd st) ->
    herm (fst (fold_left (add_term e t) fs st)) /\ herm (snd (fold_left (add_term e t) fs st)).
  Proof.
    intros HF (E0 & E1 & E2). induction fs as [|f fs IH]; intros st H1 H2; cbn [fold_left]; [split; assumption|].
    assert (T : herm (f e t (snd st))). { destruct H2 as [L2 H2]. exact (HF f (or_introl eq_refl) e t (snd st) E0 E1 E2 L2 H2). }
    apply IH; [intros g Hg; apply HF; right; exact Hg| |]; unfold add_term; cbn [fst snd]; [apply herm_vadd; assumption|exact T].
  Qed.
  (** What the steps need of a model. *)
  Record real_parts : Prop := {
    rp_calc : forall i c e, nth_error (p_calc p) i = Some c -> sized nf (length (p_calc p)) e -> real_fields dom (e_fields e) ->
      real_fields dom (firstn i (e_derived e)) -> length (c e) = nodes dom /\ real_field (c e);
    rp_rhs : forall e i t r, herm_env e -> get_rhs p e i t n = Some r -> herm r;
    rp_denum : forall e i t r, herm_env e -> get_denum p e i t n = Some r -> herm r
  }.

  Section Model.
  Hypothesis M : real_model dom nf p.
  Lemma herm_sources q t : In q (p_eqns p) -> forall l, (forall s, In s l -> In s (q_sources q)) -> forall st, herm (fst st) -> herm (snd st) ->
    herm (fst (fold_left (add_source t) l st)).
  Proof.
    intros Hq. induction l as [|s l IH]; intros HL st H1 H2; cbn [fold_left]; [exact H1|].
    assert (T : herm (s t (snd st))). { destruct H2 as [L2 H2]. exact (rm_sources _ _ _ M q s t _ Hq (HL s (or_introl eq_refl)) L2 H2). }
    apply IH; [intros g Hg; apply HL; right; exact Hg| |]; unfold add_source; cbn [fst snd]; [apply herm_vadd; assumption|exact T].
  Qed.
  Lemma herm_mods i l : (forall m, In m l -> In m (p_mods p)) -> forall d, herm d -> herm (apply_mods l i d).
  Proof.
    unfold apply_mods. induction l as [|m l IH]; intros HL d Hd; cbn [fold_left]; [exact Hd|].
    apply IH; [intros g Hg; apply HL; right; exact Hg|]. destruct (Nat.eqb (fst m) i); [|exact Hd].
    destruct Hd as [L H]. exact (rm_mods _ _ _ M m d (HL m (or_introl eq_refl)) L H).
  Qed.
  Lemma herm_rhs e i t r : herm_env e -> get_rhs p e i t n = Some r -> herm r.
  Proof.
    intros He H. unfold get_rhs in H. destruct (nth_error (p_eqns p) i) as [q|] eqn:Eq; [|discriminate]. injection H as <-.
    apply nth_error_In in Eq. apply herm_mods; [auto|].
    destruct (herm_terms e t (q_terms q) (fun f Hf => rm_terms _ _ _ M q f Eq (or_introl Hf)) He (repeat C0 n, repeat C0 n) herm_zero herm_zero) as [A B].
    apply (herm_sources q t Eq); auto.
  Qed.
  Lemma herm_denum e i t r : herm_env e -> get_denum p e i t n = Some r -> herm r.
  Proof.
    intros He H. unfold get_denum in H. destruct (nth_error (p_eqns p) i) as [q|] eqn:Eq; [|discriminate]. injection H as <-.
    apply nth_error_In in Eq.
    apply (herm_terms e t (q_denum q) (fun f Hf => rm_terms _ _ _ M q f Eq (or_intror Hf)) He (repeat C0 n, repeat C0 n) herm_zero herm_zero).
  Qed.
  Lemma real_model_parts : real_parts.
  Proof. exact (Build_real_parts (rm_calc _ _ _ M) herm_rhs herm_denum). Qed.
  End Model.
  Hypothesis K : real_parts.


  Lemma herm_euler_fields t : forall todo i e e', herm_env e -> euler_fields p ft filt dt t todo i e = Some e' -> herm_env e'.
  Proof.
    induction todo as [|todo IH]; intros i e e' He H; cbn [euler_fields] in H; [injection H as <-; exact He|].
    destruct (nth_error (e_fields e) i) as [d|] eqn:Ed; [|discriminate].
    pose proof (Forall_nth_error _ _ _ _ (proj1 (proj2 He)) Ed) as Hd. destruct Hd as [Ld Hd]. rewrite Ld in H.
    destruct (get_rhs p e i t (nodes dom)) as [r|] eqn:Er; [|discriminate].
    destruct (get_denum p e i t (nodes dom)) as [a|] eqn:Ea; [|discriminate].
    apply IH in H; [exact H|]. destruct He as (H0 & H1 & H2). split; [split; [unfold set_field; cbn [e_fields]; rewrite set_nth_length; exact (proj1 H0)|exact (proj2 H0)]|]. split; [|exact H2]. unfold set_field. cbn [e_fields].
    apply Forall_set_nth; [exact H1|].
    apply herm_filter, herm_semi; [split; assumption| exact (rp_rhs K e i t r (conj H0 (conj H1 H2)) Er)|exact (rp_denum K e i t a (conj H0 (conj H1 H2)) Ea)].
  Qed.

  Definition realf (d : data) : Prop := length d = nodes dom /\ real_field d.
  Lemma realf_to_real d : herm d -> realf (to_real ft d).
  Proof.
    intros [L H]. split; [unfold to_real; rewrite div_real_length; apply (gt_ifft_len _ _ (fftw_good dom Hv)), L|].
    apply real_of_hermitian; assumption.
  Qed.
  Lemma herm_fft d : realf d -> herm (fft ft d).
  Proof. intros [L H]. split; [apply (gt_fft_len _ _ (fftw_good dom Hv)), L|]. apply hermitian_of_real; assumption. Qed.
  Lemma fields_to_real fs : hermitian_fields dom fs -> real_fields dom (map (to_real ft) fs).
  Proof. intros H. induction H as [|d fs Hd H IH]; cbn [map]; constructor; [exact (realf_to_real d Hd)|exact IH]. Qed.
  Lemma fields_fft fs : real_fields dom fs -> hermitian_fields dom (map (fft ft) fs).
  Proof. intros H. induction H as [|d fs Hd H IH]; cbn [map]; constructor; [exact (herm_fft d Hd)|exact IH]. Qed.

  Lemma real_sync_from : forall calcs i e, (forall k c, nth_error calcs k = Some c -> nth_error (p_calc p) (i + k) = Some c) ->
    real_fields dom (e_fields e) -> real_fields dom (firstn i (e_derived e)) -> length (e_derived e) = (i + length calcs)%nat -> sized nf (length (p_calc p)) e ->
    real_fields dom (e_derived (sync_from i calcs e)).
  Proof.
    induction calcs as [|c calcs IH]; intros i e Hc He Hd HL HS; cbn [sync_from length] in *.
    - rewrite <- (firstn_all (e_derived e)), HL, Nat.add_0_r. exact Hd.
    - apply IH.
      + intros k c' Hk. replace (S i + k)%nat with (i + S k)%nat by lia. apply Hc. exact Hk.
      + exact He.
      + unfold set_derived. cbn [e_derived]. rewrite firstn_set_nth by lia. apply Forall_app. split; [exact Hd|]. constructor; [|constructor].
        apply (rp_calc K i c e); try assumption. specialize (Hc 0%nat c eq_refl). rewrite Nat.add_0_r in Hc. exact Hc.
      + unfold set_derived. cbn [e_derived]. rewrite set_nth_length. lia.
      + destruct HS as [S1 S2]. split; [exact S1|]. unfold set_derived. cbn [e_derived]. rewrite set_nth_length. exact S2.
  Qed.
  Lemma real_sync e : real_fields dom (e_fields e) -> sized nf (length (p_calc p)) e -> real_fields dom (e_derived (sync p e)).
  Proof. intros He HL. apply real_sync_from; auto; [constructor|exact (proj2 HL)]. Qed.

  Lemma sync_sized e : sized nf (length (p_calc p)) e ->
    sized nf (length (p_calc p)) {| e_fields := map (fft ft) (e_fields (sync p e)); e_derived := map (fft ft) (e_derived (sync p e)) |}.
  Proof. intros [S1 S2]. split; cbn [e_fields e_derived]; rewrite map_length; [rewrite sync_fields; exact S1|unfold sync; rewrite sync_from_count; exact S2]. Qed.
  Lemma real_spectrum e : real_fields dom (e_fields e) -> sized nf (length (p_calc p)) e ->
    herm_env {| e_fields := map (fft ft) (e_fields (sync p e)); e_derived := map (fft ft) (e_derived (sync p e)) |}.
  Proof.
    intros He HL. split; [apply sync_sized, HL|]. split; cbn [e_fields e_derived]; apply fields_fft; [rewrite sync_fields; exact He|apply real_sync; assumption].
  Qed.

  Theorem euler_real t e e' : real_fields dom (e_fields e) -> sized nf (length (p_calc p)) e ->
    euler_step p ft filt dt t e = Some e' -> real_fields dom (e_fields e') /\ sized nf (length (p_calc p)) e'.
  Proof.
    intros He HL H. unfold euler_step in H.
    destruct (euler_fields _ _ _ _ _ _ _ _) as [e3|] eqn:E; [|discriminate]. injection H as <-. cbn [e_fields e_derived].
    pose proof (herm_euler_fields t _ _ _ _ (real_spectrum e He HL) E) as (S3 & A & _). split; [apply fields_to_real, A|].
    destruct S3 as [S3 S4]. split; cbn [e_fields e_derived]; [rewrite map_length; exact S3|exact S4].
  Qed.

  Theorem euler_propagate_real : forall nsteps step e e' step', real_fields dom (e_fields e) -> sized nf (length (p_calc p)) e ->
    euler_propagate p ft filt dt nsteps step e = Some (e', step') -> real_fields dom (e_fields e').
  Proof.
    induction nsteps as [|k IH]; intros step e e' step' He HL H; cbn [euler_propagate] in H; [injection H as <- _; exact He|].
    destruct (euler_step p ft filt dt (time_of dt step) e) as [e1|] eqn:E; [|discriminate].
    destruct (euler_real _ _ _ He HL E) as [H1 L1]. eapply IH; eauto.
  Qed.
End Real.
