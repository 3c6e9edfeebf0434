From Verif Require Import ListAux StepModel StepSpec StepProofs.

Lemma Cdiv_one z h : Cdiv z (Csub C1 (Cmul h C0)) = z.
Proof. replace (Csub C1 (Cmul h C0)) with C1 by ring. field. exact C1_neq_0. Qed.

Lemma semi_implicit_zero h y : semi_implicit h y C0 C0 = y.
Proof. unfold semi_implicit. rewrite Cdiv_one. ring. Qed.

Section Conserve.
  Variables (n : nat) (p : pde) (ft : transform) (filt : option (R -> R)) (dt : R) (i : nat).
  Hypothesis Hn : (0 < n)%nat.
  Hypothesis GT : good_transform n ft.
  Hypothesis KL : keeps_length n p.
  Hypothesis KZ : keeps_zero filt.
  Hypothesis CO : conserved n p i.

  Lemma to_real_length d : length d = n -> length (to_real ft d) = n.
  Proof. intros H. unfold to_real. rewrite div_real_length. apply (gt_ifft_len n ft GT). exact H. Qed.

  Lemma filter_zero d : (0 < length d)%nat -> nth 0 (apply_filter filt ft d) C0 = nth 0 d C0.
  Proof.
    unfold apply_filter, keeps_zero in *. destruct filt as [g|]; [|reflexivity].
    destruct d as [|z d]; cbn [length]; [lia|]. intros _. cbn [mapi_from nth].
    rewrite (gt_freq0 n ft GT), sqrt_0. replace (0 * 2 / PI) with 0 by (unfold Rdiv; ring).
    rewrite KZ. change (RtoC 1) with C1. ring.
  Qed.

  Lemma semi_zero h y r a : length y = n -> length r = n -> length a = n ->
    nth 0 r C0 = C0 -> nth 0 a C0 = C0 -> nth 0 (map3 (semi_implicit h) y r a) C0 = nth 0 y C0.
  Proof.
    intros Hy Hr Ha Er Ea. destruct y as [|y0 y], r as [|r0 r], a as [|a0 a]; cbn [length] in *; try lia.
    cbn [nth map3] in *. subst r0 a0. apply semi_implicit_zero.
  Qed.

  Lemma euler_fields_conserve t : forall todo k e e',
    euler_fields p ft filt dt t todo k e = Some e' -> all_length n (e_fields e) ->
    all_length n (e_fields e') /\ length (e_fields e') = length (e_fields e) /\
    forall d, nth_error (e_fields e) i = Some d ->
      exists d', nth_error (e_fields e') i = Some d' /\ nth 0 d' C0 = nth 0 d C0.
  Proof.
    induction todo as [|todo IH]; intros k e e' H Hl; cbn [euler_fields] in H.
    - injection H as <-. split; [exact Hl|]. split; [reflexivity|]. eauto.
    - destruct (nth_error (e_fields e) k) as [d|] eqn:Ed; [|discriminate].
      pose proof (all_length_nth n _ _ _ Hl Ed) as Ld. rewrite Ld in H.
      destruct (get_rhs p e k t n) as [r|] eqn:Er; [|discriminate].
      destruct (get_denum p e k t n) as [a|] eqn:Ea; [|discriminate].
      pose proof (get_rhs_length n p e k t r KL Er) as Lr.
      pose proof (get_denum_length n p e k t a KL Ea) as La.
      assert (Lu : length (map3 (semi_implicit dt) d r a) = n) by (apply map3_length; assumption).
      assert (Hk : (k < length (e_fields e))%nat) by (apply nth_error_Some; congruence).
      apply IH in H.
      + destruct H as (H1 & H2 & H3). split; [exact H1|]. split; [cbn in H2; rewrite set_nth_length in H2; exact H2|].
        intros d0 Hd0. destruct (Nat.eq_dec k i) as [->|Hne].
        * rewrite Ed in Hd0. injection Hd0 as <-.
          destruct (H3 (apply_filter filt ft (map3 (semi_implicit dt) d r a))) as (d' & E1 & E2).
          { cbn. apply nth_error_set_nth_eq. exact Hk. }
          exists d'. split; [exact E1|]. rewrite E2, filter_zero by lia. destruct CO as [C1' C2'].
          apply semi_zero; eauto.
        * apply (H3 d0). cbn. rewrite nth_error_set_nth_neq by exact Hne. exact Hd0.
      + apply all_length_intro. intros j x Hx. cbn in Hx. destruct (Nat.eq_dec k j) as [->|Hne].
        * rewrite nth_error_set_nth_eq in Hx by exact Hk. injection Hx as <-. rewrite apply_filter_length. exact Lu.
        * rewrite nth_error_set_nth_neq in Hx by exact Hne. exact (all_length_nth n _ _ _ Hl Hx).
  Qed.

  Lemma euler_fields_progress t : forall todo k e, (k + todo <= length (e_fields e))%nat ->
    (length (e_fields e) <= length (p_eqns p))%nat -> exists e', euler_fields p ft filt dt t todo k e = Some e'.
  Proof.
    induction todo as [|todo IH]; intros k e Hk Hq; cbn [euler_fields]; [eauto|].
    destruct (nth_error (e_fields e) k) as [d|] eqn:Ed; [|apply nth_error_None in Ed; lia].
    destruct (get_rhs_some p t e k (length d)) as (r & ->); [lia|].
    destruct (get_denum_some p t e k (length d)) as (a & ->); [lia|].
    apply IH; cbn; rewrite set_nth_length; lia.
  Qed.

  Lemma spectrum_length e : all_length n (e_fields e) -> all_length n (map (fft ft) (e_fields e)).
  Proof.
    unfold all_length. rewrite !Forall_forall. intros H d Hd. apply in_map_iff in Hd. destruct Hd as (x & <- & Hx).
    apply (gt_fft_len n ft GT). auto.
  Qed.

  Lemma real_length l : all_length n l -> all_length n (map (to_real ft) l).
  Proof.
    unfold all_length. rewrite !Forall_forall. intros H d Hd. apply in_map_iff in Hd. destruct Hd as (x & <- & Hx).
    apply to_real_length. auto.
  Qed.

  Lemma euler_step_conserve t e : all_length n (e_fields e) ->
    (length (e_fields e) <= length (p_eqns p))%nat ->
    exists e', euler_step p ft filt dt t e = Some e' /\ all_length n (e_fields e') /\
      length (e_fields e') = length (e_fields e) /\
      forall d, nth_error (e_fields e) i = Some d ->
        exists d', nth_error (e_fields e') i = Some d' /\ Csum d' = Csum d.
  Proof.
    intros Hl Hq. unfold euler_step. rewrite sync_fields.
    set (e2 := {| e_fields := map (fft ft) (e_fields e); e_derived := map (fft ft) (e_derived (sync p e)) |}).
    assert (L2 : length (e_fields e2) = length (e_fields e)) by apply map_length.
    destruct (euler_fields_progress t (length (e_fields e)) 0 e2) as (e3 & E3); [lia|lia|]. rewrite E3.
    destruct (euler_fields_conserve t _ _ _ _ E3 (spectrum_length e Hl)) as (A & B & Z).
    eexists. split; [reflexivity|]. cbn [e_fields]. split; [apply real_length; exact A|].
    split; [rewrite map_length; lia|].
    intros d Hd. destruct (Z (fft ft d)) as (d' & E1 & E2).
    { unfold e2. cbn. rewrite nth_error_map, Hd. reflexivity. }
    exists (to_real ft d'). split; [rewrite nth_error_map, E1; reflexivity|].
    pose proof (all_length_nth n _ _ _ A E1) as Ld'. pose proof (all_length_nth n _ _ _ Hl Hd) as Ld.
    rewrite <- (gt_zero n ft GT (to_real ft d')) by (apply to_real_length; exact Ld').
    rewrite (gt_inverse n ft GT) by exact Ld'. rewrite E2. apply (gt_zero n ft GT). exact Ld.
  Qed.

  Lemma mean_eq (d d' : data) : length d = n -> length d' = n -> Csum d' = Csum d -> mean d' = mean d.
  Proof. unfold mean. intros -> -> ->. reflexivity. Qed.

  Lemma euler_conserves nsteps : forall step e, all_length n (e_fields e) ->
    (length (e_fields e) <= length (p_eqns p))%nat ->
    exists e' step', euler_propagate p ft filt dt nsteps step e = Some (e', step') /\
      forall d, nth_error (e_fields e) i = Some d ->
        exists d', nth_error (e_fields e') i = Some d' /\ mean d' = mean d.
  Proof.
    induction nsteps as [|m IH]; intros step e Hl Hq; cbn [euler_propagate].
    - eexists _, _. split; [reflexivity|]. eauto.
    - destruct (euler_step_conserve (time_of dt step) e Hl Hq) as (e1 & E1 & A1 & L1 & Z1). rewrite E1.
      destruct (IH (S step) e1 A1) as (e' & s' & E' & Z'); [lia|]. exists e', s'. split; [exact E'|].
      intros d Hd. destruct (Z1 d Hd) as (d1 & Hd1 & S1). destruct (Z' d1 Hd1) as (d' & Hd' & M').
      exists d'. split; [exact Hd'|]. rewrite M'. apply mean_eq; [exact (all_length_nth n _ _ _ Hl Hd)|exact (all_length_nth n _ _ _ A1 Hd1)|exact S1].
  Qed.

  Hypothesis CD : constant_denum p.
  Hypothesis DF : derived_from_fields p.

  Lemma nth_error_all {A} (l : list A) k : (k < length l)%nat -> exists x, nth_error l k = Some x.
  Proof. intros H. destruct (nth_error l k) eqn:E; [eauto|]. apply nth_error_None in E. lia. Qed.

  Lemma rk4_step_conserve t e : all_length n (e_fields e) ->
    (length (e_fields e) <= length (p_eqns p))%nat -> length (e_derived e) = length (p_calc p) ->
    exists e', rk4_step p ft filt dt t e = Some e' /\ all_length n (e_fields e') /\
      length (e_fields e') = length (e_fields e) /\ length (e_derived e') = length (e_derived e) /\
      forall d, nth_error (e_fields e) i = Some d ->
        exists d', nth_error (e_fields e') i = Some d' /\ Csum d' = Csum d.
  Proof.
    intros Hl Hq Hc.
    destruct (rk4_step_scheme n p ft filt dt t GT KL CD DF e Hl Hq Hc) as
      (k1 & s2 & k2 & s3 & k3 & s4 & k4 & e' & N1 & S2 & N2 & S3 & N3 & S4 & N4 & E & L & LD & R).
    set (Y := map (fft ft) (e_fields e)) in *.
    assert (LY : length Y = length (e_fields e)) by apply map_length.
    assert (AY : all_length n Y) by (apply spectrum_length; exact Hl).
    destruct N1 as [L1 N1], N2 as [L2 N2], N3 as [L3 N3], N4 as [L4 N4], S2 as [M2 S2], S3 as [M3 S3], S4 as [M4 S4].
    assert (Val : forall j, (j < length Y)%nat -> exists y a r1 r2 r3 r4, nth_error Y j = Some y /\ length y = n /\
       get_denum p e j t (length y) = Some a /\ length a = n /\
       nth_error k1 j = Some r1 /\ nth_error k2 j = Some r2 /\ nth_error k3 j = Some r3 /\ nth_error k4 j = Some r4 /\
       (j = i -> nth 0 a C0 = C0 /\ nth 0 r1 C0 = C0 /\ nth 0 r2 C0 = C0 /\ nth 0 r3 C0 = C0 /\ nth 0 r4 C0 = C0)).
    { intros j Hj. destruct (nth_error_all Y j Hj) as (y & Hy). pose proof (all_length_nth n _ _ _ AY Hy) as Ly.
      destruct (get_denum_some p t e j n) as (a & Ha); [lia|].
      destruct (nth_error_all k1 j) as (r1 & H1); [lia|]. destruct (nth_error_all k2 j) as (r2 & H2); [lia|].
      destruct (nth_error_all k3 j) as (r3 & H3); [lia|]. destruct (nth_error_all k4 j) as (r4 & H4); [lia|].
      assert (SL : forall h K st rr z, nth_error K j = Some rr -> length rr = n ->
                 (forall i0 y0 k0 a0, nth_error Y i0 = Some y0 -> nth_error K i0 = Some k0 ->
                    get_denum p e i0 t (length y0) = Some a0 -> nth_error st i0 = Some (map3 (semi_implicit h) y0 k0 a0)) ->
                 nth_error st j = Some z -> length z = n).
      { intros h K st rr z HK Lr HS Hz. rewrite (HS j y rr a Hy HK) in Hz by (rewrite Ly; exact Ha).
        injection Hz as <-. apply map3_length; [exact Ly|exact Lr|exact (get_denum_length n p e j t a KL Ha)]. }
      assert (P1 : get_rhs p (at_amplitudes p ft (e_derived e) Y) j t n = Some r1).
      { rewrite <- Ly, <- (N1 j y Hy). exact H1. }
      pose proof (get_rhs_length n p _ j t r1 KL P1) as Lr1.
      destruct (nth_error_all s2 j) as (z2 & Hz2); [lia|].
      pose proof (SL _ _ _ _ _ H1 Lr1 S2 Hz2) as Lz2.
      assert (P2 : get_rhs p (at_amplitudes p ft (e_derived e) s2) j t n = Some r2).
      { rewrite <- Lz2, <- (N2 j z2 Hz2). exact H2. }
      pose proof (get_rhs_length n p _ j t r2 KL P2) as Lr2.
      destruct (nth_error_all s3 j) as (z3 & Hz3); [lia|].
      pose proof (SL _ _ _ _ _ H2 Lr2 S3 Hz3) as Lz3.
      assert (P3 : get_rhs p (at_amplitudes p ft (e_derived e) s3) j t n = Some r3).
      { rewrite <- Lz3, <- (N3 j z3 Hz3). exact H3. }
      pose proof (get_rhs_length n p _ j t r3 KL P3) as Lr3.
      destruct (nth_error_all s4 j) as (z4 & Hz4); [lia|].
      pose proof (SL _ _ _ _ _ H3 Lr3 S4 Hz4) as Lz4.
      assert (P4 : get_rhs p (at_amplitudes p ft (e_derived e) s4) j t n = Some r4).
      { rewrite <- Lz4, <- (N4 j z4 Hz4). exact H4. }
      exists y, a, r1, r2, r3, r4. rewrite Ly. repeat (split; [auto; exact (get_denum_length n p e j t a KL Ha)|]).
      intros ->. destruct CO as [CO1 CO2]. repeat split; eauto. }
    exists e'. split; [exact E|]. split; [|split; [exact L|split; [exact LD|]]].
    - apply all_length_intro. intros j x Hx.
      assert (Hj : (j < length Y)%nat).
      { rewrite LY, <- L. apply nth_error_Some. congruence. }
      destruct (Val j Hj) as (y & a & r1 & r2 & r3 & r4 & Hy & Ly & Ha & La & H1 & H2 & H3 & H4 & _).
      rewrite (R j y a r1 r2 r3 r4 Hy Ha H1 H2 H3 H4) in Hx. injection Hx as <-.
      apply to_real_length. rewrite apply_filter_length, map_length, seq_length. reflexivity.
    - intros d Hd.
      assert (Hi : (i < length Y)%nat) by (rewrite LY; apply nth_error_Some; congruence).
      destruct (Val i Hi) as (y & a & r1 & r2 & r3 & r4 & Hy & Ly & Ha & La & H1 & H2 & H3 & H4 & Z).
      destruct (Z eq_refl) as (Za & Z1 & Z2 & Z3 & Z4).
      eexists. split; [exact (R i y a r1 r2 r3 r4 Hy Ha H1 H2 H3 H4)|].
      match goal with |- Csum (to_real ft ?x) = _ => set (X := x) end.
      assert (LX : length X = n) by (unfold X; rewrite apply_filter_length, map_length, seq_length; reflexivity).
      rewrite <- (gt_zero n ft GT (to_real ft X)) by (apply to_real_length; exact LX).
      rewrite (gt_inverse n ft GT) by exact LX.
      unfold X. rewrite filter_zero by (rewrite map_length, seq_length; exact Hn).
      destruct n as [|n']; [lia|]. cbn [seq map nth]. rewrite Za, Z1, Z2, Z3, Z4.
      assert (Y0 : nth 0 y C0 = Csum d).
      { unfold Y in Hy. rewrite nth_error_map, Hd in Hy. cbn in Hy. injection Hy as <-.
        apply (gt_zero _ ft GT). exact (all_length_nth _ _ _ _ Hl Hd). }
      rewrite <- Y0. rewrite Cdiv_one. unfold combine4. ring.
  Qed.

  Lemma rk4_conserves nsteps : forall step e, all_length n (e_fields e) ->
    (length (e_fields e) <= length (p_eqns p))%nat -> length (e_derived e) = length (p_calc p) ->
    exists e' step', rk4_propagate p ft filt dt nsteps step e = Some (e', step') /\
      forall d, nth_error (e_fields e) i = Some d ->
        exists d', nth_error (e_fields e') i = Some d' /\ mean d' = mean d.
  Proof.
    induction nsteps as [|m IH]; intros step e Hl Hq Hc; cbn [rk4_propagate].
    - eexists _, _. split; [reflexivity|]. eauto.
    - destruct (rk4_step_conserve (time_of dt step) e Hl Hq Hc) as (e1 & E1 & A1 & L1 & D1 & Z1). rewrite E1.
      destruct (IH (S step) e1 A1) as (e' & s' & E' & Z'); [lia|lia|]. exists e', s'. split; [exact E'|].
      intros d Hd. destruct (Z1 d Hd) as (d1 & Hd1 & S1). destruct (Z' d1 Hd1) as (d' & Hd' & M').
      exists d'. split; [exact Hd'|]. rewrite M'. apply mean_eq; [exact (all_length_nth n _ _ _ Hl Hd)|exact (all_length_nth n _ _ _ A1 Hd1)|exact S1].
  Qed.
End Conserve.

(** ** Which terms are conserved *)

Lemma vadd_zero d s : nth 0 d C0 = C0 -> nth 0 s C0 = C0 -> nth 0 (vadd d s) C0 = C0.
Proof. destruct d as [|x d], s as [|y s]; cbn; intros H1 H2; auto. rewrite H1, H2. ring. Qed.

Lemma repeat_zero n : nth 0 (repeat C0 n) C0 = C0.
Proof. destruct n; reflexivity. Qed.

Lemma fold_terms_zero n e t fs : forall st, length (snd st) = n -> nth 0 (fst st) C0 = C0 ->
  (forall f, In f fs -> vanishes_at_zero n f /\ forall tmp, length tmp = n -> length (f e t tmp) = n) ->
  nth 0 (fst (fold_left (add_term e t) fs st)) C0 = C0 /\ length (snd (fold_left (add_term e t) fs st)) = n.
Proof.
  induction fs as [|f fs IH]; intros st Hl H Hf; cbn [fold_left]; [auto|].
  destruct (Hf f) as [V L]; [left; reflexivity|]. apply IH.
  - cbn. apply L. exact Hl.
  - cbn. apply vadd_zero; [exact H|]. apply V. exact Hl.
  - intros g Hg. apply Hf. right. exact Hg.
Qed.

Lemma apply_mods_zero (regs : list (nat * (data -> data))) i : forall d : data, nth 0 d C0 = C0 ->
  (forall (m : nat * (data -> data)) (d : data), In m regs -> fst m = i -> nth 0 d C0 = C0 -> nth 0 (snd m d) C0 = C0) ->
  nth 0 (apply_mods regs i d) C0 = C0.
Proof.
  unfold apply_mods. induction regs as [|m regs IH]; intros d Hd Hm; cbn; [exact Hd|]. apply IH.
  - destruct (Nat.eqb (fst m) i) eqn:E; [|exact Hd]. apply Nat.eqb_eq in E. apply Hm; [left; reflexivity|exact E|exact Hd].
  - intros m' d' Hm'. apply Hm. right. exact Hm'.
Qed.

Lemma conserved_by_terms n p i q : keeps_length n p ->
  nth_error (p_eqns p) i = Some q -> q_sources q = [] ->
  (forall f, In f (q_terms q) \/ In f (q_denum q) -> vanishes_at_zero n f) ->
  (forall (m : nat * (data -> data)) (d : data), In m (p_mods p) -> fst m = i -> nth 0 d C0 = C0 -> nth 0 (snd m d) C0 = C0) ->
  conserved n p i.
Proof.
  intros K Hq Hs Hv Hm. pose proof (nth_error_In _ _ Hq) as Iq. split; intros e t r H.
  - unfold get_rhs in H. rewrite Hq, Hs in H. injection H as <-. apply apply_mods_zero; [|exact Hm].
    cbn [fold_left]. apply (fold_terms_zero n); [apply repeat_length|apply repeat_zero|].
    intros f Hf. split; [apply Hv; auto|]. intros tmp Ht. eapply kl_term; eauto.
  - unfold get_denum in H. rewrite Hq in H. injection H as <-.
    apply (fold_terms_zero n); [apply repeat_length|apply repeat_zero|].
    intros f Hf. split; [apply Hv; auto|]. intros tmp Ht. eapply kl_term; eauto.
Qed.

Lemma norm_sq_zero f : norm_sq f = 0 -> forall d, nth d f 0 = 0.
Proof.
  induction f as [|x f IH]; intros H [|d]; cbn [nth norm_sq] in *; auto.
  - pose proof (norm_sq_nonneg f). pose proof (Rle_0_sqr x). unfold Rsqr in *. apply Rsqr_0_uniq. unfold Rsqr. lra.
  - apply IH. pose proof (norm_sq_nonneg f). pose proof (Rle_0_sqr x). unfold Rsqr in *. lra.
Qed.

Lemma laplacian_vanishes n ft k body : norm_sq (tfreq ft 0) = 0 -> (0 < k)%nat ->
  vanishes_at_zero n (laplacian_term ft k body).
Proof.
  intros H Hk e t tmp _. unfold laplacian_term. destruct (body e t tmp) as [|z l]; [reflexivity|].
  cbn [mapi_from nth]. rewrite lap_eval_symbol. unfold lap_symbol. rewrite H.
  destruct k as [|k]; [lia|]. replace (- (4 * PI * PI * 0)) with 0 by ring. rewrite pow_i by lia.
  change (RtoC 0) with C0. ring.
Qed.

Lemma flux_vanishes n mult ft dim flux : norm_sq (tfreq ft 0) = 0 -> mult 0 = 0 ->
  vanishes_at_zero n (flux_term mult ft dim flux).
Proof.
  intros H Hm e t tmp _. unfold flux_term.
  assert (G : forall dim d field, nth 0 field C0 = C0 -> nth 0 (flux_term_from mult ft flux dim d e t field) C0 = C0).
  { intros dm. induction dm as [|dm IH]; intros d field Hf; cbn [flux_term_from]; [exact Hf|]. apply IH.
    destruct field as [|z l]; [reflexivity|]. cbn [mapi_from nth] in *. subst z.
    rewrite (norm_sq_zero _ H d), Hm. change (RtoC 0) with C0. ring. }
  apply G. apply repeat_zero.
Qed.

Lemma flux_mults : divgrad_mult 0 = 0 /\ charge_mult 0 = 0 /\ noise_mult 0 = 0.
Proof.
  unfold divgrad_mult, charge_mult, noise_mult. rewrite !Rmult_0_r, sin_0.
  split; [reflexivity|]. split; destruct Rlt_dec; ring.
Qed.

(** ** The two-point transform, an instance of [good_transform] *)

Definition ft2 : transform := {|
  fft := fun x => match x with [a; b] => [Cadd a b; Csub a b] | _ => x end;
  ifft := fun x => match x with [a; b] => [Cadd a b; Csub a b] | _ => x end;
  tfreq := fun j => match j with O => [0] | _ => [1 / 2] end |}.

Lemma ft2_good : good_transform 2 ft2.
Proof.
  assert (H2 : RtoC (INR 2) <> C0) by (apply RtoC_neq0; apply not_0_INR; lia).
  assert (E2 : RtoC (INR 2) = Cadd C1 C1) by (apply C_eq; cbn; lra).
  constructor.
  1,2,5: intros [|a [|b [|c x]]] H; try discriminate H; try reflexivity.
  - cbn. ring.
  - intros [|a [|b [|c x]]] H; try discriminate H. cbn [fft ft2 to_real ifft div_real map length].
    unfold to_real. cbn [ifft ft2 div_real map length fft]. rewrite E2 in *. f_equal; [|f_equal]; field; exact H2.
  - intros [|a [|b [|c x]]] H; try discriminate H. unfold to_real.
    cbn [ifft ft2 div_real map length fft]. rewrite E2 in *. f_equal; [|f_equal]; field; exact H2.
  - cbn. ring.
Qed.
