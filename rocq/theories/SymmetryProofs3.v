(** The steppers commute with motions. *)
From Verif Require Import SymmetrySpec SymmetryProofs SymmetryProofs2 DftProofs IndexProofs RealProofs RealProofs2 StepProofs EnergyProofs3 Vec CVec Complex.
From Coq Require Import Lra Lia Qreals.
Open Scope R_scope.

Lemma cis_cancel x a b : Cmul (cis x) a = Cmul (cis x) b -> a = b.
Proof.
  intros H. apply (f_equal (Cmul (Cconj (cis x)))) in H.
  replace (Cmul (Cconj (cis x)) (Cmul (cis x) a)) with (Cmul (Cmul (cis x) (Cconj (cis x))) a) in H by ring.
  replace (Cmul (Cconj (cis x)) (Cmul (cis x) b)) with (Cmul (Cmul (cis x) (Cconj (cis x))) b) in H by ring.
  rewrite cis_unit in H. transitivity (Cmul C1 a); [ring|]. rewrite H. ring.
Qed.

Section Motion.
  Variables (dom : list Z) (g : list Z -> list Z) (tau : nat -> nat) (w : nat -> R).
  Hypothesis Hv : valid_domain dom.
  Hypothesis Mo : motion dom g.
  Hypothesis Sy : node_symmetry dom (node_map dom g) tau w.
  Let n := nodes dom.
  Let ft := fftw_transform dom.
  Let G : good_transform n ft := fftw_good dom Hv.
  Notation smov := (smov dom tau w).
  Notation rmov := (rmov dom (node_map dom g)).
  Notation cmov := (cmov dom tau).

  Lemma mv_iff x y : moved dom g x y <-> rmov x y.
  Proof.
    split.
    - intros H. destruct H as (L1 & L2 & H). split; [exact L1|]. split; [exact L2|]. apply (moved_iff dom Hv g x y Mo L1 L2). split; [exact L1|split; assumption].
    - intros (L1 & L2 & H). apply (moved_iff dom Hv g x y Mo L1 L2). exact H.
  Qed.
  Lemma ms_iff X Y : moved_spectrum dom g X Y <-> smov X Y.
  Proof.
    split.
    - intros (L1 & L2 & H). apply mv_iff in H. apply (smov_iff dom _ tau w Hv Sy X Y L1 L2), H.
    - intros H. split; [apply H|]. split; [apply H|]. apply mv_iff. apply (smov_iff dom _ tau w Hv Sy X Y (proj1 H) (proj1 (proj2 H))), H.
  Qed.
  Lemma nth_times a X k : length a = n -> length X = n -> (k < n)%nat -> nth k (times a X) C0 = Cmul (nth k a C0) (nth k X C0).
  Proof. intros L1 L2 Hk. unfold times. apply nth_map2; lia. Qed.
  Lemma times_len a X : length a = n -> length X = n -> length (times a X) = n.
  Proof. intros L1 L2. unfold times. apply StepProofs.map2_length; assumption. Qed.
  Lemma smov_times a b X Y : cmov a b -> smov X Y -> smov (times a X) (times b Y).
  Proof.
    intros (La & Lb & Ha) (LX & LY & HX). split; [apply times_len; assumption|]. split; [apply times_len; assumption|]. intros k Hk.
    rewrite !nth_times by (try assumption; apply (sy_frange _ _ _ _ Sy), Hk). rewrite (Ha k Hk), (HX k Hk). ring.
  Qed.
  Lemma mc_iff a b : moved_coefficient dom g a b <-> cmov a b.
  Proof.
    split.
    - intros (L1 & L2 & H). split; [exact L1|]. split; [exact L2|]. intros k Hk.
      set (X := repeat C1 n). set (Y := map (fun k => cis (- w k)) (seq 0 n)).
      assert (LX : length X = n) by apply repeat_length. assert (LY : length Y = n) by (unfold Y; rewrite map_length, seq_length; reflexivity).
      assert (NX : forall j, (j < n)%nat -> nth j X C0 = C1).
      { intros j Hj. unfold X. rewrite (nth_indep _ C0 C1) by (rewrite repeat_length; exact Hj). apply nth_repeat. }
      assert (HXY : smov X Y).
      { split; [exact LX|]. split; [exact LY|]. intros j Hj. unfold Y. rewrite (DftProofs.nth_map_seq (fun k => cis (- w k)) n j C0 Hj), NX by (apply (sy_frange _ _ _ _ Sy), Hj). ring. }
      apply ms_iff in HXY. specialize (H X Y HXY). apply ms_iff in H. destruct H as (_ & _ & H). specialize (H k Hk).
      pose proof (sy_frange _ _ _ _ Sy k Hk) as Ht.
      rewrite !nth_times in H by assumption. rewrite NX in H by exact Ht. unfold Y in H. rewrite (DftProofs.nth_map_seq (fun k => cis (- w k)) n k C0 Hk) in H.
      apply (cis_cancel (- w k)). transitivity (Cmul (nth k b C0) (cis (- w k))); [ring|]. rewrite H. ring.
    - intros H. split; [apply H|]. split; [apply H|]. intros X Y HXY. apply ms_iff in HXY. apply ms_iff. apply smov_times; assumption.
  Qed.

  (** ** Closure of the relations *)
  Lemma nth_zero j : nth j (repeat C0 n) C0 = C0.
  Proof. apply nth_repeat. Qed.
  Lemma smov_zero : smov (repeat C0 n) (repeat C0 n).
  Proof. split; [apply repeat_length|]. split; [apply repeat_length|]. intros k _. rewrite !nth_zero. ring. Qed.
  Lemma cmov_zero : cmov (repeat C0 n) (repeat C0 n).
  Proof. split; [apply repeat_length|]. split; [apply repeat_length|]. intros k _. rewrite !nth_zero. reflexivity. Qed.
  Lemma smov_vadd d d' s s' : smov d d' -> smov s s' -> smov (vadd d s) (vadd d' s').
  Proof.
    intros (L1 & L2 & H1) (L3 & L4 & H2). split; [rewrite vadd_length; exact L1|]. split; [rewrite vadd_length; exact L2|]. intros k Hk.
    pose proof (sy_frange _ _ _ _ Sy k Hk) as Ht. rewrite !nth_vadd by (rewrite ?L1, ?L2, ?L3, ?L4; first [reflexivity|assumption]). rewrite (H1 k Hk), (H2 k Hk). ring.
  Qed.
  Lemma cmov_vadd d d' s s' : cmov d d' -> cmov s s' -> cmov (vadd d s) (vadd d' s').
  Proof.
    intros (L1 & L2 & H1) (L3 & L4 & H2). split; [rewrite vadd_length; exact L1|]. split; [rewrite vadd_length; exact L2|]. intros k Hk.
    pose proof (sy_frange _ _ _ _ Sy k Hk) as Ht. rewrite !nth_vadd by (rewrite ?L1, ?L2, ?L3, ?L4; first [reflexivity|assumption]). rewrite (H1 k Hk), (H2 k Hk). reflexivity.
  Qed.
  Lemma smov_semi h y y' k k' a a' : smov y y' -> smov k k' -> cmov a a' -> smov (map3 (semi_implicit h) y k a) (map3 (semi_implicit h) y' k' a').
  Proof.
    intros (L1 & L1' & H1) (L2 & L2' & H2) (L3 & L3' & H3). split; [apply map3_length; assumption|]. split; [apply map3_length; assumption|]. intros j Hj.
    pose proof (sy_frange _ _ _ _ Sy j Hj) as Ht. rewrite !nth_map3 by (rewrite ?L1, ?L1', ?L2, ?L2', ?L3, ?L3'; first [reflexivity|assumption]).
    rewrite (H1 j Hj), (H2 j Hj), (H3 j Hj). unfold semi_implicit, Cdiv. ring.
  Qed.
  Lemma smov_finish h y y' a a' : smov y y' -> cmov a a' ->
    smov (map2 (fun y a => Cdiv y (Csub C1 (Cmul (RtoC h) a))) y a) (map2 (fun y a => Cdiv y (Csub C1 (Cmul (RtoC h) a))) y' a').
  Proof.
    intros (L1 & L1' & H1) (L3 & L3' & H3). split; [apply StepProofs.map2_length; assumption|]. split; [apply StepProofs.map2_length; assumption|]. intros j Hj.
    pose proof (sy_frange _ _ _ _ Sy j Hj) as Ht. rewrite !nth_map2 by (rewrite ?L1, ?L1', ?L3, ?L3'; first [reflexivity|assumption]).
    rewrite (H1 j Hj), (H3 j Hj). unfold Cdiv. ring.
  Qed.
  Lemma smov_mapi (c : nat -> C) X Y : (forall k, (k < n)%nat -> c (tau k) = c k) -> smov X Y ->
    smov (mapi_from 0 (fun j z => Cmul (c j) z) X) (mapi_from 0 (fun j z => Cmul (c j) z) Y).
  Proof.
    intros Hc (L1 & L2 & H). split; [rewrite mapi_from_length; exact L1|]. split; [rewrite mapi_from_length; exact L2|]. intros k Hk.
    pose proof (sy_frange _ _ _ _ Sy k Hk) as Ht. rewrite !nth_mapi by (rewrite ?L1, ?L2; assumption). cbn [Nat.add]. rewrite (H k Hk), (Hc k Hk). ring.
  Qed.
  Lemma isotropic (h : R -> R) k : (k < n)%nat -> RtoC (h (norm_sq (tfreq ft (tau k)))) = RtoC (h (norm_sq (tfreq ft k))).
  Proof. intros Hk. unfold ft. rewrite (sy_norm _ _ _ _ Sy k Hk). reflexivity. Qed.
  Lemma smov_filter filt X Y : smov X Y -> smov (apply_filter filt ft X) (apply_filter filt ft Y).
  Proof.
    intros H. unfold apply_filter. destruct filt as [h|]; [|exact H].
    rewrite (mapi_ext _ (fun j z => Cmul (RtoC (h (sqrt (norm_sq (tfreq ft j)) * 2 / PI))) z) X) by (intros; ring).
    rewrite (mapi_ext _ (fun j z => Cmul (RtoC (h (sqrt (norm_sq (tfreq ft j)) * 2 / PI))) z) Y) by (intros; ring).
    apply smov_mapi; [|exact H]. intros k Hk. exact (isotropic (fun s => h (sqrt s * 2 / PI)) k Hk).
  Qed.

  Section Model.
    Variables (nf : nat) (p p' : pde) (filt : option (R -> R)) (dt : R).
    Hypothesis M : moved_model dom g nf p p'.
    Let nd := length (p_calc p).
    Let F2 := Forall2 smov.

    Lemma F2_iff X Y : Forall2 (moved_spectrum dom g) X Y <-> F2 X Y.
    Proof. unfold F2. split; intros H; induction H; constructor; auto; apply ms_iff; assumption. Qed.
    Lemma F2_nth {A B} (P : A -> B -> Prop) : forall l l' i x, Forall2 P l l' -> nth_error l i = Some x -> exists y, nth_error l' i = Some y /\ P x y.
    Proof. intros l l' i x H. revert i. induction H as [|a b l l' Hab H IH]; intros [|i] E; cbn in *; try discriminate; [injection E as <-; eauto|exact (IH i E)]. Qed.
    Lemma F2_set {A B} (P : A -> B -> Prop) : forall l l' i x y, Forall2 P l l' -> P x y -> Forall2 P (set_nth i x l) (set_nth i y l').
    Proof. intros l l' i x y H Hxy. revert i. induction H as [|a b l l' Hab H IH]; intros [|i]; cbn [set_nth]; constructor; auto. Qed.
    Lemma F2_len {A B} (P : A -> B -> Prop) l l' : Forall2 P l l' -> length l = length l'.
    Proof. induction 1; cbn [length]; congruence. Qed.
    Lemma F2_map {A B D E} (P : A -> B -> Prop) (Q : D -> E -> Prop) f h l l' : (forall a b, P a b -> Q (f a) (h b)) -> Forall2 P l l' -> Forall2 Q (map f l) (map h l').
    Proof. intros H. induction 1; cbn [map]; constructor; auto. Qed.

    (** environments in Fourier space *)
    Definition emov (e e' : env) : Prop := sized nf nd e /\ F2 (e_fields e) (e_fields e') /\ F2 (e_derived e) (e_derived e').
    Lemma emov_spec e e' : emov e e' -> moved_env dom g e e'.
    Proof. intros (_ & H1 & H2). split; apply F2_iff; assumption. Qed.

    Lemma terms_moved e e' t fs fs' : emov e e' -> Forall2 (moved_term dom g nf nd) fs fs' -> forall a a' b b', smov a a' -> smov b b' ->
      smov (fst (fold_left (add_term e t) fs (a, b))) (fst (fold_left (add_term e' t) fs' (a', b'))) /\
      smov (snd (fold_left (add_term e t) fs (a, b))) (snd (fold_left (add_term e' t) fs' (a', b'))).
    Proof.
      intros He H. induction H as [|f f' fs fs' Hf H IH]; intros a a' b b' Ha Hb; cbn [fold_left]; [split; assumption|].
      assert (T : smov (f e t b) (f' e' t b')).
      { apply ms_iff. apply Hf; [apply He|apply emov_spec, He|apply ms_iff, Hb]. }
      unfold add_term at 2 4 6 8. cbn [fst snd]. apply IH; [apply smov_vadd; assumption|exact T].
    Qed.
    Lemma denum_moved e e' t fs fs' : Forall2 (moved_denum dom g) fs fs' -> forall a a' b b', cmov a a' -> cmov b b' ->
      cmov (fst (fold_left (add_term e t) fs (a, b))) (fst (fold_left (add_term e' t) fs' (a', b'))).
    Proof.
      intros H. induction H as [|f f' fs fs' Hf H IH]; intros a a' b b' Ha Hb; cbn [fold_left]; [assumption|].
      assert (T : cmov (f e t b) (f' e' t b')). { apply mc_iff. apply Hf. apply mc_iff, Hb. }
      unfold add_term at 2 4. cbn [fst snd]. apply IH; [apply cmov_vadd; assumption|exact T].
    Qed.
    Lemma sources_moved t fs fs' : Forall2 (moved_source dom g) fs fs' -> forall a a' b b', smov a a' -> smov b b' ->
      smov (fst (fold_left (add_source t) fs (a, b))) (fst (fold_left (add_source t) fs' (a', b'))).
    Proof.
      intros H. induction H as [|f f' fs fs' Hf H IH]; intros a a' b b' Ha Hb; cbn [fold_left]; [assumption|].
      assert (T : smov (f t b) (f' t b')). { apply ms_iff. apply Hf. apply ms_iff, Hb. }
      unfold add_source at 2 4. cbn [fst snd]. apply IH; [apply smov_vadd; assumption|exact T].
    Qed.
    Lemma mods_moved i l l' : Forall2 (moved_modifier dom g) l l' -> forall d d', smov d d' -> smov (apply_mods l i d) (apply_mods l' i d').
    Proof.
      unfold apply_mods. intros H. induction H as [|m m' l l' [Hm1 Hm2] H IH]; intros d d' Hd; cbn [fold_left]; [exact Hd|].
      apply IH. rewrite Hm1. destruct (Nat.eqb (fst m') i); [|exact Hd]. apply ms_iff, Hm2, ms_iff, Hd.
    Qed.
    Lemma rhs_moved e e' i t r : emov e e' -> get_rhs p e i t n = Some r -> exists r', get_rhs p' e' i t n = Some r' /\ smov r r'.
    Proof.
      intros He H. unfold get_rhs in *. destruct (nth_error (p_eqns p) i) as [q|] eqn:Eq; [|discriminate].
      destruct (F2_nth _ _ _ _ _ (mm_eqns _ _ _ _ _ M) Eq) as (q' & Eq' & Hq). rewrite Eq'. injection H as <-. eexists. split; [reflexivity|].
      apply mods_moved; [apply M|].
      destruct (terms_moved e e' t _ _ He (mq_terms _ _ _ _ _ _ Hq) _ _ _ _ smov_zero smov_zero) as [A B].
      destruct (fold_left (add_term e t) (q_terms q) (repeat C0 n, repeat C0 n)) as [a b]. destruct (fold_left (add_term e' t) (q_terms q') (repeat C0 n, repeat C0 n)) as [a' b'].
      apply sources_moved; [apply Hq|exact A|exact B].
    Qed.
    Lemma get_denum_moved e e' i t r : get_denum p e i t n = Some r -> exists r', get_denum p' e' i t n = Some r' /\ cmov r r'.
    Proof.
      intros H. unfold get_denum in *. destruct (nth_error (p_eqns p) i) as [q|] eqn:Eq; [|discriminate].
      destruct (F2_nth _ _ _ _ _ (mm_eqns _ _ _ _ _ M) Eq) as (q' & Eq' & Hq). rewrite Eq'. injection H as <-. eexists. split; [reflexivity|].
      apply denum_moved; [apply Hq|apply cmov_zero|apply cmov_zero].
    Qed.

    Lemma euler_fields_moved t : forall todo i e e' e1, emov e e' -> euler_fields p ft filt dt t todo i e = Some e1 ->
      exists e1', euler_fields p' ft filt dt t todo i e' = Some e1' /\ emov e1 e1'.
    Proof.
      induction todo as [|todo IH]; intros i e e' e1 He H; cbn [euler_fields] in *; [injection H as <-; eauto|].
      destruct (nth_error (e_fields e) i) as [d|] eqn:Ed; [|discriminate].
      destruct (F2_nth _ _ _ _ _ (proj1 (proj2 He)) Ed) as (d' & Ed' & Hd). rewrite Ed'. rewrite (proj1 Hd) in H. rewrite (proj1 (proj2 Hd)).
      destruct (get_rhs p e i t (nodes dom)) as [r|] eqn:Er; [|discriminate].
      destruct (get_denum p e i t (nodes dom)) as [a|] eqn:Ea; [|discriminate].
      destruct (rhs_moved e e' i t r He Er) as (r' & Er' & Hr). destruct (get_denum_moved e e' i t a Ea) as (a' & Ea' & Ha).
      fold n. rewrite Er', Ea'. apply (IH _ _ _ _) with (2 := H).
      destruct He as ([S1 S2] & H1 & H2). split; [|split; [|exact H2]].
      - split; [unfold set_field; cbn [e_fields]; rewrite set_nth_length; exact S1|exact S2].
      - unfold set_field. cbn [e_fields]. apply F2_set; [exact H1|]. apply smov_filter, smov_semi; assumption.
    Qed.

    (** environments in real space *)
    Definition rsized (e : env) : Prop := sized nf nd e.
    Lemma firstn_F2_set {A B} (P : A -> B -> Prop) : forall l l' i x y, (i < length l)%nat -> (i < length l')%nat -> Forall2 P (firstn i l) (firstn i l') -> P x y ->
      Forall2 P (firstn (S i) (set_nth i x l)) (firstn (S i) (set_nth i y l')).
    Proof. intros l l' i x y H1 H2 H Hxy. rewrite !firstn_set_nth by assumption. apply Forall2_app; [exact H|]. constructor; [exact Hxy|constructor]. Qed.
    Lemma sync_from_moved : forall calcs calcs' i e e', length calcs' = length calcs ->
      (forall k c, nth_error calcs k = Some c -> nth_error (p_calc p) (i + k) = Some c) ->
      (forall k c, nth_error calcs' k = Some c -> nth_error (p_calc p') (i + k) = Some c) ->
      Forall2 (moved dom g) (e_fields e) (e_fields e') -> Forall2 (moved dom g) (firstn i (e_derived e)) (firstn i (e_derived e')) ->
      sized nf nd e -> sized nf nd e' -> nd = (i + length calcs)%nat ->
      Forall2 (moved dom g) (e_derived (sync_from i calcs e)) (e_derived (sync_from i calcs' e')).
    Proof.
      induction calcs as [|c calcs IH]; intros [|c' calcs'] i e e' HL Hc Hc' He Hd HS HS' Hi; cbn [length] in HL; try discriminate; cbn [sync_from length] in *.
      - rewrite Nat.add_0_r in Hi. destruct HS as [_ S2], HS' as [_ S2'].
        rewrite <- (firstn_all (e_derived e)), S2, <- (firstn_all (e_derived e')), S2', Hi. exact Hd.
      - assert (Hn : moved dom g (c e) (c' e')).
        { specialize (Hc 0%nat c eq_refl). specialize (Hc' 0%nat c' eq_refl). rewrite Nat.add_0_r in Hc, Hc'. exact (mm_calc _ _ _ _ _ M i c c' Hc Hc' e e' HS HS' He Hd). }
        destruct HS as [S1 S2], HS' as [S1' S2']. apply IH.
        + lia.
        + intros k x Hk. replace (S i + k)%nat with (i + S k)%nat by lia. apply Hc. exact Hk.
        + intros k x Hk. replace (S i + k)%nat with (i + S k)%nat by lia. apply Hc'. exact Hk.
        + exact He.
        + unfold set_derived. cbn [e_derived]. apply firstn_F2_set; try assumption; lia.
        + split; [exact S1|]. unfold set_derived. cbn [e_derived]. rewrite set_nth_length. exact S2.
        + split; [exact S1'|]. unfold set_derived. cbn [e_derived]. rewrite set_nth_length. exact S2'.
        + lia.
    Qed.
    Lemma spectrum_moved e e' : Forall2 (moved dom g) (e_fields e) (e_fields e') -> sized nf nd e -> sized nf nd e' ->
      emov {| e_fields := map (fft ft) (e_fields (sync p e)); e_derived := map (fft ft) (e_derived (sync p e)) |}
           {| e_fields := map (fft ft) (e_fields (sync p' e')); e_derived := map (fft ft) (e_derived (sync p' e')) |}.
    Proof.
      intros H HS HS'. assert (Hf : forall x y, moved dom g x y -> smov (fft ft x) (fft ft y)).
      { intros x y Hxy. apply (smov_fft dom _ tau w Hv Sy), mv_iff, Hxy. }
      split; [exact (sync_sized dom nf p e HS)|]. split; cbn [e_fields e_derived].
      - rewrite !sync_fields. exact (F2_map _ _ _ _ _ _ Hf H).
      - apply (F2_map _ _ _ _ _ _ Hf). unfold sync. apply sync_from_moved; try assumption; try (intros k c Hk; exact Hk); [apply M|constructor|unfold nd; lia].
    Qed.
    Lemma back_moved fs fs' : F2 fs fs' -> Forall2 (moved dom g) (map (to_real ft) fs) (map (to_real ft) fs').
    Proof. apply F2_map. intros X Y H. apply mv_iff, (rmov_to_real dom _ tau w Hv Sy), H. Qed.

    Theorem euler_moved t e e' e1 : Forall2 (moved dom g) (e_fields e) (e_fields e') -> sized nf nd e -> sized nf nd e' ->
      euler_step p ft filt dt t e = Some e1 ->
      exists e1', euler_step p' ft filt dt t e' = Some e1' /\ Forall2 (moved dom g) (e_fields e1) (e_fields e1') /\ sized nf nd e1 /\ sized nf nd e1'.
    Proof.
      intros H HS HS' E. unfold euler_step in *. cbv zeta in *.
      destruct (euler_fields p ft filt dt t _ 0 _) as [e3|] eqn:E3; [|discriminate]. injection E as <-.
      destruct (euler_fields_moved t _ 0 _ _ _ (spectrum_moved e e' H HS HS') E3) as (e3' & E3' & S3 & H1 & H2).
      rewrite <- (F2_len _ _ _ H). rewrite E3'. eexists. split; [reflexivity|]. cbn [e_fields e_derived]. split; [apply back_moved, H1|].
      destruct S3 as [S1 S2]. pose proof (F2_len _ _ _ H1) as L1. pose proof (F2_len _ _ _ H2) as L2.
      split; (split; cbn [e_fields e_derived]; rewrite ?map_length; congruence).
    Qed.
    Theorem euler_propagate_moved : forall nsteps step e e' e1 step1, Forall2 (moved dom g) (e_fields e) (e_fields e') -> sized nf nd e -> sized nf nd e' ->
      euler_propagate p ft filt dt nsteps step e = Some (e1, step1) ->
      exists e1', euler_propagate p' ft filt dt nsteps step e' = Some (e1', step1) /\ Forall2 (moved dom g) (e_fields e1) (e_fields e1').
    Proof.
      induction nsteps as [|k IH]; intros step e e' e1 step1 H HS HS' E; cbn [euler_propagate] in *; [injection E as <- <-; eauto|].
      destruct (euler_step p ft filt dt (time_of dt step) e) as [e2|] eqn:E2; [|discriminate].
      destruct (euler_moved _ e e' e2 H HS HS' E2) as (e2' & E2' & H2 & S2 & S2'). rewrite E2'. exact (IH _ _ _ _ _ H2 S2 S2' E).
    Qed.
  End Model.
End Motion.
