(** RK4 commutes with motions. *)
From Verif Require Import SymmetrySpec SymmetryProofs SymmetryProofs2 SymmetryProofs3 DftProofs IndexProofs RealProofs RealProofs2 StepProofs EnergyProofs3 Vec CVec Complex.
From Coq Require Import Lra Lia Qreals.
Open Scope R_scope.

Section MotionRK4.
  Variables (dom : list Z) (g : list Z -> list Z) (tau : nat -> nat) (w : nat -> R).
  Hypothesis Hv : valid_domain dom.
  Hypothesis Mo : motion dom g.
  Hypothesis Sy : node_symmetry dom (node_map dom g) tau w.
  Let n := nodes dom.
  Let ft := fftw_transform dom.
  Notation smov := (smov dom tau w).
  Notation cmov := (cmov dom tau).
  Variables (nf : nat) (p p' : pde) (filt : option (R -> R)) (dt : R).
  Hypothesis M : moved_model dom g nf p p'.
  Let nd := length (p_calc p).
  Let F2 := Forall2 smov.
  Notation emov := (emov dom tau w nf p).

  Lemma smov_len X Y : smov X Y -> length X = nodes dom /\ length Y = nodes dom.
  Proof. intros (A & B & _). split; assumption. Qed.

  Lemma rhs_all_moved e e' t : emov e e' -> forall fs fs' i ks, F2 fs fs' -> rhs_all p e t i fs = Some ks ->
    exists ks', rhs_all p' e' t i fs' = Some ks' /\ F2 ks ks'.
  Proof.
    intros He. induction fs as [|d fs IH]; intros fs' i ks Hf H; inversion Hf as [|? d' ? fs1 Hd Hf1]; subst; cbn [rhs_all] in *.
    - injection H as <-. exists []. split; [reflexivity|constructor].
    - destruct (smov_len _ _ Hd) as [L1 L2]. rewrite L1 in H. rewrite L2.
      destruct (get_rhs p e i t (nodes dom)) as [r|] eqn:Er; [|discriminate].
      destruct (rhs_all p e t (S i) fs) as [rs|] eqn:Es; [|discriminate]. injection H as <-.
      destruct (rhs_moved dom g tau w Hv Mo Sy nf p p' M e e' i t r He Er) as (r' & Er' & Hr). rewrite Er'.
      destruct (IH fs1 (S i) rs Hf1 Es) as (rs' & Es' & Hrs). rewrite Es'. eexists. split; [reflexivity|]. constructor; assumption.
  Qed.
  Lemma smov_axpy h y y' k k' : smov y y' -> smov k k' -> smov (map2 (fun y k => Cadd y (Cmul (RtoC h) k)) y k) (map2 (fun y k => Cadd y (Cmul (RtoC h) k)) y' k').
  Proof.
    intros (L1 & L1' & H1) (L3 & L3' & H3). split; [apply StepProofs.map2_length; assumption|]. split; [apply StepProofs.map2_length; assumption|]. intros j Hj.
    pose proof (sy_frange _ _ _ _ Sy j Hj) as Ht. rewrite !nth_map2 by (rewrite ?L1, ?L1', ?L3, ?L3'; first [reflexivity|assumption]).
    rewrite (H1 j Hj), (H3 j Hj). ring.
  Qed.
  Lemma accumulate_moved h : forall f f' k k', F2 f f' -> F2 k k' -> F2 (accumulate h f k) (accumulate h f' k').
  Proof.
    unfold accumulate. intros f f' k k' Hf. revert k k'. induction Hf as [|y y' f f' Hy Hf IH]; intros k k' Hk; [constructor|].
    destruct Hk as [|z z' k k' Hz Hk]; cbn [map2]; constructor; [apply smov_axpy; assumption|apply IH; assumption].
  Qed.
  Lemma skipn_set {A} (l : list A) i x : skipn (S i) (set_nth i x l) = skipn (S i) l.
  Proof. revert l. induction i as [|i IH]; intros [|a l]; cbn [set_nth]; try reflexivity. cbn [skipn]. apply IH. Qed.
  Lemma skipn_F2_set {A B} (P : A -> B -> Prop) l l' i x y : Forall2 P (skipn (S i) l) (skipn (S i) l') ->
    Forall2 P (skipn (S i) (set_nth i x l)) (skipn (S i) (set_nth i y l')).
  Proof. intros H. rewrite !skipn_set. exact H. Qed.
  Lemma skipn_cons {A} i (l : list A) x : nth_error l i = Some x -> skipn i l = x :: skipn (S i) l.
  Proof. revert l. induction i as [|i IH]; intros [|y l] H; cbn in H; try discriminate; [injection H as ->; reflexivity|]. cbn [skipn]. rewrite (IH l H). reflexivity. Qed.
  Lemma F2_nth_skipn {A B} (P : A -> B -> Prop) l l' i x : Forall2 P (skipn i l) (skipn i l') -> nth_error l i = Some x ->
    exists y, nth_error l' i = Some y /\ P x y /\ Forall2 P (skipn (S i) l) (skipn (S i) l').
  Proof.
    intros H E. rewrite (skipn_cons i l x E) in H. destruct (nth_error l' i) as [y|] eqn:E'.
    - rewrite (skipn_cons i l' y E') in H. inversion H; subst. eauto.
    - apply nth_error_None in E'. rewrite (skipn_all2 l' E') in H. inversion H.
  Qed.

  Lemma stage_moved h t k k' : F2 k k' -> forall todo i e e' e1, (i + todo = length (e_fields e))%nat -> length (e_fields e') = length (e_fields e) ->
    Forall2 (moved dom g) (firstn i (e_fields e)) (firstn i (e_fields e')) -> F2 (skipn i (e_fields e)) (skipn i (e_fields e')) ->
    stage_fields p ft h t todo i k e = Some e1 ->
    exists e1', stage_fields p' ft h t todo i k' e' = Some e1' /\ Forall2 (moved dom g) (e_fields e1) (e_fields e1') /\
      e_derived e1 = e_derived e /\ e_derived e1' = e_derived e' /\ length (e_fields e1) = length (e_fields e) /\ length (e_fields e1') = length (e_fields e).
  Proof.
    intros Hk. induction todo as [|todo IH]; intros i e e' e1 Hi HL H1 H2 H; cbn [stage_fields] in *.
    - injection H as <-. exists e'. rewrite Nat.add_0_r in Hi. rewrite Hi, firstn_all, <- HL, firstn_all in H1.
      split; [reflexivity|]. split; [exact H1|]. repeat split; assumption.
    - destruct (nth_error (e_fields e) i) as [d|] eqn:Ed; [|discriminate]. destruct (nth_error k i) as [ki|] eqn:Ek; [|discriminate].
      destruct (F2_nth_skipn _ _ _ _ _ H2 Ed) as (d' & Ed' & Hd & H2'). destruct (F2_nth smov k k' i ki Hk Ek) as (ki' & Ek' & Hki).
      rewrite Ed', Ek'. destruct (smov_len _ _ Hd) as [L1 L2]. rewrite L1 in H. rewrite L2.
      destruct (get_denum p e i t (nodes dom)) as [a|] eqn:Ea; [|discriminate].
      destruct (get_denum_moved dom g tau w Hv Mo Sy nf p p' M e e' i t a Ea) as (a' & Ea' & Ha). rewrite Ea'.
      apply (IH (S i) _ (set_field e' i (to_real ft (map3 (semi_implicit h) d' ki' a')))) in H; unfold set_field in *; cbn [e_fields e_derived] in *.
      + rewrite !set_nth_length in H. exact H.
      + rewrite set_nth_length. lia.
      + rewrite !set_nth_length. exact HL.
      + apply firstn_F2_set; try lia; [exact H1|]. apply (mv_iff dom g Hv Mo).
        apply (rmov_to_real dom _ tau w Hv Sy). exact (smov_semi dom g tau w Sy h d d' ki ki' a a' Hd Hki Ha).
      + apply skipn_F2_set. exact H2'.
  Qed.

  Lemma correction_moved h t k k' e e' e1 k1 : F2 k k' -> F2 (e_fields e) (e_fields e') -> sized nf nd e -> sized nf nd e' ->
    correction p ft h t k e = Some (e1, k1) ->
    exists e1' k1', correction p' ft h t k' e' = Some (e1', k1') /\ emov e1 e1' /\ F2 k1 k1'.
  Proof.
    intros Hk Hf HS HS' H. unfold correction in *. cbv zeta in *.
    destruct (stage_fields p ft h t (length (e_fields e)) 0 k e) as [e2|] eqn:E2; [|discriminate].
    pose proof (F2_len _ _ _ Hf) as HL.
    destruct (stage_moved h t k k' Hk _ 0%nat e e' e2 eq_refl (eq_sym HL) ltac:(constructor) Hf E2) as (e2' & E2' & R2 & D2 & D2' & L2 & L2').
    rewrite <- HL, E2'. destruct HS as [S1 S2], HS' as [S1' S2'].
    assert (HE : emov {| e_fields := map (fft ft) (e_fields (sync p e2)); e_derived := map (fft ft) (e_derived (sync p e2)) |}
                      {| e_fields := map (fft ft) (e_fields (sync p' e2')); e_derived := map (fft ft) (e_derived (sync p' e2')) |}).
    { apply (spectrum_moved dom g tau w Hv Mo Sy nf p p' M e2 e2' R2); split; fold nd; congruence. }
    destruct (rhs_all p _ t 0 _) as [ks|] eqn:Ek; [|discriminate]. injection H as <- <-.
    destruct (rhs_all_moved _ _ t HE _ _ 0%nat ks (proj1 (proj2 HE)) Ek) as (ks' & Ek' & Hks). rewrite Ek'. eexists _, _. split; [reflexivity|]. split; assumption.
  Qed.
  Lemma finish_moved t : forall todo i final final' e e' e1, F2 final final' -> F2 (e_fields e) (e_fields e') ->
    finish_fields p ft filt dt t todo i final e = Some e1 ->
    exists e1', finish_fields p' ft filt dt t todo i final' e' = Some e1' /\ F2 (e_fields e1) (e_fields e1') /\ e_derived e1 = e_derived e /\ e_derived e1' = e_derived e'
      /\ length (e_fields e1) = length (e_fields e).
  Proof.
    induction todo as [|todo IH]; intros i final final' e e' e1 Hf He H; cbn [finish_fields] in *; [injection H as <-; eauto 10|].
    destruct (nth_error (e_fields e) i) as [d|] eqn:Ed; [|discriminate]. destruct (nth_error final i) as [fi|] eqn:Ef; [|discriminate].
    destruct (F2_nth _ _ _ _ _ He Ed) as (d' & Ed' & Hd). destruct (F2_nth _ _ _ _ _ Hf Ef) as (fi' & Ef' & Hfi). rewrite Ed', Ef'.
    destruct (smov_len _ _ Hd) as [L1 L2]. rewrite L1 in H. rewrite L2.
    destruct (get_denum p e i t (nodes dom)) as [a|] eqn:Ea; [|discriminate].
    destruct (get_denum_moved dom g tau w Hv Mo Sy nf p p' M e e' i t a Ea) as (a' & Ea' & Ha). rewrite Ea'.
    apply (IH (S i) final final' _ (set_field e' i (apply_filter filt ft (map2 (fun y a => Cdiv y (Csub C1 (Cmul (RtoC dt) a))) fi' a')))) in H; [|exact Hf|].
    - unfold set_field in H. cbn [e_fields e_derived] in H. rewrite set_nth_length in H. exact H.
    - unfold set_field. cbn [e_fields]. apply F2_set; [exact He|]. apply (smov_filter dom g tau w Sy). exact (smov_finish dom g tau w Sy dt fi fi' a a' Hfi Ha).
  Qed.

  Theorem rk4_moved t e e' e1 : Forall2 (moved dom g) (e_fields e) (e_fields e') -> sized nf nd e -> sized nf nd e' ->
    rk4_step p ft filt dt t e = Some e1 ->
    exists e1', rk4_step p' ft filt dt t e' = Some e1' /\ Forall2 (moved dom g) (e_fields e1) (e_fields e1') /\ sized nf nd e1 /\ sized nf nd e1'.
  Proof.
    intros H HS HS' E. unfold rk4_step in *. cbv zeta in *.
    pose proof (spectrum_moved dom g tau w Hv Mo Sy nf p p' M e e' H HS HS') as HE. fold ft in HE.
    set (init := map (fft ft) (e_fields (sync p e))) in *. set (init' := map (fft ft) (e_fields (sync p' e'))) in *.
    set (e2 := {| e_fields := init; e_derived := map (fft ft) (e_derived (sync p e)) |}) in *.
    set (e2' := {| e_fields := init'; e_derived := map (fft ft) (e_derived (sync p' e')) |}) in *.
    destruct HE as (S2 & HI & HD). pose proof (conj S2 (conj HI HD) : emov e2 e2') as HE. cbn [e_fields e2 e2'] in HI.
    assert (SZ : forall x x', emov x x' -> sized nf nd (with_fields x init) /\ sized nf nd (with_fields x' init')).
    { intros x x' ([A1 A2] & A3 & A4). pose proof (F2_len _ _ _ A4) as LA. pose proof (F2_len _ _ _ HI) as LI. destruct S2 as [S21 _]. cbn [e_fields e2] in S21.
      split; split; cbn [with_fields e_fields e_derived]; fold nd in A2 |- *; congruence. }
    destruct (rhs_all p e2 t 0 init) as [k1|] eqn:E1; [|discriminate].
    destruct (rhs_all_moved e2 e2' t HE init init' 0%nat k1 HI E1) as (k1' & E1' & K1). rewrite E1'.
    destruct (correction p ft (1 / 2 * dt) t k1 (with_fields e2 init)) as [[e3 k2]|] eqn:E2; [|discriminate].
    destruct (correction_moved _ t k1 k1' (with_fields e2 init) (with_fields e2' init') e3 k2 K1 HI (proj1 (SZ _ _ HE)) (proj2 (SZ _ _ HE)) E2) as (e3' & k2' & E2' & H3 & K2). rewrite E2'.
    destruct (correction p ft (1 / 2 * dt) t k2 (with_fields e3 init)) as [[e4 k3]|] eqn:E3; [|discriminate].
    destruct (correction_moved _ t k2 k2' (with_fields e3 init) (with_fields e3' init') e4 k3 K2 HI (proj1 (SZ _ _ H3)) (proj2 (SZ _ _ H3)) E3) as (e4' & k3' & E3' & H4 & K3). rewrite E3'.
    destruct (correction p ft (1 * dt) t k3 (with_fields e4 init)) as [[e5 k4]|] eqn:E4; [|discriminate].
    destruct (correction_moved _ t k3 k3' (with_fields e4 init) (with_fields e4' init') e5 k4 K3 HI (proj1 (SZ _ _ H4)) (proj2 (SZ _ _ H4)) E4) as (e5' & k4' & E4' & H5 & K4). rewrite E4'.
    destruct (finish_fields p ft filt dt t (length init) 0 _ (with_fields e5 init)) as [e6|] eqn:E5; [|discriminate]. injection E as <-.
    assert (HF : F2 (accumulate (1 / 6 * dt) (accumulate (1 / 3 * dt) (accumulate (1 / 3 * dt) (accumulate (1 / 6 * dt) init k1) k2) k3) k4)
                    (accumulate (1 / 6 * dt) (accumulate (1 / 3 * dt) (accumulate (1 / 3 * dt) (accumulate (1 / 6 * dt) init' k1') k2') k3') k4'))
      by (repeat apply accumulate_moved; assumption).
    destruct (finish_moved t _ 0%nat _ _ (with_fields e5 init) (with_fields e5' init') e6 HF HI E5) as (e6' & E5' & H6 & D6 & D6' & L6).
    rewrite <- (F2_len _ _ _ HI). rewrite E5'. eexists. split; [reflexivity|]. cbn [e_fields e_derived].
    split; [exact (back_moved dom g tau w Hv Mo Sy _ _ H6)|]. destruct (SZ _ _ H5) as [[A1 A2] [B1 B2]]. pose proof (F2_len _ _ _ H6) as L6'.
    split; split; cbn [e_fields e_derived]; rewrite ?map_length; congruence.
  Qed.
  Theorem rk4_propagate_moved : forall nsteps step e e' e1 step1, Forall2 (moved dom g) (e_fields e) (e_fields e') -> sized nf nd e -> sized nf nd e' ->
    rk4_propagate p ft filt dt nsteps step e = Some (e1, step1) ->
    exists e1', rk4_propagate p' ft filt dt nsteps step e' = Some (e1', step1) /\ Forall2 (moved dom g) (e_fields e1) (e_fields e1').
  Proof.
    induction nsteps as [|k IH]; intros step e e' e1 step1 H HS HS' E; cbn [rk4_propagate] in *; [injection E as <- <-; eauto|].
    destruct (rk4_step p ft filt dt (time_of dt step) e) as [e2|] eqn:E2; [|discriminate].
    destruct (rk4_moved _ e e' e2 H HS HS' E2) as (e2' & E2' & H2 & S2 & S2'). rewrite E2'. exact (IH _ _ _ _ _ H2 S2 S2' E).
  Qed.
End MotionRK4.
