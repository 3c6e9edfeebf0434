From Verif Require Import RealSpec RealProofs DftProofs IndexProofs StepProofs EnergyProofs3 CVec Complex.
From Coq Require Import Lra Lia Qreals.
Open Scope R_scope.

Section Denominators.
  Variables (dom : list Z) (p : pde).
  Hypothesis Hv : valid_domain dom.
  Hypothesis HD : forall q f e t tmp, In q (p_eqns p) -> In f (q_denum q) -> length tmp = nodes dom -> hermitian dom tmp ->
    length (f e t tmp) = nodes dom /\ hermitian dom (f e t tmp).
  Let n := nodes dom.

  Lemma herm_denum_any e i t r : get_denum p e i t n = Some r -> herm dom r.
  Proof.
    intros H. unfold get_denum in H. destruct (nth_error (p_eqns p) i) as [q|] eqn:Eq; [|discriminate]. injection H as <-.
    apply nth_error_In in Eq.
    assert (G : forall fs, (forall f, In f fs -> In f (q_denum q)) -> forall st, herm dom (fst st) -> herm dom (snd st) ->
      herm dom (fst (fold_left (add_term e t) fs st))).
    { induction fs as [|f fs IH]; intros HF st H1 H2; cbn [fold_left]; [exact H1|].
      assert (T : herm dom (f e t (snd st))). { destruct H2 as [L2 H2]. exact (HD q f e t (snd st) Eq (HF f (or_introl eq_refl)) L2 H2). }
      apply IH; [intros g Hg; apply HF; right; exact Hg| |]; unfold add_term; cbn [fst snd]; [apply herm_vadd; assumption|exact T]. }
    apply G; [auto| |]; apply herm_zero; exact Hv.
  Qed.
End Denominators.

Section RealRK4.
  Variables (dom : list Z) (nf : nat) (p : pde) (filt : option (R -> R)) (dt : R).
  Hypothesis Hv : valid_domain dom.
  Hypothesis Hs : square_layout dom.
  Hypothesis M : real_parts dom nf p.
  Hypothesis HD : forall e i t r, get_denum p e i t (nodes dom) = Some r -> herm dom r.
  Let n := nodes dom.
  Let ft := fftw_transform dom.

  Lemma rhs_all_herm e t : herm_env dom nf p e -> forall fs i ks, hermitian_fields dom fs -> rhs_all p e t i fs = Some ks -> hermitian_fields dom ks.
  Proof.
    intros He. induction fs as [|d fs IH]; intros i ks Hf H; cbn [rhs_all] in H; [injection H as <-; constructor|].
    inversion Hf as [|? ? [Ld _] Hf']; subst. rewrite Ld in H.
    destruct (get_rhs p e i t (nodes dom)) as [r|] eqn:Er; [|discriminate].
    destruct (rhs_all p e t (S i) fs) as [rs|] eqn:Es; [|discriminate]. injection H as <-.
    constructor; [exact (rp_rhs dom nf p M e i t r He Er)|]. eapply IH; eauto.
  Qed.

  Lemma accumulate_herm h : forall f k, hermitian_fields dom f -> hermitian_fields dom k -> hermitian_fields dom (accumulate h f k).
  Proof.
    unfold accumulate. induction f as [|y f IH]; intros [|z k] Hf Hk; cbn [map2]; try constructor.
    - inversion Hf; inversion Hk; subst. apply (herm_map2 dom Hv (fun y k => Cadd y (Cmul (RtoC h) k))); try assumption.
      intros a b. rewrite Cconj_add, Cconj_mul, Cconj_RtoC. reflexivity.
    - inversion Hf; inversion Hk; subst. apply IH; assumption.
  Qed.

  Lemma skipn_cons_nth {A} i (x : A) l : nth_error l i = Some x -> skipn i l = x :: skipn (S i) l.
  Proof. revert l. induction i as [|i IH]; intros [|y l] H; cbn in H; try discriminate; [injection H as ->; reflexivity|]. cbn [skipn]. rewrite (IH l H). reflexivity. Qed.

  Lemma stage_real h t k : hermitian_fields dom k -> forall todo i e e', (i + todo = length (e_fields e))%nat ->
    real_fields dom (firstn i (e_fields e)) -> hermitian_fields dom (skipn i (e_fields e)) ->
    stage_fields p ft h t todo i k e = Some e' -> real_fields dom (e_fields e') /\ e_derived e' = e_derived e /\ length (e_fields e') = length (e_fields e).
  Proof.
    intros Hk. induction todo as [|todo IH]; intros i e e' Hi H1 H2 H; cbn [stage_fields] in H.
    - injection H as <-. rewrite Nat.add_0_r in Hi. rewrite Hi, firstn_all in H1. split; [exact H1|split; reflexivity].
    - destruct (nth_error (e_fields e) i) as [d|] eqn:Ed; [|discriminate].
      destruct (nth_error k i) as [ki|] eqn:Ek; [|discriminate].
      assert (Hlt : (i < length (e_fields e))%nat) by lia.
      rewrite (skipn_cons_nth _ _ _ Ed) in H2. inversion H2 as [|? ? [Ld Hd] H2']; subst.
      rewrite Ld in H. destruct (get_denum p e i t (nodes dom)) as [a|] eqn:Ea; [|discriminate].
      apply IH in H; unfold set_field in *; cbn [e_fields e_derived] in *.
      + rewrite set_nth_length in H. exact H.
      + rewrite set_nth_length. lia.
      + rewrite (firstn_set_nth i _ (e_fields e) Hlt). apply Forall_app. split; [exact H1|]. constructor; [|constructor].
        apply (realf_to_real dom Hv Hs). apply (herm_semi dom Hv); [split; assumption|exact (Forall_nth_error _ _ _ _ Hk Ek)|exact (HD e i t a Ea)].
      + rewrite skipn_set_nth by lia. exact H2'.
  Qed.

  Lemma correction_herm h t k e e' k' : hermitian_fields dom (e_fields e) -> hermitian_fields dom k -> sized nf (length (p_calc p)) e ->
    correction p ft h t k e = Some (e', k') -> herm_env dom nf p e' /\ hermitian_fields dom k'.
  Proof.
    intros Hf Hk HL H. unfold correction in H. destruct (stage_fields p ft h t _ 0 k e) as [e1|] eqn:E1; [|discriminate].
    destruct (stage_real h t k Hk _ 0%nat e e1 eq_refl ltac:(constructor) Hf E1) as (R1 & D1 & F1).
    assert (L1 : sized nf (length (p_calc p)) e1) by (destruct HL as [S1 S2]; split; congruence).
    pose proof (real_spectrum dom nf p Hv Hs M e1 R1 L1) as HE. cbv zeta in H.
    destruct (rhs_all p _ t 0 _) as [k2|] eqn:E2; [|discriminate]. injection H as <- <-.
    split; [exact HE|]. exact (rhs_all_herm _ t HE _ _ _ (proj1 (proj2 HE)) E2).
  Qed.

  Lemma finish_herm t final : hermitian_fields dom final -> forall todo i e e', hermitian_fields dom (e_fields e) ->
    finish_fields p ft filt dt t todo i final e = Some e' -> hermitian_fields dom (e_fields e').
  Proof.
    intros Hf. induction todo as [|todo IH]; intros i e e' He H; cbn [finish_fields] in H; [injection H as <-; exact He|].
    destruct (nth_error (e_fields e) i) as [d|] eqn:Ed; [|discriminate].
    destruct (nth_error final i) as [fi|] eqn:Ef; [|discriminate].
    destruct (Forall_nth_error _ _ _ _ He Ed) as [Ld Hd]. rewrite Ld in H.
    destruct (get_denum p e i t (nodes dom)) as [a|] eqn:Ea; [|discriminate].
    apply IH in H; [exact H|]. unfold set_field. cbn [e_fields]. apply Forall_set_nth; [exact He|].
    apply (herm_filter dom filt Hv). apply (herm_map2 dom Hv (fun y a => Cdiv y (Csub C1 (Cmul (RtoC dt) a)))).
    - intros x y. rewrite Cconj_div, Cconj_sub, Cconj_mul, Cconj_RtoC. f_equal. f_equal. csolve.
    - exact (Forall_nth_error _ _ _ _ Hf Ef).
    - exact (HD e i t a Ea).
  Qed.

  Lemma finish_count t final : forall todo i e e', finish_fields p ft filt dt t todo i final e = Some e' -> length (e_fields e') = length (e_fields e).
  Proof.
    induction todo as [|todo IH]; intros i e e' H; cbn [finish_fields] in H; [injection H as <-; reflexivity|].
    destruct (nth_error (e_fields e) i) as [d|]; [|discriminate]. destruct (nth_error final i) as [fi|]; [|discriminate].
    destruct (get_denum p e i t (length d)) as [a|]; [|discriminate]. apply IH in H. rewrite H. unfold set_field. cbn [e_fields]. apply set_nth_length.
  Qed.

  Theorem rk4_real t e e' : real_fields dom (e_fields e) -> sized nf (length (p_calc p)) e ->
    rk4_step p ft filt dt t e = Some e' -> real_fields dom (e_fields e') /\ sized nf (length (p_calc p)) e'.
  Proof.
    intros He HL H. unfold rk4_step in H. cbv zeta in H.
    pose proof (real_spectrum dom nf p Hv Hs M e He HL) as HE. fold ft in HE.
    set (init := map (fft ft) (e_fields (sync p e))) in *. set (e2 := {| e_fields := init; e_derived := map (fft ft) (e_derived (sync p e)) |}) in *.
    destruct HE as (S2 & HI & HD2). cbn [e_fields e2] in HI. destruct S2 as [SF SD]. cbn [e_fields e_derived e2] in SF, SD.
    assert (SZ : forall x, length (e_derived x) = length (p_calc p) -> sized nf (length (p_calc p)) (with_fields x init)) by (intros x Hx; split; [exact SF|exact Hx]).
    destruct (rhs_all p e2 t 0 init) as [k1|] eqn:E1; [|discriminate].
    pose proof (rhs_all_herm e2 t (conj (conj SF SD) (conj HI HD2)) init _ _ HI E1) as K1.
    destruct (correction p ft (1 / 2 * dt) t k1 (with_fields e2 init)) as [[e3 k2]|] eqn:E2; [|discriminate].
    destruct (correction_herm _ t k1 (with_fields e2 init) e3 k2 HI K1 (SZ e2 SD) E2) as (H3 & K2).
    destruct (correction p ft (1 / 2 * dt) t k2 (with_fields e3 init)) as [[e4 k3]|] eqn:E3; [|discriminate].
    destruct (correction_herm _ t k2 (with_fields e3 init) e4 k3 HI K2 (SZ e3 (proj2 (proj1 H3))) E3) as (H4 & K3).
    destruct (correction p ft (1 * dt) t k3 (with_fields e4 init)) as [[e5 k4]|] eqn:E4; [|discriminate].
    destruct (correction_herm _ t k3 (with_fields e4 init) e5 k4 HI K3 (SZ e4 (proj2 (proj1 H4))) E4) as (H5 & K4).
    destruct (finish_fields _ _ _ _ _ _ _ _ _) as [e6|] eqn:E5; [|discriminate]. injection H as <-. cbn [e_fields e_derived].
    split.
    - apply fields_to_real; try assumption. refine (finish_herm t _ _ _ _ (with_fields e5 init) e6 HI E5). repeat apply accumulate_herm; assumption.
    - split; cbn [e_fields e_derived].
      + rewrite map_length. rewrite (finish_count _ _ _ _ _ _ E5). exact SF.
      + apply finish_fields_derived in E5. rewrite E5. exact (proj2 (proj1 H5)).
  Qed.

  Theorem rk4_propagate_real : forall nsteps step e e' step', real_fields dom (e_fields e) -> sized nf (length (p_calc p)) e ->
    rk4_propagate p ft filt dt nsteps step e = Some (e', step') -> real_fields dom (e_fields e').
  Proof.
    induction nsteps as [|k IH]; intros step e e' step' He HL H; cbn [rk4_propagate] in H; [injection H as <- _; exact He|].
    destruct (rk4_step p ft filt dt (time_of dt step) e) as [e1|] eqn:E; [|discriminate].
    destruct (rk4_real _ _ _ He HL E) as [H1 L1]. eapply IH; eauto.
  Qed.
End RealRK4.
