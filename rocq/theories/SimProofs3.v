From Verif Require Import ListAux StepProofs SimSpec SimProofs.
From Coq Require Import Lia Lra.
Open Scope nat_scope.

(** ** Steady states of a step, for any model *)
Lemma six : RtoC 6 = Cadd C1 (Cadd (RtoC 2) (Cadd (RtoC 2) C1)).
Proof. unfold RtoC, C1, Cadd, Re, Im. cbn [fst snd]. apply (f_equal2 pair); lra. Qed.
Lemma semi_fixed h y r a : h <> 0%R -> Csub C1 (Cmul (RtoC h) a) <> C0 ->
  (semi_implicit h y r a = y <-> Cadd r (Cmul a y) = C0).
Proof.
  intros Hh Ha. unfold semi_implicit. split; intros H.
  - assert (E : Cadd y (Cmul (RtoC h) r) = Cmul (Csub C1 (Cmul (RtoC h) a)) y) by (rewrite <- H at 2; field; exact Ha).
    assert (Hc : RtoC h <> C0) by (intros X; apply Hh; injection X as X; exact X).
    replace (Cadd r (Cmul a y)) with (Cmul (Cinv (RtoC h)) (Csub (Cadd y (Cmul (RtoC h) r)) (Cmul (Csub C1 (Cmul (RtoC h) a)) y))) by (field; exact Hc).
    rewrite E. ring.
  - assert (E : r = Copp (Cmul a y)) by (replace r with (Csub (Cadd r (Cmul a y)) (Cmul a y)) by ring; rewrite H; ring).
    rewrite E. field. exact Ha.
Qed.

Lemma nth_map3 (f : C -> C -> C -> C) x y z k n : length x = n -> length y = n -> length z = n -> k < n ->
  nth k (map3 f x y z) C0 = f (nth k x C0) (nth k y C0) (nth k z C0).
Proof.
  revert x y z k. induction n as [|n IH]; intros [|a x] [|b y] [|c z] k Hx Hy Hz Hk; try discriminate; [lia|].
  injection Hx as Hx. injection Hy as Hy. injection Hz as Hz. destruct k as [|k]; [reflexivity|]. cbn [map3 nth]. apply IH; try assumption. lia.
Qed.

Lemma stage_fixed h y r a n : h <> 0%R -> length y = n -> length r = n -> length a = n ->
  (forall k, k < n -> Csub C1 (Cmul (RtoC h) (nth k a C0)) <> C0) ->
  (map3 (semi_implicit h) y r a = y <-> forall k, k < n -> Cadd (nth k r C0) (Cmul (nth k a C0) (nth k y C0)) = C0).
Proof.
  intros Hh Ly Lr La Hs. split.
  - intros E k Hk. apply (semi_fixed h); [exact Hh|apply Hs, Hk|]. rewrite <- (nth_map3 (semi_implicit h) y r a k n) by assumption. rewrite E. reflexivity.
  - intros H. apply nth_ext with C0 C0; [rewrite (map3_length _ _ _ _ n) by assumption; symmetry; exact Ly|]. intros k Hk.
    rewrite (map3_length _ _ _ _ n) in Hk by assumption. rewrite (nth_map3 (semi_implicit h) y r a k n) by assumption. apply semi_fixed; [exact Hh|apply Hs, Hk|apply H, Hk].
Qed.

Section Steady.
  Variables (n : nat) (p : pde) (ft : transform) (dt t : R).
  Hypothesis GT : good_transform n ft.
  Hypothesis KL : keeps_length n p.
  Hypothesis Hdt : dt <> 0%R.
  Variable e : env.
  Hypothesis Hall : all_length n (e_fields e).
  Hypothesis Heqn : length (e_fields e) <= length (p_eqns p).
  Let E := spectrum p ft e.

  Lemma spectrum_length i y : nth_error (e_fields E) i = Some y -> length y = n.
  Proof.
    unfold E, spectrum. cbn [e_fields]. rewrite nth_error_map. destruct (nth_error (e_fields e) i) as [d|] eqn:Ed; [|discriminate].
    intros H. injection H as <-. apply (gt_fft_len n ft GT). unfold all_length in Hall. rewrite Forall_forall in Hall. apply Hall. eapply nth_error_In, Ed.
  Qed.
  Lemma to_real_spectrum : map (to_real ft) (e_fields E) = e_fields e.
  Proof.
    unfold E, spectrum. cbn [e_fields]. rewrite map_map. rewrite <- (map_id (e_fields e)) at 2. apply map_ext_in. intros x Hx.
    apply (gt_left n ft GT). unfold all_length in Hall. rewrite Forall_forall in Hall. apply Hall, Hx.
  Qed.

  Lemma euler_steady : solvable n p ft dt t e ->
    ((exists e', euler_step p ft None dt t e = Some e' /\ e_fields e' = e_fields e) <-> balanced n p ft t e).
  Proof.
    intros Hsol. destruct (euler_step_sequential p ft None dt t e Heqn) as (e' & Y' & Es & Ef & LY & HY). fold E in HY.
    assert (LE : length (e_fields E) = length (e_fields e)) by (unfold E, spectrum; cbn [e_fields]; apply map_length).
    assert (Hlen : forall i y, nth_error Y' i = Some y -> length y = n).
    { intros i y' Hy'. assert (i < length (e_fields E)) by (rewrite LE, <- LY; apply nth_error_Some; congruence).
      destruct (nth_error (e_fields E) i) as [y|] eqn:Ey; [|apply nth_error_None in Ey; lia].
      destruct (HY i y Ey) as (r & a & Hr & Ha & Hi). rewrite Hi in Hy'. injection Hy' as <-. cbn [apply_filter].
      rewrite (spectrum_length i y Ey) in Hr, Ha.
      apply map3_length; [exact (spectrum_length i y Ey)|exact (get_rhs_length n p _ i t r KL Hr)|exact (get_denum_length n p _ i t a KL Ha)]. }
    assert (Mix : forall i, firstn i Y' = firstn i (e_fields E) ->
      {| e_fields := firstn i Y' ++ skipn i (e_fields E); e_derived := e_derived E |} = E).
    { intros i H. rewrite H, firstn_skipn. unfold E, spectrum. reflexivity. }
    split.
    - intros (e'' & Es' & Hfix). rewrite Es in Es'. injection Es' as <-. rewrite Ef in Hfix.
      assert (EY : Y' = e_fields E).
      { transitivity (map (fft ft) (map (to_real ft) Y')).
        - rewrite map_map. rewrite <- (map_id Y') at 1. apply map_ext_in. intros x Hx. symmetry. apply (gt_inverse n ft GT).
          apply In_nth_error in Hx. destruct Hx as (i & Hi). exact (Hlen i x Hi).
        - rewrite Hfix. reflexivity. }
      intros i y r a Hy Hr Ha k Hk. destruct (HY i y Hy) as (r' & a' & Hr' & Ha' & Hi). fold E in Hy, Hr, Ha.
      rewrite Mix in Hr', Ha' by (rewrite EY; reflexivity). rewrite (spectrum_length i y Hy) in Hr', Ha'.
      rewrite Hr in Hr'. injection Hr' as <-. rewrite Ha in Ha'. injection Ha' as <-.
      rewrite EY, Hy in Hi. injection Hi as Hi. symmetry in Hi. cbn [apply_filter] in Hi.
      revert k Hk. apply (stage_fixed dt y r a n Hdt); [exact (spectrum_length i y Hy)|exact (get_rhs_length n p _ i t r KL Hr)|exact (get_denum_length n p _ i t a KL Ha)| |exact Hi].
      intros k Hk. exact (Hsol i a k Ha Hk).
    - intros HB. exists e'. split; [exact Es|]. rewrite Ef.
      assert (EY : forall i, i <= length Y' -> firstn i Y' = firstn i (e_fields E)).
      { induction i as [|i IH]; intros Hi; [reflexivity|]. specialize (IH ltac:(lia)).
        destruct (nth_error (e_fields E) i) as [y|] eqn:Ey; [|apply nth_error_None in Ey; lia].
        destruct (HY i y Ey) as (r & a & Hr & Ha & Hyi). rewrite (Mix i IH) in Hr, Ha. rewrite (spectrum_length i y Ey) in Hr, Ha.
        cbn [apply_filter] in Hyi. rewrite (proj2 (stage_fixed dt y r a n Hdt (spectrum_length i y Ey) (get_rhs_length n p _ i t r KL Hr)
          (get_denum_length n p _ i t a KL Ha) (fun k Hk => Hsol i a k Ha Hk))) in Hyi by (intros k Hk; exact (HB i y r a Ey Hr Ha k Hk)).
        apply nth_error_ext. intros j. destruct (Nat.lt_ge_cases j (S i)) as [Hj|Hj].
        - rewrite !nth_error_firstn_lt by exact Hj. destruct (Nat.eq_dec j i) as [->|Hne]; [congruence|].
          assert (Hj' : j < i) by lia. rewrite <- (nth_error_firstn_lt Y' i j Hj'), IH, nth_error_firstn_lt by exact Hj'. reflexivity.
        - rewrite (proj2 (nth_error_None _ _)) by (rewrite firstn_length; lia).
          rewrite (proj2 (nth_error_None _ _)) by (rewrite firstn_length; lia). reflexivity. }
      specialize (EY (length Y') ltac:(lia)). rewrite firstn_all in EY. rewrite LY, <- LE, firstn_all in EY. rewrite EY. apply to_real_spectrum.
  Qed.

  Hypothesis CD : constant_denum p.
  Hypothesis DF : derived_from_fields p.
  Hypothesis Hder : length (e_derived e) = length (p_calc p).

  Lemma at_own_amplitudes : at_amplitudes p ft (e_derived e) (e_fields E) = E.
  Proof.
    unfold at_amplitudes. rewrite to_real_spectrum. unfold E, spectrum. cbn [e_fields]. destruct e; reflexivity.
  Qed.

  Lemma rk4_steady : solvable n p ft dt t e -> solvable n p ft (dt / 2) t e -> balanced n p ft t e ->
    exists e', rk4_step p ft None dt t e = Some e' /\ e_fields e' = e_fields e.
  Proof.
    intros S1 S2 HB. destruct (rk4_step_scheme n p ft None dt t GT KL CD DF e Hall Heqn Hder)
      as (k1 & s2 & k2 & s3 & k3 & s4 & k4 & e' & N1 & I2 & N2 & I3 & N3 & I4 & N4 & Es & Lf & _ & Hf).
    change (map (fft ft) (e_fields e)) with (e_fields E) in *.
    assert (LE : length (e_fields E) = length (e_fields e)) by (unfold E, spectrum; cbn [e_fields]; apply map_length).
    assert (Half : (dt / 2 <> 0)%R) by (intros X; apply Hdt; replace dt with (dt / 2 * 2)%R by field; rewrite X; ring).
    (* a stage built from the right-hand side at the fields is the fields *)
    assert (ST : forall h K St, h <> 0%R -> solvable n p ft h t e -> nonlinear_part p ft t (e_derived e) (e_fields E) K ->
      implicit_stage p h t e (e_fields E) K St -> St = e_fields E).
    { intros h K St Hh HS [LK HK] [LS HSt]. apply nth_error_ext. intros i.
      destruct (nth_error (e_fields E) i) as [y|] eqn:Ey; [|apply nth_error_None; rewrite LS; apply nth_error_None, Ey].
      assert (Hi : i < length (p_eqns p)) by (apply Nat.lt_le_trans with (length (e_fields e)); [rewrite <- LE; apply nth_error_Some; congruence|exact Heqn]).
      assert (Ly := spectrum_length i y Ey).
      destruct (get_rhs_some p t E i n Hi) as (r & Hr). destruct (get_denum_some p t E i n Hi) as (a & Ha).
      assert (Hk := HK i y Ey). rewrite at_own_amplitudes, Ly, Hr in Hk.
      rewrite (HSt i y r a Ey Hk) by (rewrite Ly, (CD _ E); exact Ha). f_equal.
      apply (proj2 (stage_fixed h y r a n Hh Ly (get_rhs_length n p _ i t r KL Hr) (get_denum_length n p _ i t a KL Ha) (fun k Hk => HS i a k Ha Hk))).
      intros k Hkn. exact (HB i y r a Ey Hr Ha k Hkn). }
    assert (E2 := ST _ _ _ Half S2 N1 I2). rewrite E2 in N2.
    assert (E3 := ST _ _ _ Half S2 N2 I3). rewrite E3 in N3.
    assert (E4 := ST _ _ _ Hdt S1 N3 I4). rewrite E4 in N4.
    exists e'. split; [exact Es|]. rewrite <- to_real_spectrum. apply nth_error_ext. intros i. rewrite nth_error_map.
    destruct (nth_error (e_fields E) i) as [y|] eqn:Ey; [|cbn [option_map]; apply nth_error_None; rewrite Lf, <- LE; apply nth_error_None, Ey].
    assert (Hi : i < length (p_eqns p)) by (apply Nat.lt_le_trans with (length (e_fields e)); [rewrite <- LE; apply nth_error_Some; congruence|exact Heqn]).
    assert (Ly := spectrum_length i y Ey).
    destruct (get_rhs_some p t E i n Hi) as (r & Hr). destruct (get_denum_some p t E i n Hi) as (a & Ha).
    assert (HK : forall K, nonlinear_part p ft t (e_derived e) (e_fields E) K -> nth_error K i = Some r).
    { intros K [_ HK]. rewrite (HK i y Ey), at_own_amplitudes, Ly. exact Hr. }
    rewrite (Hf i y a r r r r Ey) by first [rewrite Ly, (CD _ E); exact Ha|apply HK; assumption]. cbn [option_map apply_filter]. f_equal. f_equal.
    transitivity (map (fun j => nth j y C0) (seq 0 n)); [|exact (map_nth_seq y n Ly)]. apply map_ext_in. intros k Hk. apply in_seq in Hk. destruct Hk as [_ Hk]. cbn [Nat.add] in Hk.
    transitivity (semi_implicit dt (nth k y C0) (nth k r C0) (nth k a C0)).
    - unfold semi_implicit, combine4. f_equal. f_equal.
      replace (Cadd (nth k r C0) (Cadd (Cmul (RtoC 2) (nth k r C0)) (Cadd (Cmul (RtoC 2) (nth k r C0)) (nth k r C0)))) with (Cmul (RtoC 6) (nth k r C0)).
      + replace (RtoC dt) with (RtoC (dt / 6 * 6)) by (f_equal; field). rewrite RtoC_mul. ring.
      + rewrite six. ring.
    - apply semi_fixed; [exact Hdt|exact (S1 i a k Ha Hk)|exact (HB i y r a Ey Hr Ha k Hk)].
  Qed.
End Steady.
