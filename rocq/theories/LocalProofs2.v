(** Lemmas for C115: solutions of declared equations. *)
From Verif Require Import ListAux FileModel ParseProofs StepProofs ConserveProofs EquationProps RegistryProps SimProps.
From Verif Require Import SimProofs SimProofs2 SimProofs3 SimProofs4 SimProofs5 SimProofs6 LinearProofs2 LinearProofs3 ConvergeProofs KeepProps.
From Verif Require Import LimitProofs LimitProofs2 LimitProofs3 LimitProofs4 LimitProps UniqueProps LocalProofs.
From Verif Require SddProofs ConvergeProps.
From Verif Require Import DftSpec LimitSpec KeepSpec.
From Coq Require Import Reals Lia Lra.
From Verif Require Import Complex.
Open Scope R_scope.

(** One step of the scheme follows the rates up to the square of the step. *)
Lemma scheme_consistent nf n A (F : nat -> nat -> R -> grid -> grid -> C) b K a M : 0 <= a -> 0 <= K -> 0 <= M ->
  (forall i k, (i < nf)%nat -> (k < n)%nat -> size (A i k) <= a) ->
  forall t h x x', 0 <= h -> within nf n b x -> within nf n b x' -> 0 <= b ->
  (forall s u e, within nf n b s -> within nf n b u -> near nf n e s u -> forall i k, (i < nf)%nat -> (k < n)%nat -> size (Csub (F i k t x s) (F i k t x u)) <= K * e) ->
  (forall s, within nf n b s -> forall i k, (i < nf)%nat -> (k < n)%nat -> size (F i k t x s) <= M) ->
  scheme nf n A F h t x x' -> forall i k, (i < nf)%nat -> (k < n)%nat ->
  size (Csub (Csub (x' i k) (x i k)) (Cmul (RtoC h) (Cadd (F i k t x x) (Cmul (A i k) (x i k))))) <= (a + K) * (a * b + M) * h ^ 2.
Proof.
  intros Ha HK HM HA t h x x' Hh Hx Hx' Hb HL HB HS.
  assert (Hmix : forall i, within nf n b (mix i x' x)). { intros i j k Hj Hk. unfold mix. destruct (Nat.ltb j i); [apply Hx'|apply Hx]; assumption. }
  assert (C1' : 0 <= a * b + M) by (assert (0 <= a * b) by (apply Rmult_le_pos; lra); lra).
  assert (D : forall i k, (i < nf)%nat -> (k < n)%nat -> Csub (x' i k) (x i k) = Cmul (RtoC h) (Cadd (F i k t x (mix i x' x)) (Cmul (A i k) (x' i k)))).
  { intros i k Hi Hk. pose proof (HS i k Hi Hk) as E. replace (x' i k) with (Cadd (Cmul (x' i k) (Csub C1 (Cmul (RtoC h) (A i k)))) (Cmul (RtoC h) (Cmul (A i k) (x' i k)))) at 1 by csolve. rewrite E. csolve. }
  assert (N : near nf n (h * (a * b + M)) x' x).
  { intros i k Hi Hk. rewrite (D i k Hi Hk), size_real, Rabs_right by lra. apply Rmult_le_compat_l; [exact Hh|]. eapply Rle_trans; [apply size_add|]. pose proof (HB (mix i x' x) (Hmix i) i k Hi Hk).
    pose proof (size_mul (A i k) (x' i k)). pose proof (HA i k Hi Hk). pose proof (Hx' i k Hi Hk). pose proof (size_pos (A i k)). pose proof (size_pos (x' i k)).
    assert (size (A i k) * size (x' i k) <= a * b) by (apply Rmult_le_compat; lra). lra. }
  assert (Hn0 : 0 <= h * (a * b + M)) by (apply Rmult_le_pos; assumption).
  intros i k Hi Hk. rewrite (D i k Hi Hk).
  assert (NM : near nf n (h * (a * b + M)) (mix i x' x) x).
  { intros j l Hj Hl. unfold mix. destruct (Nat.ltb j i); [apply N; assumption|]. replace (Csub (x j l) (x j l)) with C0 by csolve. rewrite size_0. exact Hn0. }
  pose proof (HL _ _ _ (Hmix i) Hx NM i k Hi Hk) as Q1. pose proof (N i k Hi Hk) as Q2. pose proof (HA i k Hi Hk) as Q3.
  set (f1 := F i k t x (mix i x' x)) in *. set (f2 := F i k t x x) in *.
  replace (Csub _ _) with (Cmul (RtoC h) (Cadd (Csub f1 f2) (Cmul (A i k) (Csub (x' i k) (x i k))))) by csolve.
  rewrite size_real, Rabs_right by lra.
  assert (Q4 : size (Cadd (Csub f1 f2) (Cmul (A i k) (Csub (x' i k) (x i k)))) <= K * (h * (a * b + M)) + a * (h * (a * b + M))).
  { eapply Rle_trans; [apply size_add|]. apply Rplus_le_compat; [exact Q1|]. eapply Rle_trans; [apply size_mul|]. apply Rmult_le_compat; [apply size_pos|apply size_pos|exact Q3|exact Q2]. }
  apply Rle_trans with (h * (K * (h * (a * b + M)) + a * (h * (a * b + M)))); [apply Rmult_le_compat_l; assumption|]. right. ring.
Qed.

Section Declared.
  Variables (L : lang) (cs : list call) (es : list eqtext) (m : mstate).
  Hypothesis HD : declared L cs es.
  Hypothesis Em : run_calls new_mstate (cs ++ [CInit]) = Ok m.
  Variables (n : nat) (ft : transform) (lib : library).
  Hypothesis GL : good_library L n lib.
  Hypothesis UT : unitary_transform n ft.
  Hypothesis HO : map q_field es = l_fields L.
  Hypothesis Hn : (0 < n)%nat.
  Variable T : R.
  Hypothesis HT : 0 < T.
  Hypothesis SM : smooth L cs es n lib T.
  Let GT := ut_good n ft UT.
  Let p := simulation n ft lib m.
  Let nf := length (l_fields L).
  Let A := AA L es ft lib.
  Let F := FF L cs es n ft lib.
  Definition rhs (t : R) (x : grid) : grid := fun i k => Cadd (F i k t x x) (Cmul (A i k) (x i k)).

  Lemma A_bound : exists a, 0 <= a /\ forall i k, (i < nf)%nat -> (k < n)%nat -> size (A i k) <= a.
  Proof. destruct (bound_over2 nf n (fun i k b => size (A i k) <= b)) as (a & Ha & H); [intros; lra|intros i k _ _; eexists; apply Rle_refl|]. exists a. auto. Qed.
  Lemma rhs_lipschitz : locally_lipschitz nf n rhs T.
  Proof.
    intros r. destruct (lip_FF L cs es n ft lib UT Hn T ltac:(lra) SM r) as (K & HK & HL). destruct A_bound as (a & Ha & HA). exists (K + a). split; [lra|].
    intros t t' x y e Ht Ht' Hx Hy Hne He i k Hi Hk. unfold rhs. pose proof (HL t t' x y x y e Ht Ht' Hx Hy Hx Hy Hne Hne He i k Hi Hk) as Q. fold F in Q.
    replace (Csub _ _) with (Cadd (Csub (F i k t x x) (F i k t' y y)) (Cmul (A i k) (Csub (x i k) (y i k)))) by csolve. eapply Rle_trans; [apply size_add|].
    pose proof (Hne i k Hi Hk). pose proof (HA i k Hi Hk). pose proof (size_mul (A i k) (Csub (x i k) (y i k))).
    assert (size (A i k) * size (Csub (x i k) (y i k)) <= a * e) by (apply Rmult_le_compat; try apply size_pos; assumption). lra.
  Qed.

  (** Amplitudes that follow the rates are those of a solution. *)
  Lemma amplitude_reals x i k : (i < nf)%nat -> (k < n)%nat -> amplitude_of ft (reals L n ft x) i k = x i k.
  Proof.
    intros Hi Hk. unfold amplitude_of. rewrite (reals_nth L n ft x i Hi). rewrite (gt_inverse n ft GT) by apply map_seq_length. apply nth_map_seq. exact Hk.
  Qed.
  Lemma solution_of_amplitudes s (Y : R -> grid) : s <= T ->
    (forall t i k, 0 <= t <= s -> (i < nf)%nat -> (k < n)%nat -> changes (fun u => Y u i k) t (rhs t (Y t) i k)) ->
    solution_until L cs es n ft lib s (fun t => reals L n ft (Y t)).
  Proof.
    intros Hs H. split; [intros t; apply (reals_shaped L n ft UT)|]. intros t i q k Ht Eq Hk. assert (Hi : (i < nf)%nat) by exact (eq_index L es HO i q Eq).
    destruct (written_exists L cs es m HD Em n ft lib {| e_fields := map (fft ft) (reals L n ft (Y t)); e_derived := [] |} t q k (reals L n ft (Y t))) as (M & HW).
    exists M. split; [exact HW|]. specialize (H t i k Ht Hi Hk).
    rewrite (rate_mine L cs es m HD Em n ft lib GL HO T SM _ _ t i q k M (reals_shaped L n ft UT (Y t)) Eq Hk HW).
    replace (Cadd _ _) with (rhs t (Y t) i k).
    - destruct H as [H1 H2]. split; intros eps Heps.
      + destruct (H1 eps Heps) as (d & Hd). exists d. intros h Hh Hl. rewrite !amplitude_reals by assumption. exact (Hd h Hh Hl).
      + destruct (H2 eps Heps) as (d & Hd). exists d. intros h Hh Hl. rewrite !amplitude_reals by assumption. exact (Hd h Hh Hl).
    - unfold rhs, F, A, FF, AA. rewrite Eq. rewrite amplitude_reals by assumption.
      rewrite (XF_ext L n ft lib q k (reals L n ft (Y t)) (amplitude_of ft (reals L n ft (Y t))) (Y t)); [ring|]. intros j Hj. apply amplitude_reals; assumption.
  Qed.

  (** For a short time there is always a solution. *)
  Lemma local_solution fs : shaped nf n fs -> exists s U, 0 < s <= T /\ solution_until L cs es n ft lib s U /\ U 0 = fs.
  Proof.
    intros Hs. destruct (short_time nf n rhs (amplitude_of ft fs) T HT rhs_lipschitz) as (s & Y & H1 & H2 & H3).
    exists s, (fun t => reals L n ft (Y t)). split; [exact H1|]. split; [apply solution_of_amplitudes; [lra|exact H3]|].
    rewrite (reals_ext L n ft Hn (Y 0) (amplitude_of ft fs) H2). apply (reals_of L n ft UT Hn fs Hs).
  Qed.

  Lemma F_bound b : 0 <= b -> exists K M, 0 <= K /\ 0 <= M
    /\ (forall t x s u e, 0 <= t <= T -> within nf n b x -> within nf n b s -> within nf n b u -> near nf n e s u -> forall i k, (i < nf)%nat -> (k < n)%nat -> size (Csub (F i k t x s) (F i k t x u)) <= K * e)
    /\ (forall t x s, 0 <= t <= T -> within nf n b x -> within nf n b s -> forall i k, (i < nf)%nat -> (k < n)%nat -> size (F i k t x s) <= M).
  Proof.
    intros Hb. destruct (lip_FF L cs es n ft lib UT Hn T ltac:(lra) SM b) as (K & HK & HL). fold nf F in HL.
    set (o := (fun _ _ => C0) : grid). assert (Ho : within nf n b o) by (intros i k _ _; unfold o; rewrite size_0; exact Hb).
    destruct (bound_over2 nf n (fun i k B => size (F i k 0 o o) <= B)) as (M0 & HM0 & HB0); [intros; lra|intros i k _ _; eexists; apply Rle_refl|].
    exists K, (M0 + K * (b + T)). split; [exact HK|]. split; [assert (0 <= K * (b + T)) by (apply Rmult_le_pos; lra); lra|]. split.
    - intros t x s u e Ht Hx Hs Hu Hne i k Hi Hk. assert (He : 0 <= e) by (eapply Rle_trans; [apply size_pos|exact (Hne i k Hi Hk)]).
      apply (HL t t x x s u e Ht Ht Hx Hx Hs Hu); try assumption.
      + intros j l _ _. replace (Csub (x j l) (x j l)) with C0 by csolve. rewrite size_0. exact He.
      + replace (t - t) with 0 by ring. rewrite Rabs_R0. exact He.
    - intros t x s Ht Hx Hs i k Hi Hk. pose proof (HB0 i k Hi Hk).
      assert (Z : forall y, within nf n b y -> near nf n (b + T) y o). { intros y Hy j l Hj Hl. unfold o. replace (Csub (y j l) C0) with (y j l) by csolve. pose proof (Hy j l Hj Hl). lra. }
      assert (Q : size (Csub (F i k t x s) (F i k 0 o o)) <= K * (b + T)). { apply (HL t 0 x o s o (b + T)); try assumption; try (apply Z; assumption); [lra|]. replace (t - 0) with t by ring. rewrite Rabs_right; lra. }
      pose proof (size_of_sub (F i k t x s) (F i k 0 o o)). lra.
  Qed.

  (** Runs that stay bounded under repeated halving of the time step lead to a
      solution. *)
  Lemma bounded_solution e N0 r : fits L n m e -> (0 < N0)%nat ->
    (forall j k e', (k <= N0 * 2 ^ j)%nat -> euler_propagate p ft None (T / INR (N0 * 2 ^ j)) k 0 e = Some (e', k) -> bounded_by nf n r (e_fields e')) ->
    exists U, solution_until L cs es n ft lib T U /\ U 0 = e_fields e.
  Proof.
    intros Hf HN0 HB. destruct A_bound as (a & Ha & HA).
    set (rr := 1 + Rabs r). assert (Hrr : 1 <= rr) by (unfold rr; pose proof (Rabs_pos r); lra).
    assert (Hr2 : r <= rr ^ 2). { unfold rr. pose proof (Rle_abs r). pose proof (Rabs_pos r). cbn [pow]. nra. }
    set (b := 2 * (INR n * (2 * rr))). assert (Hb : 0 <= b). { unfold b. pose proof (pos_INR n). assert (0 <= INR n * (2 * rr)) by (apply Rmult_le_pos; lra). lra. }
    destruct (F_bound b Hb) as (K & M & HK & HM & HL & HFb).
    destruct (ConvergeProps.above (2 * a * T)) as (j0 & Hj0).
    assert (P2 : forall k, (k < 2 ^ k)%nat) by (intros k; apply Nat.pow_gt_lin_r; lia).
    assert (HNp : forall j, 0 < INR (N0 * 2 ^ j)). { intros j. apply lt_0_INR. apply Nat.mul_pos_pos; [exact HN0|]. pose proof (P2 j). lia. }
    set (h0 := T / INR (N0 * 2 ^ j0)). assert (Hh0 : 0 < h0) by (apply Rdiv_lt_0_compat; [exact HT|apply HNp]).
    assert (Eh : forall mm, h0 / 2 ^ mm = T / INR (N0 * 2 ^ (j0 + mm))).
    { intros mm. unfold h0. rewrite Nat.pow_add_r, Nat.mul_assoc, (mult_INR (N0 * 2 ^ j0)), (pow_INR 2 mm). replace (INR 2) with 2 by (cbn; lra). pose proof (HNp j0). assert (0 < 2 ^ mm) by (apply pow_lt; lra). field. lra. }
    assert (Hpos : forall mm, 0 < h0 / 2 ^ mm) by (intros mm; rewrite Eh; apply Rdiv_lt_0_compat; [exact HT|apply HNp]).
    assert (Hsm : forall mm, a * (h0 / 2 ^ mm) <= / 2).
    { intros mm. rewrite Eh. pose proof (HNp (j0 + mm)%nat) as HP. apply Rmult_le_reg_r with (INR (N0 * 2 ^ (j0 + mm))); [exact HP|]. replace (a * (T / INR (N0 * 2 ^ (j0 + mm))) * INR (N0 * 2 ^ (j0 + mm))) with (a * T) by (field; lra).
      assert (INR j0 <= INR (N0 * 2 ^ (j0 + mm))). { apply le_INR. pose proof (P2 (j0 + mm)%nat). nia. } lra. }
    assert (Hz : forall mm i k, (i < nf)%nat -> (k < n)%nat -> Csub C1 (Cmul (RtoC (h0 / 2 ^ mm)) (A i k)) <> C0).
    { intros mm i k Hi Hk E. pose proof (Hpos mm) as Hp. assert (size (Cmul (RtoC (h0 / 2 ^ mm)) (A i k)) <= / 2).
      { rewrite size_real, Rabs_right by lra. pose proof (HA i k Hi Hk). pose proof (Hsm mm). assert (h0 / 2 ^ mm * size (A i k) <= h0 / 2 ^ mm * a) by (apply Rmult_le_compat_l; lra). lra. }
      assert (E1 : Cmul (RtoC (h0 / 2 ^ mm)) (A i k) = C1). { replace (Cmul (RtoC (h0 / 2 ^ mm)) (A i k)) with (Csub C1 (Csub C1 (Cmul (RtoC (h0 / 2 ^ mm)) (A i k)))) by csolve. rewrite E. csolve. }
      rewrite E1 in H. unfold size, C1 in H. cbn in H. rewrite Rabs_R1, Rabs_R0 in H. lra. }
    set (E := fun mm j => match euler_propagate p ft None (h0 / 2 ^ mm) j 0%nat e with Some (e', _) => amplitude_of ft (e_fields e') | None => (fun _ _ => C0) : grid end).
    assert (HE : forall mm j, exists e1 e2, fits L n m e1 /\ E mm j = amplitude_of ft (e_fields e1) /\ E mm (S j) = amplitude_of ft (e_fields e2) /\ euler_propagate p ft None (h0 / 2 ^ mm) j 0 e = Some (e1, j)
      /\ scheme nf n A F (h0 / 2 ^ mm) (INR j * (h0 / 2 ^ mm)) (E mm j) (E mm (S j))).
    { intros mm j. set (h := h0 / 2 ^ mm).
      destruct (run_states (euler_step p ft None h) h (fits L n m) (fun t e e' => scheme nf n A F h t (amplitude_of ft (e_fields e)) (amplitude_of ft (e_fields e')))) with (e := e) as (st & E0 & H); [|exact Hf|].
      - intros t e1 Hf1. apply (euler_scheme L cs es m HD Em n ft lib GL UT HO Hn T SM h t e1 Hf1 (Hz mm)).
      - destruct (H j) as (H1 & H2 & H3). destruct (H (S j)) as (H1' & _ & H3'). rewrite <- euler_iterate in H3, H3'.
        assert (X1 : E mm j = amplitude_of ft (e_fields (st j))) by (unfold E; fold h; rewrite H3; reflexivity).
        assert (X2 : E mm (S j) = amplitude_of ft (e_fields (st (S j)))) by (unfold E; fold h; rewrite H3'; reflexivity).
        exists (st j), (st (S j)). split; [exact H1|]. split; [exact X1|]. split; [exact X2|]. split; [exact H3|]. rewrite X1, X2. exact H2. }
    assert (HW : forall mm j, INR j * (h0 / 2 ^ mm) <= T -> within nf n b (E mm j)).
    { intros mm j Hj. destruct (HE mm j) as (e1 & e2 & F1 & X1 & _ & Er & _). rewrite X1. rewrite Eh in Er, Hj.
      assert (Hle : (j <= N0 * 2 ^ (j0 + mm))%nat).
      { apply INR_le. pose proof (HNp (j0 + mm)%nat) as HP. apply Rmult_le_reg_r with (T / INR (N0 * 2 ^ (j0 + mm))); [apply Rdiv_lt_0_compat; assumption|].
        replace (INR (N0 * 2 ^ (j0 + mm)) * (T / INR (N0 * 2 ^ (j0 + mm)))) with T by (field; lra). exact Hj. }
      pose proof (HB (j0 + mm)%nat j e1 Hle Er) as HBd. intros i k Hi Hk.
      assert (Ss := fits_shaped L m n e1 F1). assert (Li := shaped_nth L n Hn (e_fields e1) i Ss Hi).
      unfold amplitude_of, b. apply (mode_bound n ft UT Hn (nth i (e_fields e1) []) (2 * rr) Li ltac:(lra)); [|exact Hk].
      intros l Hl. apply size_of_norm; [lra|]. apply Rle_trans with r; [exact (HBd i l Hi Hl)|exact Hr2]. }
    destruct (bounded_refinements nf n rhs (amplitude_of ft (e_fields e)) b T ((a + K) * (a * b + M)) h0 E HT Hb) as (Y & Y0 & HY & _).
    - apply Rmult_le_pos; [lra|]. assert (0 <= a * b) by (apply Rmult_le_pos; lra). lra.
    - exact Hh0.
    - exact rhs_lipschitz.
    - intros mm i k Hi Hk. reflexivity.
    - exact HW.
    - intros mm j Hj i k Hi Hk. destruct (HE mm j) as (e1 & e2 & _ & _ & _ & _ & HS). pose proof (Hpos mm) as Hp. rewrite S_INR in Hj.
      assert (Hjl : INR j * (h0 / 2 ^ mm) <= T) by lra. assert (Hj0' : 0 <= INR j * (h0 / 2 ^ mm)) by (apply Rmult_le_pos; [apply pos_INR|lra]).
      apply (scheme_consistent nf n A F b K a M Ha HK HM HA (INR j * (h0 / 2 ^ mm)) (h0 / 2 ^ mm) (E mm j) (E mm (S j))); try assumption; try lra.
      + apply HW. exact Hjl.
      + apply HW. rewrite S_INR. exact Hj.
      + intros s u e' Hs Hu Hne. apply (HL (INR j * (h0 / 2 ^ mm)) (E mm j) s u e'); try assumption; [lra|apply HW; exact Hjl].
      + intros s Hs. apply (HFb (INR j * (h0 / 2 ^ mm)) (E mm j) s); try assumption; [lra|apply HW; exact Hjl].
    - exists (fun t => reals L n ft (Y t)). split; [apply solution_of_amplitudes; [lra|]; intros t i k Ht Hi Hk; apply HY; assumption|].
      rewrite (reals_ext L n ft Hn (Y 0) (amplitude_of ft (e_fields e)) Y0). apply (reals_of L n ft UT Hn _ (fits_shaped L m n e Hf)).
  Qed.

  (** Solutions are bounded. *)
  Lemma solution_bound U : solution_until L cs es n ft lib T U -> exists B, 0 <= B /\ forall t, 0 <= t <= T -> forall i j, (i < nf)%nat -> (j < n)%nat -> size (at_ (U t) i j) <= B.
  Proof.
    intros [HU HS]. destruct (solution_bounded nf n A F (fun t => amplitude_of ft (U t)) T ltac:(lra)) as (B & HB & H).
    - intros i k t Hi Hk Ht. destruct (nth_error es i) as [q|] eqn:Eq; [|exfalso; apply nth_error_None in Eq; unfold nf in Hi; rewrite <- HO, map_length in Hi; lia].
      destruct (HS t i q k Ht Eq Hk) as (M & HW & HC). replace (G A F _ i k t) with (Cadd M (source_sum cs lib t i k)); [exact HC|].
      unfold G, F, A, FF, AA. rewrite Eq. rewrite (reals_of L n ft UT Hn (U t) (HU t)).
      rewrite (rate_mine L cs es m HD Em n ft lib GL HO T SM (U t) _ t i q k M (HU t) Eq Hk HW). ring.
    - exists (2 * B). split; [lra|]. intros t Ht i j Hi Hj. unfold at_.
      apply (real_bound n ft UT Hn (nth i (U t) []) B (shaped_nth L n Hn (U t) i (HU t) Hi) HB); [|exact Hj]. intros k Hk. exact (H t Ht i k Hi Hk).
  Qed.
End Declared.
