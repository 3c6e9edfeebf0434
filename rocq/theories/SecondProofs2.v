(** Lemmas for C114: the error of a run of ImplicitEuler for models whose
    right-hand sides are polynomials. *)
From Verif Require Import OrderSpec.
From Verif Require Import ListAux FileModel StepProofs SddProofs DftSpec DftProofs RealSpec RealProofs SimSpec SimProofs2 SimProofs3 SimProofs4 SimProofs5 SimProofs6 MatchProofs MatchProofs2 LinearProofs2 LinearProofs3 ConvergeProofs.
From Verif Require ConvergeProps.
From Verif Require Import LimitProofs LimitProofs2 LimitProofs3 LimitProofs4 LimitSpec KeepSpec KeepProofs2 ImplicitModel ImplicitSpec ImplicitProofs ImplicitProofs2 ApproachSpec ApproachProofs ApproachProofs2 ApproachProofs3 ApproachProofs4.
From Coq Require Import Reals Lia Lra.
From Verif Require Import Complex OrderProofs OrderProofs2 OrderProofs4 SecondProofs.
Open Scope R_scope.

Lemma grown2 C T h N m : 0 <= C -> 0 < h -> INR N * h <= T -> (m <= N)%nat -> 0 <= h ^ 2 * ((1 + C * h) ^ m - 1) <= exp (C * T) * h ^ 2.
Proof.
  intros HC Hh HN Hm. destruct (grown C T h N m HC Hh HN Hm) as [H1 H2].
  replace (h ^ 2 * ((1 + C * h) ^ m - 1)) with (h * (h * ((1 + C * h) ^ m - 1))) by ring. replace (exp (C * T) * h ^ 2) with (h * (exp (C * T) * h)) by ring.
  split; [apply Rmult_le_pos; lra|apply Rmult_le_compat_l; lra].
Qed.

Section Run.
  Variables (L : lang) (cs : list call) (es : list eqtext) (m : mstate).
  Hypothesis HD : declared L cs es.
  Hypothesis Em : run_calls new_mstate (cs ++ [CInit]) = Ok m.
  Variables (dom : list Z) (lib : library).
  Hypothesis Hv : valid_domain dom.
  Hypothesis Hsq : square_layout dom.
  Hypothesis GL : good_library L (nodes dom) lib.
  Hypothesis RL : real_library L cs es dom (length (pm_derived (ms_names m))) lib.
  Hypothesis HO : map q_field es = l_fields L.
  Let n := nodes dom.
  Hypothesis Hn : (0 < nodes dom)%nat.
  Variable T : R.
  Hypothesis HT : 0 < T.
  Hypothesis PR : polynomial_rates L cs es lib.
  Variable U : R -> list data.
  Hypothesis HU : solution_until L cs es (nodes dom) (fftw_transform dom) lib T U.
  Let SM : smooth L cs es (nodes dom) lib T := rates_smooth L cs es (nodes dom) lib T HD GL PR.
  Let ft := fftw_transform dom.
  Let nf := length (l_fields L).
  Let A := AA L es ft lib.
  Let F := FF L cs es n ft lib.
  Let p := simulation n ft lib m.
  Let Y := fun t => amplitude_of ft (U t).
  Let UT : unitary_transform n ft := fftw_unitary dom Hv.
  Let GT := ut_good n ft UT.
  Let HF : forall r, exists K, 0 <= K /\ forall t t' x y s u e, 0 <= t <= T -> 0 <= t' <= T -> within nf n r x -> within nf n r y -> within nf n r s -> within nf n r u ->
    near nf n e x y -> near nf n e s u -> Rabs (t - t') <= e -> forall i k, (i < nf)%nat -> (k < n)%nat -> size (Csub (F i k t x s) (F i k t' y u)) <= K * e
    := fun r => lip_FF L cs es n ft lib UT Hn T (Rlt_le _ _ HT) SM r.
  Let HY : forall i k t, (i < nf)%nat -> (k < n)%nat -> 0 <= t <= T -> changes (fun s => Y s i k) t (G A F Y i k t)
    := solution_changes L cs es m HD Em dom lib Hv GL HO Hn T SM U HU.

  Lemma rates : exists pp, (forall i k, (i < nf)%nat -> (k < n)%nat -> inside nf n (pp i k)) /\ forall i k t x, (i < nf)%nat -> (k < n)%nat -> F i k t x x = ff pp x i k.
  Proof.
    destruct (choose_two (PConst C0) (fun i k p => inside nf n p /\ forall x, FF L cs es n ft lib i k 0 x x = eval p x) nf n) as (pp & Hpp).
    { intros i k Hi Hk. destruct (isp_rate L cs es HD n ft lib GL UT Hn PR i k Hk) as (q & Hq & E). exists q. split; assumption. }
    exists pp. split; [intros i k Hi Hk; apply (Hpp i k Hi Hk)|]. intros i k t x Hi Hk. unfold F. rewrite (rate_steady L cs es n ft lib PR). apply (Hpp i k Hi Hk).
  Qed.

  Section Step.
    Variables (r c Cx h0 : R).
    Hypothesis Hr : 0 <= r.
    Hypothesis Hc : 0 <= c.
    Hypothesis HCx : 0 <= Cx.
    Hypothesis SS : forall h t x v E, 0 < h <= h0 -> 0 <= t -> t + h <= T -> 0 <= E <= 1 -> near nf n E x (Y t) -> near nf n (2 * (INR n * r)) v x ->
      near nf n (2 * (INR n * c) * h ^ 3) v (target A F h t x v) -> near nf n ((1 + Cx * h) * E + Cx * h ^ 3) v (Y (t + h)).

    Lemma one_step2 filt solve h t e E : 0 < h <= h0 -> 0 <= t -> t + h <= T -> 0 <= E <= 1 -> real_env L m dom e -> near nf n E (amplitude_of ft (e_fields e)) (Y t) ->
      (forall R x0 e2, ie_problem p ft filt h t e = Some (R, x0, e2) -> nearly_solves r (c * h ^ 3) solve R x0 (values (e_fields e))) ->
      exists e', ie_step solve p ft filt h t e = Some e' /\ real_env L m dom e' /\ near nf n ((1 + Cx * h) * E + Cx * h ^ 3) (amplitude_of ft (e_fields e')) (Y (t + h)).
    Proof.
      intros Hh Ht HtT HE He HN HS.
      destruct (declared_problem L cs es m HD Em dom lib Hv Hsq GL RL HO Hn T SM filt h t e He) as (R & x0 & e1 & e2 & EP & Ex0 & Lx0 & _ & _ & _ & He2 & HR).
      fold n in EP, Lx0, HR. fold ft in EP, HR. fold p in EP. fold nf in Lx0, HR. fold A F in HR. destruct (HS R x0 e2 EP) as [S1 S2 S3]. set (x := solve R x0) in *. rewrite Lx0 in S1, S2.
      destruct (unpacked L m dom e2 x (proj1 He2) S1) as (Sh & Re & Va). fold n nf in Sh. set (fs := vec2fields x (e_fields e2)) in *.
      exists {| e_fields := fs; e_derived := e_derived e2 |}. split; [unfold ie_step; rewrite EP; reflexivity|].
      split; [split; [split; [exact (proj1 Sh)|split; [exact (proj2 Sh)|exact (proj2 (proj2 (proj1 He2)))]]|exact Re]|]. cbn [e_fields].
      destruct (HR fs Sh Re) as (res & ER & Shr & Rer & HA). rewrite Va in ER. specialize (S3 _ ER).
      assert (Lres : length (values res) = (nf * n)%nat) by (rewrite (values_length n) by exact (proj2 Shr); rewrite (proj1 Shr); reflexivity). rewrite Lres in S3.
      assert (Sce : shaped nf n (e_fields e)) by exact (fits_shaped L m n e (proj1 He)).
      assert (Hhh : 0 <= h ^ 3) by (apply pow_le; lra).
      apply (SS h t (amplitude_of ft (e_fields e)) (amplitude_of ft fs) E Hh Ht HtT HE HN).
      - apply (near_of_entries dom nf Hv Hn r fs (e_fields e) Hr Sh Sce Re (proj2 He)). intros q Hq. rewrite Va. exact (S2 q Hq).
      - assert (W : within nf n (2 * (INR n * (c * h ^ 3))) (amplitude_of ft res)).
        { apply (small_of_entries dom nf Hv Hn (c * h ^ 3) res ltac:(apply Rmult_le_pos; assumption) Shr Rer). exact S3. }
        intros i k Hi Hk. pose proof (W i k Hi Hk) as Q. rewrite (HA i k Hi Hk) in Q. eapply Rle_trans; [exact Q|]. right. ring.
    Qed.
    Lemma whole_run2 filt solve h N delta e : 0 < h <= h0 -> INR N * h <= T -> 0 < delta -> exp (Cx * T) * h ^ 2 <= 1 -> exp (Cx * T) * h ^ 2 <= sqrt delta ->
      real_env L m dom e -> e_fields e = U 0 ->
      (forall t e R x0 e2, 0 <= t -> t + h <= T -> real_env L m dom e -> close_to nf delta (e_fields e) (U t) -> ie_problem p ft filt h t e = Some (R, x0, e2) ->
        nearly_solves r (c * h ^ 3) solve R x0 (values (e_fields e))) ->
      forall k, (k <= N)%nat -> exists e', ie_propagate solve p ft filt h k 0%nat e = Some (e', k) /\ real_env L m dom e'
        /\ near nf n (h ^ 2 * ((1 + Cx * h) ^ k - 1)) (amplitude_of ft (e_fields e')) (Y (INR k * h)).
    Proof.
      intros Hh HN Hd Hb1 Hb2 He E0 HS. induction k as [|k IH]; intros Hk.
      - exists e. split; [reflexivity|]. split; [exact He|]. cbn [pow INR]. rewrite Rmult_0_l, E0. intros i q _ _. unfold Y. replace (Csub _ _) with C0 by csolve. rewrite size_0. lra.
      - destruct (IH ltac:(lia)) as (e1 & EP & He1 & N1). destruct (grown2 Cx T h N k HCx ltac:(lra) HN ltac:(lia)) as [G1 G2].
        set (E := h ^ 2 * ((1 + Cx * h) ^ k - 1)) in *.
        assert (Et : ie_time h k = INR k * h) by (unfold ie_time; ring). assert (Ht : 0 <= INR k * h) by (apply Rmult_le_pos; [apply pos_INR|lra]).
        assert (HtT : INR k * h + h <= T). { replace (INR k * h + h) with (INR (S k) * h) by (rewrite S_INR; ring). eapply Rle_trans; [|exact HN]. apply Rmult_le_compat_r; [lra|apply le_INR; exact Hk]. }
        destruct (one_step2 filt solve h (INR k * h) e1 E Hh Ht HtT ltac:(lra) He1 N1) as (e2 & ES & He2 & N2).
        { intros R x0 e2 EQ. apply (HS (INR k * h) e1 R x0 e2 Ht HtT He1); [|exact EQ].
          intros i Hi. eapply Rle_trans; [apply (close_of_near dom nf Hv Hn E (e_fields e1) (U (INR k * h)) (fits_shaped L m n e1 (proj1 He1)) (proj1 HU _) N1 i Hi)|].
          rewrite <- (sqrt_sqrt delta) by lra. replace (E ^ 2) with (E * E) by ring. apply Rmult_le_compat; lra. }
        exists e2. split; [rewrite ie_propagate_last, EP, Et, ES; reflexivity|]. split; [exact He2|].
        replace (INR (S k) * h) with (INR k * h + h) by (rewrite S_INR; ring).
        replace (h ^ 2 * ((1 + Cx * h) ^ S k - 1)) with ((1 + Cx * h) * E + Cx * h ^ 3); [exact N2|]. unfold E. cbn [pow]. ring.
    Qed.
  End Step.

  Lemma error_bound2 delta r c : 0 < delta -> 0 <= r -> 0 <= c -> exists D N0, 0 <= D /\ forall filt solve e N, (N0 <= N)%nat -> (0 < N)%nat ->
    real_env L m dom e -> e_fields e = U 0 ->
    (forall t e R x0 e2, 0 <= t -> t + T / INR N <= T -> real_env L m dom e -> close_to nf delta (e_fields e) (U t) -> ie_problem p ft filt (T / INR N) t e = Some (R, x0, e2) ->
      nearly_solves r (c * (T / INR N) ^ 3) solve R x0 (values (e_fields e))) ->
    forall k, (k <= N)%nat -> exists e', ie_propagate solve p ft filt (T / INR N) k 0%nat e = Some (e', k) /\ real_env L m dom e'
      /\ close_to nf ((D / INR N ^ 2) ^ 2) (e_fields e') (U (INR k * (T / INR N))).
  Proof.
    intros Hd Hr Hc. destruct rates as (pp & HP & HFp). assert (Pn : 0 <= INR n) by apply pos_INR.
    destruct (second_step nf n A F pp HP HFp Y T (Rlt_le _ _ HT) HF HY (2 * (INR n * r)) (2 * (INR n * c))) as (C & h0 & HC & Hh0 & SS);
      [apply Rmult_le_pos; [lra|apply Rmult_le_pos; assumption]|apply Rmult_le_pos; [lra|apply Rmult_le_pos; assumption]|].
    set (X := exp (C * T)). assert (PX : 0 < X) by apply exp_pos.
    set (b := Rmin (Rmin (/ X) (sqrt delta / X)) h0).
    assert (Ps : 0 < sqrt delta) by (apply sqrt_lt_R0; exact Hd).
    assert (Pb : 0 < b). { unfold b. apply Rmin_glb_lt; [apply Rmin_glb_lt; [apply Rinv_0_lt_compat; exact PX|apply Rdiv_lt_0_compat; assumption]|lra]. }
    destruct (ConvergeProps.above (T / b)) as (N0 & HN0). exists (X * T ^ 2), N0. split; [apply Rmult_le_pos; [lra|apply pow_le; lra]|].
    intros filt solve e N HN HN1 He E0 HS k Hk.
    assert (HNr : 0 < INR N) by (apply lt_0_INR; exact HN1). assert (HN0' : INR N0 <= INR N) by (apply le_INR; exact HN).
    set (h := T / INR N) in *. assert (Hh : 0 < h <= b).
    { split; [apply Rdiv_lt_0_compat; lra|]. unfold h. apply Rmult_le_reg_r with (INR N); [exact HNr|]. replace (T / INR N * INR N) with T by (field; lra).
      replace T with (b * (T / b)) at 1 by (field; lra). apply Rmult_le_compat_l; lra. }
    assert (EN : INR N * h = T) by (unfold h; field; lra).
    assert (B1 : b <= / X) by (unfold b; eapply Rle_trans; [apply Rmin_l|apply Rmin_l]). assert (B2 : b <= sqrt delta / X) by (unfold b; eapply Rle_trans; [apply Rmin_l|apply Rmin_r]). assert (B3 : b <= h0) by apply Rmin_r.
    assert (H1 : X * h <= 1) by (replace 1 with (X * / X) by (field; lra); apply Rmult_le_compat_l; lra).
    assert (H2 : X * h <= sqrt delta) by (replace (sqrt delta) with (X * (sqrt delta / X)) by (field; lra); apply Rmult_le_compat_l; lra).
    assert (H3 : X * h ^ 2 <= X * h) by (apply Rmult_le_compat_l; [lra|]; cbn [pow]; nra).
    destruct (whole_run2 r c C h0 Hr Hc HC SS filt solve h N delta e ltac:(lra) ltac:(lra) Hd ltac:(fold X; lra) ltac:(fold X; lra) He E0 HS k Hk) as (e' & EP & He' & Nr).
    exists e'. split; [exact EP|]. split; [exact He'|].
    destruct (grown2 C T h N k HC ltac:(lra) ltac:(lra) Hk) as [G1 G2]. fold X in G2.
    replace (X * T ^ 2 / INR N ^ 2) with (X * h ^ 2) by (unfold h; field; lra).
    apply (close_of_near dom nf Hv Hn (X * h ^ 2) _ _ (fits_shaped L m n e' (proj1 He')) (proj1 HU _)). intros i q Hi Hq. eapply Rle_trans; [apply Nr; assumption|]. exact G2.
  Qed.
End Run.

(** A step with fixed-point iteration. *)
Section Iterate.
  Variables (L : lang) (cs : list call) (es : list eqtext) (m : mstate).
  Hypothesis HD : declared L cs es.
  Hypothesis Em : run_calls new_mstate (cs ++ [CInit]) = Ok m.
  Variables (dom : list Z) (lib : library).
  Hypothesis Hv : valid_domain dom.
  Hypothesis Hsq : square_layout dom.
  Hypothesis GL : good_library L (nodes dom) lib.
  Hypothesis RL : real_library L cs es dom (length (pm_derived (ms_names m))) lib.
  Hypothesis HO : map q_field es = l_fields L.
  Hypothesis Hn : (0 < nodes dom)%nat.
  Variable T : R.
  Hypothesis SM : smooth L cs es (nodes dom) lib T.
  Let n := nodes dom.
  Let ft := fftw_transform dom.
  Let nf := length (l_fields L).
  Let A := AA L es ft lib.
  Let F := FF L cs es n ft lib.
  Let p := simulation n ft lib m.

  Lemma iterated_step steps h t e : real_env L m dom e -> exists e' v, ie_step (fixed_point (S steps)) p ft None h t e = Some e' /\ real_env L m dom e'
    /\ forall i k, (i < nf)%nat -> (k < n)%nat -> amplitude_of ft (e_fields e') i k = target A F h t (amplitude_of ft (e_fields e)) v i k.
  Proof.
    intros He. destruct (declared_problem L cs es m HD Em dom lib Hv Hsq GL RL HO Hn T SM None h t e He) as (R & x0 & _ & e2 & EP & _).
    fold n in EP. fold ft in EP. fold p in EP.
    destruct (iteration_fields L cs es m HD Em dom lib Hv Hsq GL RL HO Hn T SM h t e He R x0 e2 EP) as (He2 & Lx0 & Ex0 & fs & F0 & Hfs). fold n ft in Hfs. fold A F in Hfs. fold n nf in Lx0.
    destruct (Hfs (S steps)) as (Sh & Re & Va & _ & _). destruct (Hfs steps) as (_ & _ & _ & _ & HA).
    assert (Lf : length (fixed_point (S steps) R x0) = (nf * n)%nat) by (rewrite <- Va, (values_length n) by exact (proj2 Sh); rewrite (proj1 Sh); reflexivity).
    destruct (unpacked L m dom e2 _ (proj1 He2) Lf) as (Sh' & Re' & Va'). fold n nf in Sh'.
    assert (EV : vec2fields (fixed_point (S steps) R x0) (e_fields e2) = fs (S steps)).
    { apply (values_inj n); [rewrite (proj1 Sh), (proj1 Sh'); reflexivity|exact (proj2 Sh')|exact (proj2 Sh)|apply (real_fields_real dom), Re'|apply (real_fields_real dom), Re|rewrite Va'; symmetry; exact Va]. }
    exists {| e_fields := fs (S steps); e_derived := e_derived e2 |}, (amplitude_of ft (fs steps)). split; [unfold ie_step; rewrite EP, EV; reflexivity|].
    split; [split; [split; [exact (proj1 Sh)|split; [exact (proj2 Sh)|exact (proj2 (proj2 (proj1 He2)))]]|exact Re]|]. exact HA.
  Qed.
End Iterate.
