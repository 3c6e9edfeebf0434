(** Lemmas for C109: the error of a run, and solvers that iterate. *)
From Verif Require Import ListAux FileModel StepProofs SddProofs DftSpec DftProofs RealSpec RealProofs SimSpec SimProofs2 SimProofs3 SimProofs4 SimProofs5 SimProofs6 MatchProofs MatchProofs2 LinearProofs2 LinearProofs3 ConvergeProofs.
From Verif Require ConvergeProps.
From Verif Require Import LimitProofs LimitProofs2 LimitProofs3 LimitProofs4 LimitSpec KeepSpec KeepProofs2 ImplicitModel ImplicitSpec ImplicitProofs ImplicitProofs2 ApproachSpec ApproachProofs ApproachProofs2 ApproachProofs3.
From Coq Require Import Reals Lia Lra.
From Verif Require Import Complex.
Open Scope R_scope.

Lemma ie_propagate_last solve p ft filt dt : forall k step e,
  ie_propagate solve p ft filt dt (S k) step e =
  match ie_propagate solve p ft filt dt k step e with
  | None => None
  | Some (e1, s1) => match ie_step solve p ft filt dt (ie_time dt s1) e1 with None => None | Some e' => Some (e', S s1) end
  end.
Proof.
  induction k as [|k IH]; intros step e.
  - cbn [ie_propagate]. reflexivity.
  - change (ie_propagate solve p ft filt dt (S (S k)) step e) with
      (match ie_step solve p ft filt dt (ie_time dt step) e with None => None | Some e' => ie_propagate solve p ft filt dt (S k) (S step) e' end).
    change (ie_propagate solve p ft filt dt (S k) step e) with
      (match ie_step solve p ft filt dt (ie_time dt step) e with None => None | Some e' => ie_propagate solve p ft filt dt k (S step) e' end).
    destruct (ie_step solve p ft filt dt (ie_time dt step) e) as [e'|]; [|reflexivity]. apply IH.
Qed.

Section Run.
  Variables (L : lang) (cs : list call) (es : list eqtext) (m : mstate).
  Hypothesis HD : declared L cs es.
  Hypothesis Em : run_calls new_mstate (cs ++ [CInit]) = Ok m.
  Variables (dom : list Z) (lib : library).
  Hypothesis Hv : valid_domain dom.
  Hypothesis Hsq : square_layout dom.
  Hypothesis GL : good_library L (nodes dom) lib.
  Hypothesis RL : real_library L cs es dom (length (pm_derived (ms_names m))) lib.
  Hypothesis HO : map q_field es = l_fields L.
  Let n := nodes dom.
  Hypothesis Hn : (0 < nodes dom)%nat.
  Variable T : R.
  Hypothesis HT : 0 < T.
  Hypothesis SM : smooth L cs es (nodes dom) lib T.
  Variable U : R -> list data.
  Hypothesis HU : solution_until L cs es (nodes dom) (fftw_transform dom) lib T U.
  Let ft := fftw_transform dom.
  Let nf := length (l_fields L).
  Let A := AA L es ft lib.
  Let F := FF L cs es n ft lib.
  Let p := simulation n ft lib m.
  Let Y := fun t => amplitude_of ft (U t).
  Let UT : unitary_transform n ft := fftw_unitary dom Hv.
  Let GT := ut_good n ft UT.

  Lemma solution_changes : forall i k t, (i < nf)%nat -> (k < n)%nat -> 0 <= t <= T -> changes (fun s => Y s i k) t (G A F Y i k t).
  Proof.
    intros i k t Hi Hk Ht. destruct HU as [HU0 HS]. destruct (nth_error es i) as [q|] eqn:Eq; [|exfalso; apply nth_error_None in Eq; unfold nf in Hi; rewrite <- HO, map_length in Hi; lia].
    destruct (HS t i q k Ht Eq Hk) as (M & HW & HC). replace (G A F Y i k t) with (Cadd M (source_sum cs lib t i k)); [exact HC|].
    unfold G, F, A, FF, AA. rewrite Eq. unfold Y. rewrite (reals_of L n ft UT Hn (U t) (HU0 t)).
    rewrite (rate_mine L cs es m HD Em n ft lib GL HO T SM (U t) _ t i q k M (HU0 t) Eq Hk HW). ring.
  Qed.
  Let HF : forall r, exists K, 0 <= K /\ forall t t' x y s u e, 0 <= t <= T -> 0 <= t' <= T -> within nf n r x -> within nf n r y -> within nf n r s -> within nf n r u ->
    near nf n e x y -> near nf n e s u -> Rabs (t - t') <= e -> forall i k, (i < nf)%nat -> (k < n)%nat -> size (Csub (F i k t x s) (F i k t' y u)) <= K * e
    := fun r => lip_FF L cs es n ft lib UT Hn T (Rlt_le _ _ HT) SM r.

  (** A vector of the right length is a list of real fields. *)
  Lemma unpacked e x : fits L n m e -> length x = (nf * n)%nat -> shaped nf n (vec2fields x (e_fields e)) /\ real_fields dom (vec2fields x (e_fields e)) /\ values (vec2fields x (e_fields e)) = x.
  Proof.
    intros Hf Hx. assert (Hl := proj1 (proj2 Hf)). assert (Hc : length (e_fields e) = nf) by exact (proj1 Hf).
    assert (Ha : all_length n (vec2fields x (e_fields e))) by (apply vec2fields_all; [exact Hl|rewrite Hc; exact Hx]).
    split; [split; [rewrite vec2fields_length; exact Hc|exact Ha]|]. split.
    - unfold real_fields. pose proof (vec2fields_real (e_fields e) x) as Hr. rewrite Forall_forall in *. intros d Hd. split; [|exact (Hr d Hd)].
      unfold all_length in Ha. rewrite Forall_forall in Ha. exact (Ha d Hd).
    - apply (pack_vec2fields n (e_fields e) Hl). rewrite Hc. exact Hx.
  Qed.

  Section Step.
    Variables (r c Cx : R).
    Hypothesis Hr : 0 <= r.
    Hypothesis Hc : 0 <= c.
    Hypothesis HCx : 0 <= Cx.
    Let rho := 2 * (INR n * r).
    Hypothesis TB : forall h t x E, 0 < h <= 1 -> 0 <= t <= T -> 0 <= E <= 1 -> near nf n E x (Y t) ->
      (forall v, near nf n rho v x -> near nf n (Cx * h) (target A F h t x v) x)
      /\ (forall v w e, 0 <= e -> near nf n rho v x -> near nf n rho w x -> near nf n e v w -> near nf n (Cx * h * e) (target A F h t x v) (target A F h t x w))
      /\ (forall v e, 0 <= e -> t + h <= T -> near nf n rho v x -> near nf n e v x -> near nf n ((1 + Cx * h) * E + Cx * h * e + Cx * h * h) (target A F h t x v) (Y (t + h))).
    Let kap := 2 * (INR n * c).
    Definition growth := Cx + Cx * (Cx + 2 * (INR (nodes dom) * c)) + 2 * (INR (nodes dom) * c).

    Lemma one_step filt solve h t e E : 0 < h <= 1 -> 0 <= t -> t + h <= T -> 0 <= E <= 1 -> real_env L m dom e -> near nf n E (amplitude_of ft (e_fields e)) (Y t) ->
      (forall R x0 e2, ie_problem p ft filt h t e = Some (R, x0, e2) -> nearly_solves r (c * h ^ 2) solve R x0 (values (e_fields e))) ->
      exists e', ie_step solve p ft filt h t e = Some e' /\ real_env L m dom e' /\ near nf n ((1 + growth * h) * E + growth * h * h) (amplitude_of ft (e_fields e')) (Y (t + h)).
    Proof.
      intros Hh Ht HtT HE He HN HS.
      destruct (declared_problem L cs es m HD Em dom lib Hv Hsq GL RL HO Hn T SM filt h t e He) as (R & x0 & e1 & e2 & EP & Ex0 & Lx0 & _ & _ & _ & He2 & HR).
      fold n in EP, Lx0, HR. fold ft in EP, HR. fold p in EP. fold nf in Lx0, HR. fold A F in HR. destruct (HS R x0 e2 EP) as [S1 S2 S3]. set (x := solve R x0) in *. rewrite Lx0 in S1, S2.
      destruct (unpacked e2 x (proj1 He2) S1) as (Sh & Re & Va). set (fs := vec2fields x (e_fields e2)) in *.
      exists {| e_fields := fs; e_derived := e_derived e2 |}. split; [unfold ie_step; rewrite EP; reflexivity|].
      split; [split; [split; [exact (proj1 Sh)|split; [exact (proj2 Sh)|exact (proj2 (proj2 (proj1 He2)))]]|exact Re]|]. cbn [e_fields].
      destruct (HR fs Sh Re) as (res & ER & Shr & Rer & HA). rewrite Va in ER. specialize (S3 _ ER).
      assert (Lres : length (values res) = (nf * n)%nat) by (rewrite (values_length n) by exact (proj2 Shr); rewrite (proj1 Shr); reflexivity). rewrite Lres in S3.
      assert (Sce : shaped nf n (e_fields e)) by exact (fits_shaped L m n e (proj1 He)).
      assert (HNn : 0 <= INR n) by apply pos_INR. assert (Hhh : 0 <= h ^ 2) by apply pow2_ge_0.
      assert (N1 : near nf n rho (amplitude_of ft fs) (amplitude_of ft (e_fields e))).
      { apply (near_of_entries dom nf Hv Hn r fs (e_fields e) Hr Sh Sce Re (proj2 He)). intros q Hq. rewrite Va. exact (S2 q Hq). }
      assert (W : within nf n (2 * (INR n * (c * h ^ 2))) (amplitude_of ft res)).
      { apply (small_of_entries dom nf Hv Hn (c * h ^ 2) res ltac:(apply Rmult_le_pos; assumption) Shr Rer). exact S3. }
      destruct (TB h t (amplitude_of ft (e_fields e)) E Hh ltac:(lra) HE HN) as (T1 & _ & T3).
      assert (Pk : 0 <= kap) by (unfold kap; apply Rmult_le_pos; [lra|apply Rmult_le_pos; assumption]).
      assert (N2 : near nf n (kap * h * h) (amplitude_of ft fs) (target A F h t (amplitude_of ft (e_fields e)) (amplitude_of ft fs))).
      { intros i k Hi Hk. pose proof (W i k Hi Hk) as Q. rewrite (HA i k Hi Hk) in Q. eapply Rle_trans; [exact Q|]. right. unfold kap. ring. }
      assert (Pkh : 0 <= kap * h) by (apply Rmult_le_pos; lra). assert (Pch : 0 <= Cx * h) by (apply Rmult_le_pos; lra).
      assert (N3 : near nf n ((Cx + kap) * h) (amplitude_of ft fs) (amplitude_of ft (e_fields e))).
      { intros i k Hi Hk. eapply Rle_trans; [apply (size_tri _ (target A F h t (amplitude_of ft (e_fields e)) (amplitude_of ft fs) i k))|].
        pose proof (N2 i k Hi Hk). pose proof (T1 _ N1 i k Hi Hk). assert (kap * h * h <= kap * h * 1) by (apply Rmult_le_compat_l; lra). lra. }
      assert (Pe : 0 <= (Cx + kap) * h) by (apply Rmult_le_pos; lra).
      intros i k Hi Hk. eapply Rle_trans; [apply (size_tri _ (target A F h t (amplitude_of ft (e_fields e)) (amplitude_of ft fs) i k))|].
      pose proof (N2 i k Hi Hk) as Q2. pose proof (T3 _ _ Pe HtT N1 N3 i k Hi Hk) as Q3.
      assert (PG : 0 <= Cx * (Cx + kap) + kap) by (assert (0 <= Cx * (Cx + kap)) by (apply Rmult_le_pos; lra); lra).
      unfold growth. fold n. fold kap.
      replace ((1 + (Cx + Cx * (Cx + kap) + kap) * h) * E + (Cx + Cx * (Cx + kap) + kap) * h * h)
        with (kap * h * h + ((1 + Cx * h) * E + Cx * h * ((Cx + kap) * h) + Cx * h * h) + (Cx * (Cx + kap) + kap) * (h * E)) by ring.
      assert (0 <= (Cx * (Cx + kap) + kap) * (h * E)) by (apply Rmult_le_pos; [exact PG|apply Rmult_le_pos; lra]). lra.
    Qed.

    Lemma whole_run filt solve h N delta e : 0 < h -> INR N * h <= T -> 0 < delta -> exp (growth * T) * h <= 1 -> exp (growth * T) * h <= sqrt delta -> h <= 1 ->
      real_env L m dom e -> e_fields e = U 0 ->
      (forall t e R x0 e2, 0 <= t -> t + h <= T -> real_env L m dom e -> close_to nf delta (e_fields e) (U t) -> ie_problem p ft filt h t e = Some (R, x0, e2) ->
        nearly_solves r (c * h ^ 2) solve R x0 (values (e_fields e))) ->
      forall k, (k <= N)%nat -> exists e', ie_propagate solve p ft filt h k 0%nat e = Some (e', k) /\ real_env L m dom e'
        /\ near nf n (h * ((1 + growth * h) ^ k - 1)) (amplitude_of ft (e_fields e')) (Y (INR k * h)).
    Proof.
      intros Hh HN Hd Hb1 Hb2 Hb3 He E0 HS. assert (Pk : 0 <= kap) by (unfold kap; apply Rmult_le_pos; [lra|apply Rmult_le_pos; [apply pos_INR|assumption]]).
      assert (PG : 0 <= growth) by (unfold growth; fold n; fold kap; assert (0 <= Cx * (Cx + kap)) by (apply Rmult_le_pos; lra); lra).
      induction k as [|k IH]; intros Hk.
      - exists e. split; [reflexivity|]. split; [exact He|]. cbn [pow INR]. rewrite Rmult_0_l, E0. intros i q _ _. unfold Y. replace (Csub _ _) with C0 by csolve. rewrite size_0. lra.
      - destruct (IH ltac:(lia)) as (e1 & EP & He1 & N1). destruct (grown growth T h N k PG Hh HN ltac:(lia)) as [G1 G2].
        set (E := h * ((1 + growth * h) ^ k - 1)) in *.
        assert (Et : ie_time h k = INR k * h) by (unfold ie_time; ring). assert (Ht : 0 <= INR k * h) by (apply Rmult_le_pos; [apply pos_INR|lra]).
        assert (HtT : INR k * h + h <= T). { replace (INR k * h + h) with (INR (S k) * h) by (rewrite S_INR; ring). eapply Rle_trans; [|exact HN]. apply Rmult_le_compat_r; [lra|apply le_INR; exact Hk]. }
        destruct (one_step filt solve h (INR k * h) e1 E ltac:(lra) Ht HtT ltac:(lra) He1 N1) as (e2 & ES & He2 & N2).
        { intros R x0 e2 EQ. apply (HS (INR k * h) e1 R x0 e2 Ht HtT He1); [|exact EQ].
          intros i Hi. eapply Rle_trans; [apply (close_of_near dom nf Hv Hn E (e_fields e1) (U (INR k * h)) (fits_shaped L m n e1 (proj1 He1)) (proj1 HU _) N1 i Hi)|].
          rewrite <- (sqrt_sqrt delta) by lra. replace (E ^ 2) with (E * E) by ring. apply Rmult_le_compat; lra. }
        exists e2. split; [rewrite ie_propagate_last, EP, Et, ES; reflexivity|]. split; [exact He2|].
        replace (INR (S k) * h) with (INR k * h + h) by (rewrite S_INR; ring).
        replace (h * ((1 + growth * h) ^ S k - 1)) with ((1 + growth * h) * E + growth * h * h); [exact N2|]. unfold E. cbn [pow]. ring.
    Qed.
  End Step.

  Lemma error_bound delta r c : 0 < delta -> 0 <= r -> 0 <= c -> exists D N0, 0 <= D /\ forall filt solve e N, (N0 <= N)%nat -> (0 < N)%nat ->
    real_env L m dom e -> e_fields e = U 0 ->
    (forall t e R x0 e2, 0 <= t -> t + T / INR N <= T -> real_env L m dom e -> close_to nf delta (e_fields e) (U t) -> ie_problem p ft filt (T / INR N) t e = Some (R, x0, e2) ->
      nearly_solves r (c * (T / INR N) ^ 2) solve R x0 (values (e_fields e))) ->
    forall k, (k <= N)%nat -> exists e', ie_propagate solve p ft filt (T / INR N) k 0%nat e = Some (e', k) /\ real_env L m dom e'
      /\ close_to nf ((D / INR N) ^ 2) (e_fields e') (U (INR k * (T / INR N))).
  Proof.
    intros Hd Hr Hc. destruct (target_bounds nf n A F Y T (Rlt_le _ _ HT) HF solution_changes (2 * (INR n * r))) as (Cx & HCx & TB); [apply Rmult_le_pos; [lra|apply Rmult_le_pos; [apply pos_INR|exact Hr]]|].
    set (C := growth c Cx). set (X := exp (C * T)). assert (PX : 0 < X) by apply exp_pos.
    set (b := Rmin (Rmin (/ X) (sqrt delta / X)) 1).
    assert (Ps : 0 < sqrt delta) by (apply sqrt_lt_R0; exact Hd).
    assert (Pb : 0 < b). { unfold b. apply Rmin_glb_lt; [apply Rmin_glb_lt; [apply Rinv_0_lt_compat; exact PX|apply Rdiv_lt_0_compat; assumption]|lra]. }
    destruct (ConvergeProps.above (T / b)) as (N0 & HN0). exists (X * T), N0. split; [apply Rmult_le_pos; lra|].
    intros filt solve e N HN HN1 He E0 HS k Hk.
    assert (HNr : 0 < INR N) by (apply lt_0_INR; exact HN1). assert (HN0' : INR N0 <= INR N) by (apply le_INR; exact HN).
    set (h := T / INR N) in *. assert (Hh : 0 < h <= b).
    { split; [apply Rdiv_lt_0_compat; lra|]. unfold h. apply Rmult_le_reg_r with (INR N); [exact HNr|]. replace (T / INR N * INR N) with T by (field; lra).
      replace T with (b * (T / b)) at 1 by (field; lra). apply Rmult_le_compat_l; lra. }
    assert (EN : INR N * h = T) by (unfold h; field; lra).
    assert (B1 : b <= / X) by (unfold b; eapply Rle_trans; [apply Rmin_l|apply Rmin_l]). assert (B2 : b <= sqrt delta / X) by (unfold b; eapply Rle_trans; [apply Rmin_l|apply Rmin_r]). assert (B3 : b <= 1) by apply Rmin_r.
    assert (H1 : X * h <= 1) by (replace 1 with (X * / X) by (field; lra); apply Rmult_le_compat_l; lra).
    assert (H2 : X * h <= sqrt delta) by (replace (sqrt delta) with (X * (sqrt delta / X)) by (field; lra); apply Rmult_le_compat_l; lra).
    destruct (whole_run r c Cx Hr Hc HCx TB filt solve h N delta e ltac:(lra) ltac:(lra) Hd H1 H2 ltac:(lra) He E0 HS k Hk) as (e' & EP & He' & Nr).
    exists e'. split; [exact EP|]. split; [exact He'|].
    assert (PG : 0 <= growth c Cx).
    { assert (0 <= 2 * (INR (nodes dom) * c)) by (apply Rmult_le_pos; [lra|apply Rmult_le_pos; [apply pos_INR|assumption]]). unfold growth. assert (0 <= Cx * (Cx + 2 * (INR (nodes dom) * c))) by (apply Rmult_le_pos; lra). lra. }
    destruct (grown (growth c Cx) T h N k PG ltac:(lra) ltac:(lra) Hk) as [G1 G2].
    replace (X * T / INR N) with (X * h) by (unfold h; field; lra).
    apply (close_of_near dom nf Hv Hn (X * h) _ _ (fits_shaped L m n e' (proj1 He')) (proj1 HU _)). intros i q Hi Hq. eapply Rle_trans; [apply Nr; assumption|]. exact G2.
  Qed.

  (** ** Fixed-point iteration *)
  Lemma iteration_fields h t e : real_env L m dom e -> forall R x0 e2, ie_problem p ft None h t e = Some (R, x0, e2) ->
    real_env L m dom e2 /\ length x0 = (nf * n)%nat /\ values (e_fields e2) = x0
    /\ exists fs, fs 0%nat = e_fields e2 /\ forall j, shaped nf n (fs j) /\ real_fields dom (fs j) /\ values (fs j) = fixed_point j R x0
    /\ (exists res, R (values (fs j)) = Some (values res) /\ shaped nf n res /\ forall i k, (i < nf)%nat -> (k < n)%nat ->
         amplitude_of ft res i k = Csub (amplitude_of ft (fs j) i k) (target A F h t (amplitude_of ft (e_fields e)) (amplitude_of ft (fs j)) i k))
    /\ forall i k, (i < nf)%nat -> (k < n)%nat -> amplitude_of ft (fs (S j)) i k = target A F h t (amplitude_of ft (e_fields e)) (amplitude_of ft (fs j)) i k.
  Proof.
    intros He R x0 e2 EQ. destruct (declared_problem L cs es m HD Em dom lib Hv Hsq GL RL HO Hn T SM None h t e He) as (R' & x0' & e1 & e2' & EP & Ex0 & Lx0 & _ & _ & _ & He2 & HR).
    fold n in EP, Lx0, HR. fold ft in EP, HR. fold p in EP. fold nf in Lx0, HR. fold A F in HR. rewrite EQ in EP. injection EP as <- <- <-. split; [exact He2|]. split; [exact Lx0|]. split; [symmetry; exact Ex0|].
    assert (Sc2 := fits_shaped L m n e2 (proj1 He2)).
    exists (fun j => vec2fields (fixed_point j R x0) (e_fields e2)).
    assert (Inj : forall f g, shaped nf n f -> shaped nf n g -> real_fields dom f -> real_fields dom g -> values f = values g -> f = g).
    { intros f g Sf Sg Rf Rg E. apply (values_inj n); [rewrite (proj1 Sf), (proj1 Sg); reflexivity|exact (proj2 Sf)|exact (proj2 Sg)|apply (real_fields_real dom), Rf|apply (real_fields_real dom), Rg|exact E]. }
    assert (Step : forall j, length (fixed_point j R x0) = (nf * n)%nat ->
      exists res, R (fixed_point j R x0) = Some (values res) /\ shaped nf n res /\ real_fields dom res /\ fixed_point (S j) R x0 = values (sub_fields (vec2fields (fixed_point j R x0) (e_fields e2)) res)
      /\ length (fixed_point (S j) R x0) = (nf * n)%nat
      /\ forall i k, (i < nf)%nat -> (k < n)%nat -> amplitude_of ft res i k = Csub (amplitude_of ft (vec2fields (fixed_point j R x0) (e_fields e2)) i k) (target A F h t (amplitude_of ft (e_fields e)) (amplitude_of ft (vec2fields (fixed_point j R x0) (e_fields e2))) i k)).
    { intros j Lj. destruct (unpacked e2 _ (proj1 He2) Lj) as (Sh & Re & Va). destruct (HR _ Sh Re) as (res & ER & Shr & Rer & HA). rewrite Va in ER. exists res.
      assert (EF : fixed_point (S j) R x0 = values (sub_fields (vec2fields (fixed_point j R x0) (e_fields e2)) res)).
      { cbn [fixed_point]. rewrite ER. rewrite (sub_values dom Hn _ res ltac:(rewrite (proj1 Sh), (proj1 Shr); reflexivity) (proj2 Sh) (proj2 Shr)). rewrite Va. reflexivity. }
      split; [exact ER|]. split; [exact Shr|]. split; [exact Rer|]. split; [exact EF|]. split; [|exact HA].
      rewrite EF. pose proof (sub_shape dom nf _ _ Sh Shr) as Ss. rewrite (values_length n) by exact (proj2 Ss). rewrite (proj1 Ss). reflexivity. }
    assert (Len : forall j, length (fixed_point j R x0) = (nf * n)%nat).
    { induction j as [|j IH]; [exact Lx0|]. destruct (Step j IH) as (res & _ & _ & _ & _ & Q & _). exact Q. }
    split.
    { cbn [fixed_point]. destruct (unpacked e2 x0 (proj1 He2) Lx0) as (Sh & Re & Va). apply Inj; try assumption; [exact (proj2 He2)|]. rewrite Va. exact Ex0. }
    intros j. destruct (unpacked e2 _ (proj1 He2) (Len j)) as (Sh & Re & Va). split; [exact Sh|]. split; [exact Re|]. split; [exact Va|].
    destruct (Step j (Len j)) as (res & ER & Shr & Rer & EF & _ & HA). split.
    { exists res. split; [rewrite Va; exact ER|]. split; [exact Shr|exact HA]. }
    intros i k Hi Hk. assert (EV : vec2fields (fixed_point (S j) R x0) (e_fields e2) = sub_fields (vec2fields (fixed_point j R x0) (e_fields e2)) res).
    { destruct (unpacked e2 _ (proj1 He2) (Len (S j))) as (Sh' & Re' & Va'). apply Inj; [exact Sh'|apply (sub_shape dom nf); assumption|exact Re'|apply (sub_real dom); assumption|]. rewrite Va'. exact EF. }
    rewrite EV. eapply eq_trans; [exact (sub_amplitude dom nf Hv Hn _ _ i k Sh Shr Hi Hk)|]. fold ft. rewrite (HA i k Hi Hk). csolve.
  Qed.

  Lemma fixed_point_solves q0 : exists delta r c h1, 0 < delta /\ 0 <= r /\ 0 <= c /\ 0 < h1 /\ forall steps h t e, (q0 <= steps)%nat -> 0 < h <= h1 -> 0 <= t -> t + h <= T ->
    real_env L m dom e -> close_to nf delta (e_fields e) (U t) -> forall R x0 e2, ie_problem p ft None h t e = Some (R, x0, e2) ->
    nearly_solves r (c * h ^ q0) (fixed_point steps) R x0 (values (e_fields e)).
  Proof.
    destruct (solution_bounded nf n A F Y T (Rlt_le _ _ HT) solution_changes) as (B & HB & HYB).
    destruct (scheme_steps nf n A F Y T (Rlt_le _ _ HT) HF solution_changes) as (C & h0 & HC & Hh0 & Hz & Hst).
    set (rho := 2 * B + 2). assert (Prho : 2 <= rho) by (unfold rho; lra).
    destruct (target_bounds nf n A F Y T (Rlt_le _ _ HT) HF solution_changes rho ltac:(lra)) as (Cx & HCx & TB).
    assert (HNn : 0 < INR n) by (apply lt_0_INR; exact Hn).
    set (h1 := Rmin (Rmin h0 1) (Rmin (/ (1 + C)) (/ (1 + Cx)))).
    exists ((/ 8) ^ 2 / INR n), (2 * rho), (2 * (Cx ^ q0 * (2 * rho))), h1.
    split; [apply Rdiv_lt_0_compat; [apply pow_lt; lra|exact HNn]|]. split; [lra|]. split; [apply Rmult_le_pos; [lra|apply Rmult_le_pos; [apply pow_le; exact HCx|lra]]|].
    split. { unfold h1. repeat apply Rmin_glb_lt; try lra; apply Rinv_0_lt_compat; lra. }
    intros steps h t e Hs Hh Ht HtT He Hcl R x0 e2 EQ.
    assert (B0 : h <= h0) by (eapply Rle_trans; [apply Hh|unfold h1; eapply Rle_trans; [apply Rmin_l|apply Rmin_l]]).
    assert (B1 : h <= 1) by (eapply Rle_trans; [apply Hh|unfold h1; eapply Rle_trans; [apply Rmin_l|apply Rmin_r]]).
    assert (B2 : C * h <= 1).
    { assert (h <= / (1 + C)) by (eapply Rle_trans; [apply Hh|unfold h1; eapply Rle_trans; [apply Rmin_r|apply Rmin_l]]).
      apply Rle_trans with ((1 + C) * h); [lra|]. replace 1 with ((1 + C) * / (1 + C)) at 2 by (field; lra). apply Rmult_le_compat_l; lra. }
    assert (B3 : Cx * h <= 1).
    { assert (h <= / (1 + Cx)) by (eapply Rle_trans; [apply Hh|unfold h1; eapply Rle_trans; [apply Rmin_r|apply Rmin_r]]).
      apply Rle_trans with ((1 + Cx) * h); [lra|]. replace 1 with ((1 + Cx) * / (1 + Cx)) at 2 by (field; lra). apply Rmult_le_compat_l; lra. }
    assert (Sce := fits_shaped L m n e (proj1 He)).
    pose proof (near_of_close dom nf Hv Hn (/ 8) (e_fields e) (U t) ltac:(lra) Sce (proj1 HU t) Hcl) as N0.
    assert (N1 : near nf n (/ 4) (amplitude_of ft (e_fields e)) (Y t)) by (intros i k Hi Hk; pose proof (N0 i k Hi Hk) as Q; unfold Y; eapply Rle_trans; [exact Q|lra]).
    destruct (iteration_fields h t e He R x0 e2 EQ) as (He2 & Lx0 & Ex0 & fs & F0 & Hfs).
    (* the guess *)
    assert (N2 : near nf n rho (amplitude_of ft (e_fields e2)) (amplitude_of ft (e_fields e))).
    { destruct (declared_problem L cs es m HD Em dom lib Hv Hsq GL RL HO Hn T SM None h t e He) as (R' & x0' & e1 & e2' & EP & _ & _ & Hf1 & Ee1 & Es & _ & _).
      fold n in EP, Es, Hf1. fold ft in EP, Es. fold p in EP, Es. rewrite EQ in EP. injection EP as <- <- <-.
      destruct (euler_scheme L cs es m HD Em n ft lib GL UT HO Hn T SM h t e1 Hf1) as (e3 & Es3 & _ & Sch); [intros i k Hi Hk; apply Hz; (assumption || lra)|].
      fold p in Es3. rewrite Es in Es3. injection Es3 as <-. rewrite Ee1 in Sch.
      pose proof (Hst _ (or_introl eq_refl) h t _ _ (/ 4) ltac:(lra) Ht HtT ltac:(lra) Sch N1) as Q. intros i k Hi Hk.
      pose proof (Q i k Hi Hk) as Q1. pose proof (N1 i k Hi Hk) as Q2. pose proof (HYB t ltac:(lra) i k Hi Hk) as Q3. pose proof (HYB (t + h) ltac:(lra) i k Hi Hk) as Q4.
      rewrite size_sub_sym in Q2.
      eapply Rle_trans; [apply (size_tri _ (Y (t + h) i k))|]. pose proof (size_tri (Y (t + h) i k) (Y t i k) (amplitude_of ft (e_fields e) i k)) as Q5. pose proof (size_sub (Y (t + h) i k) (Y t i k)) as Q6.
      assert (C * h * h <= 1 * 1) by (apply Rmult_le_compat; try lra; apply Rmult_le_pos; lra). unfold rho. lra. }
    destruct (TB h t (amplitude_of ft (e_fields e)) (/ 4) ltac:(lra) ltac:(lra) ltac:(lra) N1) as (T1 & T2 & _).
    assert (Pch : 0 <= Cx * h) by (apply Rmult_le_pos; lra).
    assert (It : forall j, near nf n rho (amplitude_of ft (fs j)) (amplitude_of ft (e_fields e)) /\ near nf n ((Cx * h) ^ j * (2 * rho)) (amplitude_of ft (fs j)) (target A F h t (amplitude_of ft (e_fields e)) (amplitude_of ft (fs j)))).
    { apply (iterates nf n A F Cx rho h t (amplitude_of ft (e_fields e)) (fun j => amplitude_of ft (fs j)) ltac:(lra) Pch ltac:(lra) T1 T2).
      - intros j i k Hi Hk. apply (Hfs j); assumption.
      - rewrite F0. exact N2. }
    destruct (Hfs steps) as (Sh & Re & Va & (res & ER & Shr & HA) & _). destruct (It steps) as [I1 I2].
    assert (Lf : length (fixed_point steps R x0) = (nf * n)%nat) by (rewrite <- Va, (values_length n) by exact (proj2 Sh); rewrite (proj1 Sh); reflexivity).
    split.
    - rewrite Lf, Lx0. reflexivity.
    - rewrite Lx0. intros q Hq. rewrite <- Va. apply (entries_of_near dom nf Hv Hn rho (fs steps) (e_fields e) ltac:(lra) Sh Sce I1 q Hq).
    - intros out EO q Hq. rewrite Va in ER. rewrite EO in ER. injection ER as ->. rewrite (values_length n) in Hq by exact (proj2 Shr). rewrite (proj1 Shr) in Hq.
      assert (W : within nf n (Cx ^ q0 * (2 * rho) * h ^ q0) (amplitude_of ft res)).
      { intros i k Hi Hk. rewrite (HA i k Hi Hk). eapply Rle_trans; [apply I2; assumption|]. replace (Cx ^ q0 * (2 * rho) * h ^ q0) with ((Cx * h) ^ q0 * (2 * rho)) by (rewrite Rpow_mult_distr; ring).
        apply Rmult_le_compat_r; [lra|]. replace steps with (q0 + (steps - q0))%nat by lia. rewrite pow_add. rewrite <- (Rmult_1_r ((Cx * h) ^ q0)) at 2. apply Rmult_le_compat_l; [apply pow_le; exact Pch|].
        rewrite <- (pow1 (steps - q0)). apply pow_incr. lra. }
      assert (PW : 0 <= Cx ^ q0 * (2 * rho) * h ^ q0) by (apply Rmult_le_pos; [apply Rmult_le_pos; [apply pow_le; exact HCx|lra]|apply pow_le; lra]).
      eapply Rle_trans; [apply (entries_of_small dom nf Hv Hn _ res PW Shr W q Hq)|]. right. ring.
  Qed.
End Run.
