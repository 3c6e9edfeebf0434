(** Lemmas for C109: the problem ImplicitEuler poses for a declared model. *)
From Verif Require Import ListAux FileModel StepProofs SddProofs DftSpec DftProofs RealSpec RealProofs SimSpec SimProofs SimProofs2 SimProofs3 SimProofs4 SimProofs5 SimProofs6 MatchProofs MatchProofs2.
From Verif Require Import LimitProofs LimitProofs2 LimitProofs3 LimitSpec KeepSpec KeepProofs2 ImplicitModel ImplicitSpec ImplicitProofs2 ApproachProofs.
From Coq Require Import Reals Lia Lra.
From Verif Require Import Complex.
Open Scope R_scope.

(** ** The update commutes with conjugation *)
Lemma conj_exp z : Cexp (Cconj z) = Cconj (Cexp z).
Proof. destruct z as [a b]. unfold Cexp, Cconj, Re, Im. cbn [fst snd]. rewrite cos_neg, sin_neg. f_equal; ring. Qed.
Lemma conj_abs z : Cabs (Cconj z) = Cabs z.
Proof. unfold Cabs. f_equal. destruct z as [a b]. unfold Cnorm2, Cconj, Re, Im. cbn [fst snd]. ring. Qed.
Lemma conj_update h o a r r0 : ie_update h (Cconj o) (Cconj a) (Cconj r) (Cconj r0) = Cconj (ie_update h o a r r0).
Proof.
  assert (E : Cexp (Cmul (Cconj a) (RtoC h)) = Cconj (Cexp (Cmul a (RtoC h)))) by (rewrite <- conj_exp, Cconj_mul, Complex.Cconj_RtoC; reflexivity).
  assert (E1 : Cconj C1 = C1) by csolve.
  unfold ie_update, nonlinear_integral. rewrite conj_abs, E. set (f := Cexp (Cmul a (RtoC h))). destruct (Rlt_dec (Cabs a) (/ 10 ^ 5)).
  - repeat rewrite ?Cconj_add, ?Cconj_mul, ?Complex.Cconj_RtoC. reflexivity.
  - repeat rewrite ?Cconj_add, ?Cconj_mul, ?Cconj_div, ?Cconj_sub, ?Complex.Cconj_RtoC, ?E1. reflexivity.
Qed.

Section Declared.
  Variables (L : lang) (cs : list call) (es : list eqtext) (m : mstate).
  Hypothesis HD : declared L cs es.
  Hypothesis Em : run_calls new_mstate (cs ++ [CInit]) = Ok m.
  Variables (dom : list Z) (lib : library).
  Hypothesis Hv : valid_domain dom.
  Hypothesis Hsq : square_layout dom.
  Let n := nodes dom.
  Let ft := fftw_transform dom.
  Hypothesis GL : good_library L n lib.
  Hypothesis RL : real_library L cs es dom (length (pm_derived (ms_names m))) lib.
  Hypothesis HO : map q_field es = l_fields L.
  Hypothesis Hn : (0 < n)%nat.
  Variable T : R.
  Hypothesis HT : 0 <= T.
  Hypothesis SM : smooth L cs es n lib T.
  Let UT : unitary_transform n ft := fftw_unitary dom Hv.
  Let GT := ut_good n ft UT.
  Let p := simulation n ft lib m.
  Let nf := length (l_fields L).
  Let A := AA L es ft lib.
  Let F := FF L cs es n ft lib.

  Definition real_env (e : env) : Prop := fits L n m e /\ real_fields dom (e_fields e).
  Lemma fits_sized e : fits L n m e -> sized nf (length (p_calc p)) e.
  Proof. intros (H1 & _ & H3). split; [exact H1|]. unfold p, n, ft. rewrite calc_count. exact H3. Qed.
  Lemma equations_count : length es = nf.
  Proof. unfold nf. rewrite <- HO, map_length. reflexivity. Qed.
  Lemma model_fft_spectrum e : model_fft p ft e = spectrum p ft e.
  Proof. unfold model_fft, spectrum. cbv zeta. rewrite sync_fields. reflexivity. Qed.

  (** Right-hand sides and denominators of a real state. *)
  Lemma parts_of e t i : real_env e -> (i < nf)%nat -> exists r a, get_rhs p (model_fft p ft e) i t n = Some r /\ get_denum p (model_fft p ft e) i t n = Some a
    /\ herm dom r /\ herm dom a
    /\ forall k, (k < n)%nat -> nth k r C0 = F i k t (amplitude_of ft (e_fields e)) (amplitude_of ft (e_fields e)) /\ nth k a C0 = A i k.
  Proof.
    intros [Hf Hr] Hi. destruct (nth_error es i) as [q|] eqn:Eq; [|exfalso; apply nth_error_None in Eq; rewrite equations_count in Eq; lia].
    destruct (declared_rhs L cs es HD) as (m' & Em' & _ & HR). rewrite Em in Em'. injection Em' as <-.
    assert (Hqf : nth_error (l_fields L) i = Some (q_field q)) by (rewrite <- HO, nth_error_map, Eq; reflexivity).
    destruct (HR n ft lib e t i q GL Hf Eq Hqf) as (r & a & y & Er & Ea & Ey & Lr & La & HV). fold p in Er, Ea, Ey, HV. rewrite model_fft_spectrum.
    assert (HE : herm_env dom nf p (spectrum p ft e)).
    { rewrite <- model_fft_spectrum. exact (real_spectrum dom nf p Hv Hsq (declared_real L cs es m HD Em dom lib Hv GL RL) e Hr (fits_sized e Hf)). }
    exists r, a. split; [exact Er|]. split; [exact Ea|].
    split; [exact (rp_rhs dom nf p (declared_real L cs es m HD Em dom lib Hv GL RL) _ i t r HE Er)|].
    split; [exact (rp_denum dom nf p (declared_real L cs es m HD Em dom lib Hv GL RL) _ i t a HE Ea)|].
    intros k Hk. assert (EA : nth k a C0 = AF L ft lib q k).
    { exact (denum_mine L cs es m HD Em n ft lib GL T SM _ t i q a k Eq Hk Ea). }
    assert (S0 : shaped nf n (e_fields e)) by (split; [exact (proj1 Hf)|exact (proj1 (proj2 Hf))]).
    destruct (written_exists L cs es m HD Em n ft lib (spectrum p ft e) t q k (e_fields e)) as (M & HM). pose proof (HV k Hk M HM) as H.
    rewrite (rate_mine L cs es m HD Em n ft lib GL HO T SM _ _ t i q k M S0 Eq Hk HM) in H.
    assert (EY : nth k y C0 = amplitude_of ft (e_fields e) i k).
    { unfold amplitude_of. cbn [spectrum e_fields] in Ey. rewrite nth_error_map in Ey. destruct (nth_error (e_fields e) i) as [d|] eqn:Ed; [|discriminate]. injection Ey as <-.
      rewrite (nth_error_nth _ _ _ Ed). reflexivity. }
    rewrite EY, EA in H. split; [|unfold A, AA; rewrite Eq; exact EA].
    unfold F, FF. rewrite Eq, (reals_of L n ft UT Hn (e_fields e) S0).
    set (X := XF L n ft lib q k (e_fields e) (amplitude_of ft (e_fields e))) in *. set (yv := amplitude_of ft (e_fields e) i k) in *. set (s := source_sum cs lib t i k) in *.
    transitivity (Csub (Cadd (nth k r C0) (Cmul (AF L ft lib q k) yv)) (Cmul (AF L ft lib q k) yv)); [ring|]. rewrite H. ring.
  Qed.

  (** The residual of every field. *)
  Lemma residual_fields h t e e1 : real_env e -> real_env e1 -> forall fs os i, real_fields dom fs -> real_fields dom os -> length os = length fs -> (i + length fs <= nf)%nat ->
    exists prev res, rhs_all p (model_fft p ft e) t i (map (fft ft) os) = Some prev
    /\ residuals p ft h t (model_fft p ft e1) i (map (fft ft) fs) (map (fft ft) os) prev = Some (values res)
    /\ length res = length fs /\ real_fields dom res
    /\ forall j k, (j < length fs)%nat -> (k < n)%nat -> amplitude_of ft res j k = Csub (amplitude_of ft fs j k)
        (ie_update h (amplitude_of ft os j k) (A (i + j) k) (F (i + j)%nat k t (amplitude_of ft (e_fields e1)) (amplitude_of ft (e_fields e1)))
          (F (i + j)%nat k t (amplitude_of ft (e_fields e)) (amplitude_of ft (e_fields e)))).
  Proof.
    intros He He1. induction fs as [|d fs IH]; intros [|o os] i Hf Ho Hl Hi; try discriminate.
    { exists [], []. split; [reflexivity|]. split; [reflexivity|]. split; [reflexivity|]. split; [constructor|]. intros j k Hj. cbn [length] in Hj. lia. }
    cbn [length] in Hl, Hi. apply Forall_cons_iff in Hf. destruct Hf as [[Ld Rd] Hf']. apply Forall_cons_iff in Ho. destruct Ho as [[Lo Ro] Ho'].
    destruct (IH os (S i) Hf' Ho' ltac:(lia) ltac:(lia)) as (prev & res & E1 & E2 & Lr & Rr & HA).
    destruct (parts_of e t i He ltac:(lia)) as (r0 & a0 & Er0 & _ & [Lr0 Hr0] & _ & HV0).
    destruct (parts_of e1 t i He1 ltac:(lia)) as (r & a & Er & Ea & [Lr' Hr'] & [La' Ha'] & HV).
    assert (Lfo : length (fft ft o) = n) by (apply (gt_fft_len _ _ GT); exact Lo). assert (Lfd : length (fft ft d) = n) by (apply (gt_fft_len _ _ GT); exact Ld).
    set (W := map2 Csub (fft ft d) (map4 (ie_update h) (fft ft o) a r r0)).
    assert (L4 : length (map4 (ie_update h) (fft ft o) a r r0) = n) by (apply map4_length; assumption).
    assert (LW : length W = n) by (apply StepProofs.map2_length; assumption).
    assert (NW : forall k, (k < n)%nat -> nth k W C0 = Csub (nth k (fft ft d) C0) (ie_update h (nth k (fft ft o) C0) (nth k a C0) (nth k r C0) (nth k r0 C0))).
    { intros k Hk. unfold W. rewrite (map2_nth' _ _ _ k n Lfd L4 Hk). rewrite (map4_nth _ k n Hk) by assumption. reflexivity. }
    assert (HW : hermitian dom W).
    { apply (herm_ext dom W (fun k => Csub (nth k (fft ft d) C0) (ie_update h (nth k (fft ft o) C0) (nth k a C0) (nth k r C0) (nth k r0 C0))) Hv NW).
      assert (Hd := hermitian_of_real dom d Hv Hsq Rd). assert (Hoo := hermitian_of_real dom o Hv Hsq Ro).
      apply (herm_iff dom _ Hv) in Hd, Hoo, Hr', Ha', Hr0. intros k k' Hk Hk' Hc.
      assert (Q1 := Hd k k' Hk Hk' Hc). assert (Q2 := Hoo k k' Hk Hk' Hc). assert (Q3 := Ha' k k' Hk Hk' Hc). assert (Q4 := Hr' k k' Hk Hk' Hc). assert (Q5 := Hr0 k k' Hk Hk' Hc). cbv beta in *.
      unfold ft. rewrite Q1, Q2, Q3, Q4, Q5, Cconj_sub, conj_update. reflexivity. }
    exists (r0 :: prev), (to_real ft W :: res). split; [cbn [map rhs_all]; rewrite Lfo, Er0, E1; reflexivity|].
    split.
    { cbn [map residuals]. rewrite Lfd, Er, Ea, E2. cbv zeta. fold W. unfold values. cbn [map concat]. unfold to_real. rewrite LW. reflexivity. }
    split; [cbn [length]; lia|]. split.
    { constructor; [|exact Rr]. split; [unfold to_real; rewrite div_real_length; apply (gt_ifft_len _ _ GT), LW|]. unfold ft. apply (real_of_hermitian dom); assumption. }
    intros [|j] k Hj Hk.
    - unfold amplitude_of at 1 2 3. cbn [nth]. rewrite (gt_inverse _ _ GT W LW), (NW k Hk), Nat.add_0_r.
      destruct (HV k Hk) as [-> ->]. destruct (HV0 k Hk) as [-> _]. reflexivity.
    - cbn [length] in Hj. specialize (HA j k ltac:(lia) Hk). unfold amplitude_of in HA at 1 2 3. unfold amplitude_of at 1 2 3. cbn [nth].
      replace (i + S j)%nat with (S i + j)%nat by lia. exact HA.
  Qed.

  (** The problem: the amplitudes of the residual. *)
  Theorem declared_problem filt h t e : real_env e ->
    exists R x0 e1 e2, ie_problem p ft filt h t e = Some (R, x0, e2) /\ x0 = values (e_fields e2) /\ length x0 = (nf * n)%nat
    /\ fits L n m e1 /\ e_fields e1 = e_fields e /\ euler_step p ft filt h t e1 = Some e2 /\ real_env e2
    /\ forall fs, shaped nf n fs -> real_fields dom fs -> exists res, R (values fs) = Some (values res) /\ shaped nf n res /\ real_fields dom res
       /\ forall i k, (i < nf)%nat -> (k < n)%nat -> amplitude_of ft res i k
          = Csub (amplitude_of ft fs i k) (target A F h t (amplitude_of ft (e_fields e)) (amplitude_of ft fs) i k).
  Proof.
    intros He. assert (Hf := proj1 He). assert (Hr := proj2 He). assert (Hl := proj1 (proj2 Hf)).
    assert (Hc : length (e_fields e) = nf) by exact (proj1 Hf).
    destruct (residual_fields h t e e He He (e_fields e) (e_fields e) 0 Hr Hr eq_refl ltac:(lia)) as (prev & _ & EP & _).
    assert (EI : model_ifft ft (model_fft p ft e) = {| e_fields := e_fields e; e_derived := e_derived (model_fft p ft e) |}).
    { unfold model_ifft. rewrite model_fft_fields, (map_round n ft GT) by exact Hl. reflexivity. }
    set (e1 := {| e_fields := e_fields e; e_derived := e_derived (model_fft p ft e) |}) in *.
    assert (Hf1 : fits L n m e1).
    { split; [exact (proj1 Hf)|]. split; [exact Hl|]. cbn [e1 e_derived]. unfold model_fft. cbn [e_derived]. rewrite map_length. unfold sync. rewrite sync_from_count. exact (proj2 (proj2 Hf)). }
    destruct (euler_facts L cs es m HD Em n ft lib GL GT HO filt h t e1 Hf1) as (e2 & _ & Es & _ & _ & Hf2 & _). fold p in Es.
    assert (Hr2 : real_fields dom (e_fields e2)).
    { refine (proj1 (euler_real dom nf p filt h Hv Hsq (declared_real L cs es m HD Em dom lib Hv GL RL) t e1 e2 Hr (fits_sized e1 Hf1) Es)). }
    exists (update_equation p ft h t (map (fft ft) (e_fields e)) prev e2), (values (e_fields e2)), e1, e2.
    split; [unfold ie_problem; cbv zeta; rewrite model_fft_fields, EP, EI, Es; reflexivity|]. split; [reflexivity|].
    assert (H2c : length (e_fields e2) = nf) by exact (proj1 Hf2). assert (H2l := proj1 (proj2 Hf2)).
    split; [rewrite (values_length n) by exact H2l; rewrite H2c; reflexivity|]. split; [exact Hf1|]. split; [reflexivity|]. split; [exact Es|]. split; [split; assumption|].
    intros fs [Hs1 Hs2] Hfr.
    assert (EV : vec2fields (values fs) (e_fields e2) = fs).
    { apply (values_inj n).
      - rewrite vec2fields_length. lia.
      - apply vec2fields_all; [exact H2l|]. rewrite (values_length n) by exact Hs2. lia.
      - exact Hs2.
      - exact (vec2fields_real _ _).
      - apply (real_fields_real dom). exact Hfr.
      - apply (pack_vec2fields n (e_fields e2) H2l). rewrite (values_length n) by exact Hs2. lia. }
    set (e3 := {| e_fields := fs; e_derived := e_derived e2 |}).
    assert (He3 : real_env e3) by (split; [split; [exact Hs1|split; [exact Hs2|exact (proj2 (proj2 Hf2))]]|exact Hfr]).
    destruct (residual_fields h t e e3 He He3 fs (e_fields e) 0 Hfr Hr ltac:(lia) ltac:(lia)) as (prev' & res & EP' & ER & Lr & Rr & HA).
    assert (prev' = prev) by congruence. subst prev'.
    exists res. split; [unfold update_equation; rewrite EV; fold e3; cbv zeta; rewrite model_fft_fields; exact ER|].
    split; [split; [lia|]|].
    { unfold all_length, real_fields in *. rewrite Forall_forall in *. intros d Hd. apply (Rr d Hd). }
    split; [exact Rr|]. intros i k Hi Hk. rewrite (HA i k ltac:(lia) Hk). reflexivity.
  Qed.
End Declared.
