(** The problem ImplicitEuler poses for a linear model, and its zero. *)
From Verif Require Import ListAux FileModel StepProofs SddProofs DftSpec DftProofs RealSpec RealProofs SimSpec SimProofs SimProofs2 SimProofs3 SimProofs4 SimProofs5 SimProofs6 LinearSpec LinearProofs LinearProofs2 SaddleSpec SaddleProofs3 SaddleProofs4 TrackProofs ImplicitModel ImplicitSpec ImplicitProofs Vec CVec Complex.
From Coq Require Import Lia Lra.
Open Scope R_scope.

Lemma Cexp_real x : Cexp (RtoC x) = RtoC (exp x).
Proof. unfold Cexp, RtoC, Re, Im. cbn [fst snd]. rewrite cos_0, sin_0. f_equal; ring. Qed.
Lemma update_linear dt o s : ie_update dt o (RtoC s) C0 C0 = Cmul (RtoC (exp (dt * s))) o.
Proof.
  unfold ie_update, nonlinear_integral. rewrite <- RtoC_mul, Cexp_real, (Rmult_comm s dt).
  replace (if Rlt_dec _ _ then _ else _) with C0; [ring|].
  destruct (Rlt_dec _ _); [ring|]. unfold Cdiv. ring.
Qed.
Lemma map4_nth (f : C -> C -> C -> C -> C) k n : (k < n)%nat -> forall a b d e, length a = n -> length b = n -> length d = n -> length e = n ->
  nth k (map4 f a b d e) C0 = f (nth k a C0) (nth k b C0) (nth k d C0) (nth k e C0).
Proof.
  revert n. induction k as [|k IH]; intros [|n] Hk [|x a] [|y b] [|z d] [|w e] H1 H2 H3 H4; try discriminate; try lia; cbn [map4 nth]; [reflexivity|].
  cbn [length] in *. apply (IH n); lia.
Qed.

Lemma app_split (a : list R) : forall b c d, length a = length c -> a ++ b = c ++ d -> a = c /\ b = d.
Proof. induction a as [|x a IH]; intros b [|y c] d H E; try discriminate; [split; [reflexivity|exact E]|]. cbn [app length] in *. injection E as -> E. destruct (IH b c d ltac:(lia) E) as [-> ->]. split; reflexivity. Qed.

Lemma values_length n fs : all_length n fs -> length (values fs) = (length fs * n)%nat.
Proof. intros H. unfold values. induction H as [|d fs Hd _ IH]; [reflexivity|]. cbn [map concat length]. rewrite app_length, map_length, IH, Hd. lia. Qed.
Lemma values_inj n fs : forall gs : list data, length gs = length fs -> all_length n fs -> all_length n gs -> Forall real_field fs -> Forall real_field gs -> values fs = values gs -> fs = gs.
Proof.
  induction fs as [|d fs IH]; intros [|g gs] Hl Hf Hg Rf Rg E; try discriminate; [reflexivity|].
  apply Forall_cons_iff in Hf. destruct Hf as [Ld Hf']. apply Forall_cons_iff in Hg. destruct Hg as [Lg Hg']. apply Forall_cons_iff in Rf. destruct Rf as [Rd Rf']. apply Forall_cons_iff in Rg. destruct Rg as [Re_ Rg'].
  unfold values in E. cbn [map concat] in E. apply app_split in E; [|rewrite !map_length; congruence]. destruct E as [E1 E2].
  f_equal.
  - apply (list_eq_nth _ _ n Ld Lg). intros j Hj. apply C_eq.
    + rewrite <- !(map_nth Re). rewrite E1. reflexivity.
    + apply real_field_nth with (j := j) in Rd; [|lia]. apply real_field_nth with (j := j) in Re_; [|lia]. congruence.
  - apply IH; try assumption. cbn [length] in Hl. lia.
Qed.

Section Linear.
  Variables (L : lang) (cs : list call) (es : list eqtext) (m : mstate) (dom : list Z) (lib : library) (rate : nat -> nat -> R).
  Hypothesis LM : linear_model L cs es.
  Hypothesis Em : run_calls new_mstate (cs ++ [CInit]) = Ok m.
  Hypothesis Hv : valid_domain dom.
  Hypothesis Hsq : square_layout dom.
  Let n := nodes dom.
  Let ft := fftw_transform dom.
  Hypothesis GL : good_library L n lib.
  Hypothesis RS : forall i q, nth_error es i = Some q -> real_symbols L lib n ft q (rate i).
  Let p := simulation n ft lib m.
  Let U : unitary_transform n ft := fftw_unitary dom Hv.
  Let G := ut_good n ft U.
  Let HD := lm_declared _ _ _ LM.
  Let KL : keeps_length n p := sim_keeps_length L m n ft lib GL.

  Lemma rate_even i : (i < length es)%nat -> even_rate dom (rate i).
  Proof.
    intros Hi k k' Hk Hk' Hc. destruct (nth_error es i) as [q|] eqn:Eq; [|apply nth_error_None in Eq; lia].
    assert (Fr : tfreq ft k' = tfreq ft k \/ norm_sq (tfreq ft k') = norm_sq (tfreq ft k)) by (right; apply conj_norm_sq, (conj_tfreq dom k k' Hv Hk Hk' Hc)).
    assert (E := RS i q Eq k Hk). assert (E' := RS i q Eq k' Hk'). rewrite (symbol_lap L lib (tfreq ft k') (tfreq ft k) q) in E' by (destruct Fr as [->|H]; [reflexivity|exact H]).
    rewrite E in E'. apply (f_equal Re) in E'. cbn [Re RtoC fst] in E'. symmetry. exact E'.
  Qed.

  Lemma linear_rhs_all e t : forall fs i, all_length n fs -> (i + length fs <= length es)%nat ->
    rhs_all p e t i fs = Some (map (fun _ => repeat C0 n) fs).
  Proof.
    induction fs as [|d fs IH]; intros i Hf Hi; [reflexivity|]. cbn [length] in Hi. inversion Hf as [|? ? Ld Hf']; subst. cbn [rhs_all map]. rewrite Ld.
    unfold p at 1. rewrite (linear_rhs L cs es LM m Em n ft lib e i t) by lia. rewrite (IH (S i) Hf') by lia. reflexivity.
  Qed.

  Lemma residual_field dt e i t q d o a : (0 < n)%nat -> nth_error es i = Some q -> length d = n -> length o = n -> real_field o ->
    get_denum p e i t n = Some a ->
    map Re (div_real (ifft ft (map2 Csub (fft ft d) (map4 (ie_update dt) (fft ft o) a (repeat C0 n) (repeat C0 n)))) (INR n))
    = minus (map Re d) (map Re (evolved n ft dt (rate i) o)).
  Proof.
    intros Hn Hq Ld Lo Hr Ha. destruct (linear_denum L cs es LM m Em n ft lib GL G e i q t Hq) as (a' & Ea & La & HA). fold p in Ea. rewrite Ha in Ea. injection Ea as <-.
    assert (Lfo := gt_fft_len _ _ G o Lo). assert (Lfd := gt_fft_len _ _ G d Ld).
    assert (EM : map4 (ie_update dt) (fft ft o) a (repeat C0 n) (repeat C0 n) = map (fun k => Cmul (RtoC (exp (dt * rate i k))) (nth k (fft ft o) C0)) (seq 0 n)).
    { apply (list_eq_nth _ _ n).
      - apply map4_length; try assumption; apply repeat_length.
      - apply amplitudes_length.
      - intros k Hk. rewrite (map4_nth _ k n Hk _ _ _ _ Lfo La (repeat_length _ _) (repeat_length _ _)). unfold n, ft. rewrite (amplitudes_nth dom) by exact Hk.
        rewrite !nth_repeat, (HA k Hk), (RS i q Hq k Hk), update_linear. reflexivity. }
    rewrite EM. set (M := map _ (seq 0 n)). assert (LM' : length M = n) by apply amplitudes_length.
    assert (Ls : length (map2 Csub (fft ft d) M) = n) by (apply StepProofs.map2_length; assumption).
    assert (Lv := evolved_length dom Hv dt (rate i) o). fold n ft in Lv.
    apply (nth_ext _ _ 0 0).
    - rewrite map_length, div_real_length, (gt_ifft_len _ _ G) by exact Ls. rewrite minus_length by (rewrite !map_length; congruence). rewrite map_length. congruence.
    - intros j Hj. rewrite map_length, div_real_length, (gt_ifft_len _ _ G) in Hj by exact Ls.
      rewrite minus_nth by (rewrite ?map_length; congruence || lia).
      change 0 with (Re C0). rewrite !(map_nth Re). assert (E := to_real_sub n ft (fft ft d) M U Lfd LM' Hn j Hj).
      rewrite (gt_left _ _ G d Ld) in E. change (to_real ft M) with (evolved n ft dt (rate i) o) in E. unfold to_real in E at 1. rewrite Ls in E. rewrite E.
      unfold Csub, Re. cbn [fst]. reflexivity.
  Qed.

  Lemma linear_residuals dt e t : (0 < n)%nat -> forall fs os i, all_length n fs -> all_length n os -> length os = length fs -> Forall real_field os ->
    (i + length fs <= length es)%nat ->
    residuals p ft dt t e i (map (fft ft) fs) (map (fft ft) os) (map (fun _ => repeat C0 n) os) = Some (minus (values fs) (values (evolved_fields n ft dt rate i os))).
  Proof.
    intros Hn. induction fs as [|d fs IH]; intros [|o os] i Hf Ho Hl Hr Hi; try discriminate; [reflexivity|]. cbn [length] in Hl, Hi.
    inversion Hf as [|? ? Ld Hf']; subst. inversion Ho as [|? ? Lo Ho']; subst. inversion Hr as [|? ? Hro Hr']; subst.
    cbn [map residuals]. rewrite (gt_fft_len _ _ G d Ld). unfold p at 1. rewrite (linear_rhs L cs es LM m Em n ft lib e i t) by lia.
    destruct (nth_error es i) as [q|] eqn:Eq; [|apply nth_error_None in Eq; lia].
    destruct (linear_denum L cs es LM m Em n ft lib GL G e i q t Eq) as (a & Ea & La & HA). fold p in Ea. rewrite Ea.
    rewrite (IH os (S i) Hf' Ho' ltac:(lia) Hr' ltac:(lia)). cbv zeta. rewrite (residual_field dt e i t q d o a Hn Eq Ld Lo Hro Ea).
    cbn [evolved_fields]. unfold values. cbn [map concat]. rewrite minus_app; [reflexivity|]. rewrite !map_length. unfold n, ft. rewrite (evolved_length dom Hv). symmetry. exact Ld.
  Qed.

  Lemma evolved_fields_length T : forall fs i, length (evolved_fields n ft T rate i fs) = length fs.
  Proof. induction fs as [|d fs IH]; intros i; cbn [evolved_fields length]; [reflexivity|]. rewrite IH. reflexivity. Qed.
  Lemma evolved_fields_real T : forall fs i, real_fields dom fs -> (i + length fs <= length es)%nat -> real_fields dom (evolved_fields n ft T rate i fs).
  Proof.
    induction fs as [|d fs IH]; intros i Hf Hi; cbn [evolved_fields]; [constructor|]. cbn [length] in Hi. inversion Hf as [|? ? [Ld Hr] Hf']; subst. constructor.
    - split; [apply (evolved_length dom Hv)|]. apply (evolved_real dom Hv Hsq); [apply rate_even; lia|exact Ld|exact Hr].
    - apply IH; [exact Hf'|lia].
  Qed.
  Lemma real_fields_length fs : real_fields dom fs -> all_length n fs.
  Proof. unfold real_fields, all_length. apply Forall_impl. intros d H. apply H. Qed.
  Lemma real_fields_real fs : real_fields dom fs -> Forall real_field fs.
  Proof. apply Forall_impl. intros d H. apply H. Qed.
  Lemma evolved_fields_zero : forall fs i, all_length n fs -> evolved_fields n ft 0 rate i fs = fs.
  Proof. induction fs as [|d fs IH]; intros i H; cbn [evolved_fields]; [reflexivity|]. inversion H; subst. unfold n, ft. rewrite (evolved_zero dom Hv) by assumption. f_equal. apply IH. assumption. Qed.
  Lemma evolved_fields_add S T : forall fs i, evolved_fields n ft S rate i (evolved_fields n ft T rate i fs) = evolved_fields n ft (T + S) rate i fs.
  Proof. induction fs as [|d fs IH]; intros i; cbn [evolved_fields]; [reflexivity|]. unfold n at 1 2, ft at 1 2. rewrite (evolved_add dom Hv). f_equal. apply IH. Qed.

  (** The problem posed: its residual is the distance to the exact solution. *)
  Theorem linear_problem filt dt t e : (0 < n)%nat -> fits L n m e -> real_fields dom (e_fields e) ->
    exists F x0 e2, ie_problem p ft filt dt t e = Some (F, x0, e2) /\ length x0 = length (values (e_fields e))
      /\ fits L n m e2
      /\ forall x, length x = length x0 -> F x = Some (minus x (values (evolved_fields n ft dt rate 0 (e_fields e)))).
  Proof.
    intros Hn Hf Hr. assert (He := proj1 (proj2 Hf)). assert (Hlen : length (e_fields e) = length es) by (destruct Hf as (-> & _); rewrite <- (lm_order _ _ _ LM), map_length; reflexivity).
    unfold ie_problem. cbv zeta. rewrite model_fft_fields.
    assert (EP := linear_rhs_all (model_fft p ft e) t (map (fft ft) (e_fields e)) 0 (map_fft_all n ft G _ He)). rewrite map_length in EP. specialize (EP ltac:(lia)). rewrite EP.
    assert (EI : model_ifft ft (model_fft p ft e) = {| e_fields := e_fields e; e_derived := e_derived (model_fft p ft e) |}).
    { unfold model_ifft. rewrite model_fft_fields, (map_round n ft G) by exact He. reflexivity. }
    rewrite EI. set (e1 := {| e_fields := e_fields e; e_derived := _ |}).
    assert (Hf1 : fits L n m e1).
    { split; [exact (proj1 Hf)|]. split; [exact He|]. cbn [e1 e_derived]. unfold model_fft. cbn [e_derived]. rewrite map_length. unfold sync. rewrite sync_from_count. exact (proj2 (proj2 Hf)). }
    assert (Hle := sim_enough L cs es m HD Em n ft lib (lm_order _ _ _ LM) e1 Hf1). fold p in Hle.
    assert (Hu : unaffected_by_earlier p t (spectrum p ft e1)).
    { intros i e' d Hd _ _ _. assert (Ld : length d = n) by exact (spectrum_length n p ft G e1 He i d Hd). rewrite Ld.
      assert (Hi : (i < length es)%nat).
      { rewrite <- Hlen. change (e_fields e) with (e_fields e1). rewrite <- (map_length (fft ft)). apply nth_error_Some.
        change (map (fft ft) (e_fields e1)) with (e_fields (spectrum p ft e1)). congruence. }
      split; [unfold p; rewrite !(linear_rhs L cs es LM m Em n ft lib) by exact Hi; reflexivity|]. apply (sim_denum L cs es m HD Em n ft lib (linear_independent L cs es LM lib)). }
    destruct (euler_step_scheme p ft filt dt t e1 Hle Hu) as (e2 & Es & Lf & _). rewrite Es.
    assert (Hf2 : fits L n m e2).
    { unfold euler_step in Es. cbv zeta in Es. destruct (euler_fields _ _ _ _ _ _ _ _) as [e3|] eqn:E3; [|discriminate]. injection Es as <-. cbn [e_fields e_derived] in *.
      assert (E3' := E3). apply (euler_fields_lengths n) in E3; [|exact KL|cbn [e_fields]; rewrite sync_fields; apply (map_fft_all n ft G), He].
      split; [cbn [e_fields]; rewrite Lf; exact (proj1 Hf)|]. split; [cbn [e_fields]; apply (map_ifft_all n ft G), E3|]. cbn [e_derived].
      destruct (euler_fields_keeps _ _ _ _ _ _ _ _ _ E3') as (-> & _). cbn [e_derived]. rewrite map_length. unfold sync. rewrite sync_from_count. exact (proj2 (proj2 Hf1)). }
    assert (He2 := proj1 (proj2 Hf2)). assert (L2 : length (e_fields e2) = length (e_fields e)) by exact Lf.
    eexists _, _, _. split; [reflexivity|].
    assert (Lx : length (fields2vec (e_fields e2)) = (length (e_fields e) * n)%nat) by (change fields2vec with values; rewrite (values_length n) by exact He2; rewrite L2; reflexivity).
    split; [rewrite Lx, (values_length n) by exact He; reflexivity|]. split; [exact Hf2|].
    intros x Hx. rewrite Lx in Hx. unfold update_equation. cbv zeta. rewrite model_fft_fields. cbn [e_fields]. rewrite map_map.
    assert (Hx2 : length x = (length (e_fields e2) * n)%nat) by (rewrite L2; exact Hx).
    assert (Hvx := vec2fields_all n (e_fields e2) He2 x Hx2). assert (Lvx := vec2fields_length (e_fields e2) x).
    rewrite (linear_residuals dt _ t Hn (vec2fields x (e_fields e2)) (e_fields e) 0 Hvx He) by (try (rewrite Lvx; lia); try (apply real_fields_real; exact Hr)).
    change values with fields2vec at 1. rewrite (pack_vec2fields n (e_fields e2) He2 x Hx2). reflexivity.
  Qed.

  (** One step with a solver that leaves the residual [out]. *)
  Theorem linear_ie_step solve filt dt t e : (0 < n)%nat -> fits L n m e -> real_fields dom (e_fields e) ->
    (forall F x0 e2, ie_problem p ft filt dt t e = Some (F, x0, e2) -> length (solve F x0) = length x0) ->
    exists F x0 e2 e', ie_problem p ft filt dt t e = Some (F, x0, e2) /\ ie_step solve p ft filt dt t e = Some e' /\ fits L n m e' /\ real_fields dom (e_fields e')
      /\ F (solve F x0) = Some (minus (values (e_fields e')) (values (evolved_fields n ft dt rate 0 (e_fields e)))).
  Proof.
    intros Hn Hf Hr Hs. destruct (linear_problem filt dt t e Hn Hf Hr) as (F & x0 & e2 & EP & Lx & Hf2 & HF). specialize (Hs F x0 e2 EP).
    assert (He := proj1 (proj2 Hf)). assert (He2 := proj1 (proj2 Hf2)). assert (L2 : length (e_fields e2) = length (e_fields e)) by (destruct Hf2 as (-> & _); destruct Hf as (-> & _); reflexivity).
    assert (Lv : length (solve F x0) = (length (e_fields e2) * n)%nat) by (rewrite Hs, Lx, (values_length n), L2 by exact He; reflexivity).
    exists F, x0, e2. unfold ie_step. rewrite EP. eexists. split; [reflexivity|]. split; [reflexivity|]. cbn [e_fields e_derived].
    assert (Hall := vec2fields_all n _ He2 _ Lv).
    split.
    { split; [cbn [e_fields]; rewrite vec2fields_length; exact (proj1 Hf2)|]. split; [exact Hall|]. exact (proj2 (proj2 Hf2)). }
    split.
    { unfold real_fields. assert (V := vec2fields_real (e_fields e2) (solve F x0)). unfold all_length in Hall. rewrite Forall_forall in *. intros d Hd. split; [apply Hall, Hd|]. unfold real_field. apply V, Hd. }
    rewrite (HF _ Hs). change values with fields2vec at 2. rewrite (pack_vec2fields n _ He2 _ Lv). reflexivity.
  Qed.
End Linear.
