(** Runs of linear models with ImplicitEuler: exactness, errors, stability. *)
From Verif Require Import ListAux FileModel StepProofs SddProofs DftSpec DftProofs RealSpec RealProofs SimSpec LinearSpec SaddleSpec SaddleProofs3 TrackProofs ImplicitModel ImplicitSpec ImplicitProofs ImplicitProofs2 Vec CVec Complex.
From Coq Require Import Lia Lra.
Open Scope R_scope.

(** *** Lengths of vectors *)
Lemma cauchy_real n (a b : nat -> R) : rsum n (fun i => a i * b i) ^ 2 <= rsum n (fun i => a i ^ 2) * rsum n (fun i => b i ^ 2).
Proof.
  assert (H := cauchy_schwarz n (fun i => RtoC (a i)) (fun i => RtoC (b i))). cbv beta in H.
  rewrite (csum_ext n _ (fun i => RtoC (a i * b i))), csum_RtoC in H by (intros; rewrite RtoC_mul; reflexivity).
  rewrite (rsum_ext n (fun i => Cnorm2 (RtoC (a i))) (fun i => a i ^ 2)), (rsum_ext n (fun i => Cnorm2 (RtoC (b i))) (fun i => b i ^ 2)) in H
    by (intros; unfold Cnorm2, RtoC, Re, Im; cbn [fst snd]; ring).
  unfold Cnorm2, RtoC, Re, Im in H. cbn [fst snd] in H. refine (Rle_trans _ _ _ _ H). right. ring.
Qed.
Lemma minkowski n (a b : nat -> R) : sqrt (rsum n (fun i => (a i + b i) ^ 2)) <= sqrt (rsum n (fun i => a i ^ 2)) + sqrt (rsum n (fun i => b i ^ 2)).
Proof.
  set (A := rsum n (fun i => a i ^ 2)). set (B := rsum n (fun i => b i ^ 2)).
  assert (HA : 0 <= A) by (apply rsum_nonneg; intros; apply pow2_ge_0). assert (HB : 0 <= B) by (apply rsum_nonneg; intros; apply pow2_ge_0).
  assert (P := cauchy_real n a b). fold A B in P. set (X := rsum n (fun i => a i * b i)) in *.
  rewrite (rsum_ext n _ (fun i => a i ^ 2 + (2 * (a i * b i) + b i ^ 2))) by (intros; ring). rewrite !rsum_plus, rsum_mul_l. fold A B X.
  assert (SA := sqrt_pos A). assert (SB := sqrt_pos B). assert (EA := pow2_sqrt A HA). assert (EB := pow2_sqrt B HB).
  assert (HX : X <= sqrt A * sqrt B).
  { apply Rsqr_incr_0_var; [|apply Rmult_le_pos; assumption]. rewrite !Rsqr_pow2, Rpow_mult_distr, EA, EB. exact P. }
  rewrite <- (sqrt_pow2 (sqrt A + sqrt B)) by lra. apply sqrt_le_1_alt.
  replace ((sqrt A + sqrt B) ^ 2) with (sqrt A ^ 2 + (2 * (sqrt A * sqrt B) + sqrt B ^ 2)) by ring. rewrite EA, EB. lra.
Qed.
Lemma vnorm_triangle x y z : length y = length x -> length z = length x -> vnorm (minus x z) <= vnorm (minus x y) + vnorm (minus y z).
Proof.
  intros Hy Hz. unfold vnorm. rewrite !sum_squares_rsum, !minus_length by congruence. rewrite Hy.
  rewrite (rsum_ext _ _ (fun j => ((nth j x 0 - nth j y 0) + (nth j y 0 - nth j z 0)) ^ 2)) by (intros j Hj; rewrite minus_nth by congruence || assumption; ring).
  refine (Rle_trans _ _ _ (minkowski _ _ _) _). right. f_equal; f_equal; apply rsum_ext; intros j Hj; rewrite minus_nth by (congruence || lia); reflexivity.
Qed.
Lemma vnorm_minus x y : length y = length x -> vnorm x <= vnorm (minus x y) + vnorm y.
Proof.
  intros Hy. unfold vnorm. rewrite !sum_squares_rsum, minus_length, Hy by congruence.
  rewrite (rsum_ext _ (fun j => nth j x 0 ^ 2) (fun j => ((nth j x 0 - nth j y 0) + nth j y 0) ^ 2)) by (intros; ring).
  refine (Rle_trans _ _ _ (minkowski _ _ _) _). right. f_equal. f_equal. apply rsum_ext. intros j Hj. rewrite minus_nth by congruence || assumption. reflexivity.
Qed.
Lemma vnorm_zeros x : Forall (fun r => r = 0) x -> vnorm x = 0.
Proof. intros H. unfold vnorm. replace (sum_squares x) with 0; [apply sqrt_0|]. induction H as [|a x Ha _ IH]; cbn [sum_squares]; [reflexivity|]. rewrite <- IH, Ha. ring. Qed.
Lemma vnorm_nonneg x : 0 <= vnorm x.
Proof. apply sqrt_pos. Qed.

Lemma fft_zeros n ft : unitary_transform n ft -> fft ft (repeat C0 n) = repeat C0 n.
Proof.
  intros U. assert (G := ut_good _ _ U). set (z := repeat C0 n). assert (Lz : length z = n) by apply repeat_length.
  assert (H := ut_fft_add _ _ U (Copp C1) z z Lz Lz). assert (Lf := gt_fft_len _ _ G z Lz).
  replace (map2 (fun u v => Cadd u (Cmul (Copp C1) v)) z z) with z in H.
  - rewrite H. apply (list_eq_nth _ _ n); [apply StepProofs.map2_length; exact Lf|exact Lz|]. intros k Hk. rewrite (map2_nth' _ _ _ k n Lf Lf Hk). unfold z. rewrite nth_repeat. ring.
  - apply (list_eq_nth _ _ n); [exact Lz|apply StepProofs.map2_length; exact Lz|]. intros k Hk. rewrite (map2_nth' _ _ _ k n Lz Lz Hk). unfold z. rewrite nth_repeat. ring.
Qed.

Section Contract.
  Variables (dom : list Z) (rate : nat -> nat -> R) (T : R).
  Hypothesis Hv : valid_domain dom.
  Hypothesis Hsq : square_layout dom.
  Hypothesis HT : 0 <= T.
  Let n := nodes dom.
  Let ft := fftw_transform dom.
  Let U : unitary_transform n ft := fftw_unitary dom Hv.
  Let G := ut_good n ft U.

  Lemma real_distance d g : length d = n -> length g = n -> real_field d -> real_field g ->
    sum_squares (minus (map Re d) (map Re g)) = rsum n (fun j => Cnorm2 (Csub (nth j d C0) (nth j g C0))).
  Proof.
    intros Ld Lg Rd Rg. rewrite sum_squares_rsum, minus_length, map_length, Ld by (rewrite !map_length; congruence). apply rsum_ext. intros j Hj.
    rewrite minus_nth by (rewrite ?map_length; congruence || lia). change 0 with (Re C0). rewrite !(map_nth Re).
    apply real_field_nth with (j := j) in Rd; [|lia]. apply real_field_nth with (j := j) in Rg; [|lia].
    destruct (nth j d C0) as [a b], (nth j g C0) as [a' b']. unfold Cnorm2, Csub, Re, Im in *. cbn [fst snd] in *. rewrite Rd, Rg. ring.
  Qed.
  Lemma evolved_contract r d g : even_rate dom r -> (forall k, (k < n)%nat -> r k <= 0) -> (0 < n)%nat -> length d = n -> length g = n -> real_field d -> real_field g ->
    sum_squares (minus (map Re (evolved n ft T r d)) (map Re (evolved n ft T r g))) <= sum_squares (minus (map Re d) (map Re g)).
  Proof.
    intros Hev Hr Hn Ld Lg Rd Rg.
    assert (L1 := evolved_length dom Hv T r d). assert (L2 := evolved_length dom Hv T r g). fold n ft in L1, L2.
    rewrite (real_distance _ _ L1 L2) by (apply (evolved_real dom Hv Hsq); assumption). rewrite (real_distance _ _ Ld Lg Rd Rg).
    assert (P1 := parseval_sub n ft _ _ U L1 L2). assert (P2 := parseval_sub n ft d g U Ld Lg).
    assert (HN : 0 < INR n) by (apply lt_0_INR, Hn).
    apply (Rmult_le_reg_l (INR n) _ _ HN). rewrite <- P1, <- P2. apply rsum_le. intros k Hk.
    unfold n, ft. rewrite !(evolved_mode dom Hv) by exact Hk. fold n ft.
    replace (Csub (Cmul (RtoC (exp (T * r k))) (nth k (fft ft d) C0)) (Cmul (RtoC (exp (T * r k))) (nth k (fft ft g) C0))) with (Cmul (RtoC (exp (T * r k))) (Csub (nth k (fft ft d) C0) (nth k (fft ft g) C0))) by ring.
    set (z := Csub _ _). rewrite Cnorm2_mul. replace (Cnorm2 (RtoC (exp (T * r k)))) with (exp (T * r k) ^ 2) by (unfold Cnorm2, RtoC, Re, Im; cbn [fst snd]; ring).
    assert (E0 := exp_pos (T * r k)). assert (E1 : exp (T * r k) <= 1).
    { rewrite <- exp_0. assert (HH : T * r k <= 0) by (assert (X := Hr k Hk); assert (Y := Rmult_le_pos T (- r k) HT ltac:(lra)); lra).
      destruct HH as [HH|HH]; [left; apply exp_increasing, HH|right; rewrite HH; reflexivity]. }
    assert (E2 : exp (T * r k) ^ 2 <= 1) by (replace 1 with (1 ^ 2) by ring; apply pow_incr; lra).
    assert (Z := Cnorm2_nonneg z). assert (Y := Rmult_le_compat_r (Cnorm2 z) _ _ Z E2). lra.
  Qed.
  Lemma fields_contract : (0 < n)%nat -> forall fs gs i, length gs = length fs ->
    (forall j, (i <= j < i + length fs)%nat -> even_rate dom (rate j) /\ forall k, (k < n)%nat -> rate j k <= 0) ->
    real_fields dom fs -> real_fields dom gs ->
    sum_squares (minus (values (evolved_fields n ft T rate i fs)) (values (evolved_fields n ft T rate i gs))) <= sum_squares (minus (values fs) (values gs)).
  Proof.
    intros Hn. induction fs as [|d fs IH]; intros [|g gs] i Hl Hr Hf Hg; try discriminate; [apply Rle_refl|]. cbn [length] in Hl, Hr.
    inversion Hf as [|? ? [Ld Rd] Hf']; subst. inversion Hg as [|? ? [Lg Rg] Hg']; subst. unfold values. cbn [evolved_fields map concat].
    rewrite !minus_app by (rewrite !map_length; unfold n, ft; rewrite ?(evolved_length dom Hv); congruence). rewrite !sum_squares_app. apply Rplus_le_compat.
    - destruct (Hr i ltac:(lia)) as [H1 H2]. apply evolved_contract; assumption.
    - apply IH; [lia|intros j Hj; apply Hr; lia|exact Hf'|exact Hg'].
  Qed.
End Contract.

Section Runs.
  Variables (L : lang) (cs : list call) (es : list eqtext) (m : mstate) (dom : list Z) (lib : library) (rate : nat -> nat -> R).
  Hypothesis LM : linear_model L cs es.
  Hypothesis Em : run_calls new_mstate (cs ++ [CInit]) = Ok m.
  Hypothesis Hv : valid_domain dom.
  Hypothesis Hsq : square_layout dom.
  Let n := nodes dom.
  Let ft := fftw_transform dom.
  Hypothesis GL : good_library L n lib.
  Hypothesis RS : forall i q, nth_error es i = Some q -> real_symbols L lib n ft q (rate i).
  Hypothesis Hn : (0 < n)%nat.
  Variables (solve : (list R -> option (list R)) -> list R -> list R) (filt : option (R -> R)) (dt : R).
  Let p := simulation n ft lib m.
  Definition met (P : (list R -> option (list R)) -> list R -> Prop) : Prop :=
    forall t e F x0 e2, fits L n m e -> real_fields dom (e_fields e) -> ie_problem p ft filt dt t e = Some (F, x0, e2) -> P F x0.

  Lemma count e : fits L n m e -> length (e_fields e) = length es.
  Proof. intros (-> & _). rewrite <- (lm_order _ _ _ LM), map_length. reflexivity. Qed.

  Theorem exact_run : met (finds_zero solve) -> forall N step e, fits L n m e -> real_fields dom (e_fields e) ->
    exists e', ie_propagate solve p ft filt dt N step e = Some (e', (step + N)%nat) /\ fits L n m e' /\ real_fields dom (e_fields e')
      /\ e_fields e' = evolved_fields n ft (INR N * dt) rate 0 (e_fields e).
  Proof.
    intros Hs. induction N as [|N IH]; intros step e Hf Hr.
    - exists e. rewrite Nat.add_0_r. split; [reflexivity|]. split; [exact Hf|]. split; [exact Hr|]. cbn [INR]. rewrite Rmult_0_l. symmetry. apply (evolved_fields_zero dom rate Hv), Hf.
    - destruct (linear_ie_step L cs es m dom lib rate LM Em Hv GL RS solve filt dt (ie_time dt step) e Hn Hf Hr) as (F & x0 & e2 & e1 & EP & ES & Hf1 & Hr1 & EF).
      { intros F x0 e2 EP. apply (Hs _ e F x0 e2 Hf Hr EP). }
      assert (E1 : e_fields e1 = evolved_fields n ft dt rate 0 (e_fields e)).
      { destruct (Hs _ e F x0 e2 Hf Hr EP) as [_ HZ]. specialize (HZ _ EF).
        assert (Hre := evolved_fields_real L es dom lib rate Hv Hsq RS dt (e_fields e) 0 Hr ltac:(rewrite (count e Hf); lia)).
        apply (values_inj (nodes dom)); try apply (real_fields_length dom); try apply (real_fields_real dom); try assumption.
        - rewrite (evolved_fields_length dom rate), (count e Hf), (count e1 Hf1). reflexivity.
        - apply minus_zero; [|exact HZ]. rewrite !(values_length (nodes dom)); try (apply (real_fields_length dom); assumption). rewrite (evolved_fields_length dom rate), (count e Hf), (count e1 Hf1). reflexivity. }
      destruct (IH (S step) e1 Hf1 Hr1) as (e' & EP' & Hf' & Hr' & E'). exists e'. cbn [ie_propagate]. change (ie_step solve p ft filt dt (ie_time dt step) e = Some e1) in ES. rewrite ES, EP'. split; [f_equal; f_equal; lia|]. split; [exact Hf'|]. split; [exact Hr'|].
      rewrite E', E1. unfold n, ft. rewrite (evolved_fields_add dom rate Hv). f_equal. rewrite S_INR. ring.
  Qed.

  Hypothesis Hdt : 0 <= dt.
  Hypothesis Neg : forall i k, (i < length es)%nat -> (k < n)%nat -> rate i k <= 0.

  Theorem error_run tol : 0 <= tol -> met (solves_to tol solve) -> forall N step e, fits L n m e -> real_fields dom (e_fields e) ->
    exists e', ie_propagate solve p ft filt dt N step e = Some (e', (step + N)%nat) /\ fits L n m e' /\ real_fields dom (e_fields e')
      /\ vnorm (minus (values (e_fields e')) (values (evolved_fields n ft (INR N * dt) rate 0 (e_fields e)))) <= INR N * tol.
  Proof.
    intros Ht Hs. induction N as [|N IH]; intros step e Hf Hr.
    - exists e. rewrite Nat.add_0_r. split; [reflexivity|]. split; [exact Hf|]. split; [exact Hr|]. cbn [INR]. rewrite !Rmult_0_l. unfold n, ft. rewrite (evolved_fields_zero dom rate Hv) by apply Hf.
      rewrite vnorm_zeros by apply minus_self. apply Rle_refl.
    - destruct (linear_ie_step L cs es m dom lib rate LM Em Hv GL RS solve filt dt (ie_time dt step) e Hn Hf Hr) as (F & x0 & e2 & e1 & EP & ES & Hf1 & Hr1 & EF).
      { intros F x0 e2 EP. apply (Hs _ e F x0 e2 Hf Hr EP). }
      destruct (Hs _ e F x0 e2 Hf Hr EP) as [_ HZ]. specialize (HZ _ EF). clear EF.
      assert (Hre := evolved_fields_real L es dom lib rate Hv Hsq RS dt (e_fields e) 0 Hr ltac:(rewrite (count e Hf); lia)). fold n ft in Hre.
      set (ev := evolved_fields n ft dt rate 0 (e_fields e)) in *. assert (Lev : length ev = length es) by (unfold ev, n, ft; rewrite (evolved_fields_length dom rate); apply count, Hf).
      destruct (IH (S step) e1 Hf1 Hr1) as (e' & EP' & Hf' & Hr' & E'). exists e'. cbn [ie_propagate]. change (ie_step solve p ft filt dt (ie_time dt step) e = Some e1) in ES. rewrite ES, EP'. split; [f_equal; f_equal; lia|]. split; [exact Hf'|]. split; [exact Hr'|].
      replace (INR (S N) * dt) with (dt + INR N * dt) by (rewrite S_INR; ring). unfold n at 1, ft at 1. rewrite <- (evolved_fields_add dom rate Hv). fold n ft. fold ev.
      set (a := values (e_fields e')) in *. set (b := values (evolved_fields n ft (INR N * dt) rate 0 (e_fields e1))) in *. set (c := values (evolved_fields n ft (INR N * dt) rate 0 ev)).
      assert (HP : 0 <= INR N * dt) by (apply Rmult_le_pos; [apply pos_INR|exact Hdt]).
      assert (Lg : forall fs, length fs = length es -> real_fields dom fs -> length (values fs) = (length es * n)%nat) by (intros fs H1 H2; rewrite (values_length (nodes dom)) by (apply (real_fields_length dom), H2); rewrite H1; reflexivity).
      assert (EV : forall fs, length fs = length es -> real_fields dom fs -> length (values (evolved_fields n ft (INR N * dt) rate 0 fs)) = (length es * n)%nat).
      { intros fs H1 H2. apply Lg; [unfold n, ft; rewrite (evolved_fields_length dom rate); exact H1|]. apply (evolved_fields_real L es dom lib rate Hv Hsq RS); [exact H2|lia]. }
      assert (La : length a = (length es * n)%nat) by (apply Lg; [apply count, Hf'|exact Hr']).
      assert (Lb : length b = (length es * n)%nat) by (apply EV; [apply count, Hf1|exact Hr1]).
      assert (Lc : length c = (length es * n)%nat) by (apply EV; assumption).
      refine (Rle_trans _ _ _ (vnorm_triangle a b c _ _) _); [congruence|congruence|].
      assert (Y : vnorm (minus b c) <= tol).
      { refine (Rle_trans _ _ _ _ HZ). unfold vnorm. apply sqrt_le_1_alt. apply (fields_contract dom rate (INR N * dt) Hv Hsq HP Hn).
        - transitivity (length es); [exact Lev|symmetry; apply count, Hf1].
        - intros j Hj. rewrite (count e1 Hf1) in Hj. split; [apply (rate_even L es dom lib rate Hv RS); lia|]. intros k Hk. apply Neg; [lia|exact Hk].
        - exact Hr1.
        - exact Hre. }
      rewrite S_INR. lra.
  Qed.

  (** Fields never grow by more than the residuals, whatever the time step. *)
  Theorem stable_run tol : 0 <= tol -> met (solves_to tol solve) -> forall N step e, fits L n m e -> real_fields dom (e_fields e) ->
    exists e', ie_propagate solve p ft filt dt N step e = Some (e', (step + N)%nat) /\ vnorm (values (e_fields e')) <= vnorm (values (e_fields e)) + INR N * tol.
  Proof.
    intros Ht Hs N step e Hf Hr. destruct (error_run tol Ht Hs N step e Hf Hr) as (e' & E & Hf' & Hr' & H). exists e'. split; [exact E|].
    set (c := evolved_fields n ft (INR N * dt) rate 0 (e_fields e)) in *.
    assert (Hc := evolved_fields_real L es dom lib rate Hv Hsq RS (INR N * dt) (e_fields e) 0 Hr ltac:(rewrite (count e Hf); lia)). fold n ft in Hc. fold c in Hc.
    assert (Lc : length c = length es) by (unfold c, n, ft; rewrite (evolved_fields_length dom rate); apply count, Hf).
    assert (LL : length (values c) = length (values (e_fields e'))).
    { rewrite !(values_length (nodes dom)) by (apply (real_fields_length dom); assumption). rewrite Lc, (count e' Hf'). reflexivity. }
    refine (Rle_trans _ _ _ (vnorm_minus _ _ LL) _). rewrite Rplus_comm. apply Rplus_le_compat; [|exact H].
    assert (HP : 0 <= INR N * dt) by (apply Rmult_le_pos; [apply pos_INR|exact Hdt]).
    set (z := map (map (fun _ : C => C0)) (e_fields e)).
    assert (Hz : real_fields dom z).
    { unfold z, real_fields. apply Forall_map. unfold real_fields in Hr. revert Hr. apply Forall_impl. intros d [Ld _]. split; [rewrite map_length; exact Ld|]. apply Forall_map. apply Forall_forall. reflexivity. }
    assert (V0 : forall fs, Forall (fun r => r = 0) (values (map (map (fun _ : C => C0)) fs))).
    { induction fs as [|d fs IHf]; [constructor|]. unfold values. cbn [map concat]. apply Forall_app. split; [|exact IHf]. rewrite map_map. apply Forall_map. apply Forall_forall. reflexivity. }
    assert (MZ : forall x y, Forall (fun r => r = 0) y -> length y = length x -> minus x y = x).
    { clear. induction x as [|a x IHx]; intros [|b y] F Hl; try discriminate; [reflexivity|]. inversion F; subst. cbn [minus]. rewrite IHx; [|assumption|cbn [length] in Hl; lia]. f_equal. ring. }
    assert (EZ : forall fs i, real_fields dom fs -> evolved_fields n ft (INR N * dt) rate i (map (map (fun _ : C => C0)) fs) = map (map (fun _ : C => C0)) fs).
    { induction fs as [|d fs IHf]; intros i H0; [reflexivity|]. inversion H0 as [|? ? [Ld _] H0']; subst. cbn [map evolved_fields]. f_equal; [|apply IHf, H0'].
      replace (map (fun _ : C => C0) d) with (repeat C0 n) by (unfold n; rewrite <- Ld; clear; induction d as [|? ? IHd]; [reflexivity|]; cbn [length repeat map]; f_equal; exact IHd).
      assert (GT := ut_good n ft (fftw_unitary dom Hv)). apply (list_eq_nth _ _ n); [apply (evolved_length dom Hv)|apply repeat_length|]. intros j Hj.
      rewrite <- (gt_left _ _ GT (evolved n ft (INR N * dt) (rate i) (repeat C0 n))) by (apply (evolved_length dom Hv)).
      replace (fft ft (evolved n ft (INR N * dt) (rate i) (repeat C0 n))) with (fft ft (repeat C0 n)).
      - rewrite (gt_left _ _ GT) by apply repeat_length. reflexivity.
      - apply (list_eq_nth _ _ n); [apply (gt_fft_len _ _ GT), repeat_length|apply (gt_fft_len _ _ GT), (evolved_length dom Hv)|]. intros k Hk. unfold n, ft. rewrite (evolved_mode dom Hv) by exact Hk. fold n ft.
        rewrite (fft_zeros n ft (fftw_unitary dom Hv)), nth_repeat. ring. }
    assert (P := fields_contract dom rate (INR N * dt) Hv Hsq HP Hn (e_fields e) z 0).
    unfold vnorm. apply sqrt_le_1_alt. fold n ft in P. unfold z in P. rewrite EZ in P by exact Hr. fold c in P.
    rewrite !MZ in P.
    - apply P; [rewrite map_length; reflexivity| |exact Hr|exact Hz].
      intros j Hj. rewrite (count e Hf) in Hj. split; [apply (rate_even L es dom lib rate Hv RS); lia|]. intros k Hk. apply Neg; [lia|exact Hk].
    - apply V0.
    - fold z. rewrite !(values_length (nodes dom)) by (apply (real_fields_length dom); assumption). unfold z. rewrite map_length. reflexivity.
    - apply V0.
    - fold z. rewrite !(values_length (nodes dom)) by (apply (real_fields_length dom); assumption). unfold z. rewrite map_length, Lc, (count e Hf). reflexivity.
  Qed.
End Runs.

(** One fixed-point iteration solves the problem of a linear model. *)
Definition one_iteration (F : list R -> option (list R)) (x0 : list R) : list R :=
  match F x0 with Some r => minus x0 r | None => x0 end.
Lemma minus_minus x : forall y, length y = length x -> minus x (minus x y) = y.
Proof. induction x as [|a x IH]; intros [|b y] H; try discriminate; [reflexivity|]. cbn [minus]. rewrite IH by (cbn [length] in H; lia). f_equal. ring. Qed.
Lemma iteration_solves L cs es m dom lib rate filt dt : linear_model L cs es -> run_calls new_mstate (cs ++ [CInit]) = Ok m -> valid_domain dom -> square_layout dom ->
  good_library L (nodes dom) lib -> (forall i q, nth_error es i = Some q -> real_symbols L lib (nodes dom) (fftw_transform dom) q (rate i)) -> (0 < nodes dom)%nat ->
  met L m dom lib filt dt (finds_zero one_iteration).
Proof.
  intros LM Em Hv Hsq GL RS Hn t e F x0 e2 Hf Hr EP.
  destruct (linear_problem L cs es m dom lib rate LM Em Hv GL RS filt dt t e Hn Hf Hr) as (F' & x' & e2' & EP' & Lx & _ & HF). rewrite EP in EP'. injection EP' as <- <- <-.
  assert (Hce : length (e_fields e) = length es) by (destruct Hf as (-> & _); rewrite <- (lm_order _ _ _ LM), map_length; reflexivity).
  assert (Hre := evolved_fields_real L es dom lib rate Hv Hsq RS dt (e_fields e) 0 Hr ltac:(lia)). set (z := values _) in HF.
  assert (Lz : length z = length x0).
  { rewrite Lx. unfold z. rewrite !(values_length (nodes dom)) by (apply (real_fields_length dom); assumption). rewrite (evolved_fields_length dom rate). reflexivity. }
  unfold finds_zero, one_iteration. rewrite (HF x0 eq_refl), minus_minus by exact Lz. split; [exact Lz|]. intros out E. rewrite (HF z Lz) in E. injection E as <-. apply minus_self.
Qed.
