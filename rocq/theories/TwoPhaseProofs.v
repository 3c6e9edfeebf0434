From Coq Require Import Lra.
From Verif Require Import TwoPhaseSpec StepProofs DftProofs RealProofs EnergyProofs.
From Verif Require Import TwoPhaseModel.
Open Scope R_scope.

(** ** Indicator *)
Lemma indicator_low x : x <= 0 -> indicator x = 0.
Proof. intros H. unfold indicator. destruct (Rlt_dec x 0); [reflexivity|]. assert (x = 0) by lra. subst x. destruct (Rlt_dec 1 0); [lra|ring]. Qed.
Lemma indicator_high x : 1 <= x -> indicator x = 1.
Proof. intros H. unfold indicator. destruct (Rlt_dec x 0); [lra|]. destruct (Rlt_dec 1 x); [reflexivity|]. assert (x = 1) by lra. subst x. ring. Qed.
Lemma indicator_mid x : 0 <= x <= 1 -> indicator x = 3 * x ^ 2 - 2 * x ^ 3.
Proof. intros H. unfold indicator. destruct (Rlt_dec x 0); [lra|]. destruct (Rlt_dec 1 x); [lra|ring]. Qed.
Lemma indicator_range x : 0 <= indicator x <= 1.
Proof.
  destruct (Rle_dec x 0) as [H|H]; [rewrite indicator_low by exact H; lra|]. destruct (Rle_dec 1 x) as [K|K]; [rewrite indicator_high by exact K; lra|].
  rewrite indicator_mid by lra. assert (0 <= x ^ 2 * (3 - 2 * x)) by (apply Rmult_le_pos; nra). assert (0 <= (1 - x) ^ 2 * (1 + 2 * x)) by (apply Rmult_le_pos; nra). nra.
Qed.
Lemma indicator_symmetric x : indicator (1 - x) = 1 - indicator x.
Proof.
  destruct (Rle_dec x 0) as [H|H]; [rewrite (indicator_high (1 - x)), (indicator_low x) by lra; lra|]. destruct (Rle_dec 1 x) as [K|K]; [rewrite (indicator_low (1 - x)), (indicator_high x) by lra; lra|].
  rewrite !indicator_mid by lra. ring.
Qed.
Lemma indicator_mono x y : x <= y -> indicator x <= indicator y.
Proof.
  intros H. destruct (Rle_dec x 0) as [A|A]; [rewrite (indicator_low x) by exact A; apply indicator_range|].
  destruct (Rle_dec 1 y) as [B|B]; [rewrite (indicator_high y) by exact B; apply indicator_range|]. rewrite !indicator_mid by lra.
  replace (3 * y ^ 2 - 2 * y ^ 3) with (3 * x ^ 2 - 2 * x ^ 3 + (y - x) * (x * (3 - 3 * x) + y * (3 - 3 * y) + (y - x) ^ 2)) by ring.
  assert (0 <= (y - x) * (x * (3 - 3 * x) + y * (3 - 3 * y) + (y - x) ^ 2)); [|lra]. apply Rmult_le_pos; [lra|].
  assert (0 <= x * (3 - 3 * x)) by (apply Rmult_le_pos; lra). assert (0 <= y * (3 - 3 * y)) by (apply Rmult_le_pos; lra). nra.
Qed.
Lemma local_dlim (f g : R -> R) x l d : 0 < d -> (forall y, Rabs (y - x) < d -> f y = g y) -> derivable_pt_lim f x l -> derivable_pt_lim g x l.
Proof.
  intros Hd E H eps He. destruct (H eps He) as [del Hdel]. exists (mkposreal _ (Rmin_pos _ _ Hd (cond_pos del))). intros h Hh Hs. cbn [pos] in Hs.
  pose proof (Rmin_l d del). pose proof (Rmin_r d del). rewrite <- (E (x + h)) by (replace (x + h - x) with h by ring; lra).
  rewrite <- (E x) by (replace (x - x) with 0 by ring; rewrite Rabs_R0; lra). apply Hdel; [exact Hh|lra].
Qed.
Lemma cubic_dlim x : derivable_pt_lim (fun x => 3 * x ^ 2 - 2 * x ^ 3) x (6 * x - 6 * x * x).
Proof. refine (dlim_ext _ _ x _ _ _ _ (dlim_poly4 0 0 3 (-2) 0 x)); [intros; ring|ring]. Qed.
Lemma const_dlim (c x : R) : derivable_pt_lim (fun _ => c) x 0.
Proof. apply derivable_pt_lim_const. Qed.
(** where a function is one of two differentiable ones with a common value and derivative *)
Lemma glue_dlim (f g h : R -> R) x l : h x = f x -> h x = g x -> (forall y, h y = f y \/ h y = g y) -> derivable_pt_lim f x l -> derivable_pt_lim g x l -> derivable_pt_lim h x l.
Proof.
  intros Ef Eg Hh Df Dg eps He. destruct (Df eps He) as [d1 H1], (Dg eps He) as [d2 H2]. exists (mkposreal _ (Rmin_pos _ _ (cond_pos d1) (cond_pos d2))).
  intros k Hk Hs. cbn [pos] in Hs. pose proof (Rmin_l d1 d2). pose proof (Rmin_r d1 d2).
  destruct (Hh (x + k)) as [->| ->]; [rewrite Ef; apply H1|rewrite Eg; apply H2]; (assumption || lra).
Qed.
Lemma indicator_dlim x : derivable_pt_lim indicator x (indicator_deriv x).
Proof.
  destruct (Rtotal_order x 0) as [H|[->|H]].
  - unfold indicator_deriv. destruct (Rlt_dec x 0); [|lra]. apply (local_dlim (fun _ => 0) _ x 0 (- x)); [lra| |apply const_dlim].
    intros y Hy. symmetry. apply indicator_low. apply Rabs_def2 in Hy. lra.
  - assert (E : indicator_deriv 0 = 0) by (unfold indicator_deriv; destruct (Rlt_dec 0 0); [lra|]; destruct (Rlt_dec 1 0); [lra|ring]). rewrite E.
    apply (local_dlim (fun y => if Rlt_dec y 0 then 0 else 3 * y ^ 2 - 2 * y ^ 3) _ 0 0 1); [lra| |].
    + intros y Hy. apply Rabs_def2 in Hy. destruct (Rlt_dec y 0); [symmetry; apply indicator_low; lra|symmetry; apply indicator_mid; lra].
    + apply (glue_dlim (fun _ => 0) (fun y => 3 * y ^ 2 - 2 * y ^ 3)); [destruct (Rlt_dec 0 0); ring|destruct (Rlt_dec 0 0); ring| |apply const_dlim|].
      * intros y. destruct (Rlt_dec y 0); auto.
      * pose proof (cubic_dlim 0) as X. replace (6 * 0 - 6 * 0 * 0) with 0 in X by ring. exact X.
  - destruct (Rtotal_order x 1) as [K|[->|K]].
    + unfold indicator_deriv. destruct (Rlt_dec x 0); [lra|]. destruct (Rlt_dec 1 x); [lra|].
      apply (local_dlim (fun y => 3 * y ^ 2 - 2 * y ^ 3) _ x _ (Rmin x (1 - x))); [apply Rmin_pos; lra| |apply cubic_dlim].
      intros y Hy. pose proof (Rmin_l x (1 - x)). pose proof (Rmin_r x (1 - x)). apply Rabs_def2 in Hy. symmetry. apply indicator_mid. lra.
    + assert (E : indicator_deriv 1 = 0) by (unfold indicator_deriv; destruct (Rlt_dec 1 0); [lra|]; destruct (Rlt_dec 1 1); [lra|ring]). rewrite E.
      apply (local_dlim (fun y => if Rlt_dec 1 y then 1 else 3 * y ^ 2 - 2 * y ^ 3) _ 1 0 1); [lra| |].
      * intros y Hy. apply Rabs_def2 in Hy. destruct (Rlt_dec 1 y); [symmetry; apply indicator_high; lra|symmetry; apply indicator_mid; lra].
      * apply (glue_dlim (fun _ => 1) (fun y => 3 * y ^ 2 - 2 * y ^ 3)); [destruct (Rlt_dec 1 1); ring|destruct (Rlt_dec 1 1); ring| |apply const_dlim|].
        -- intros y. destruct (Rlt_dec 1 y); auto.
        -- pose proof (cubic_dlim 1) as X. replace (6 * 1 - 6 * 1 * 1) with 0 in X by ring. exact X.
    + unfold indicator_deriv. destruct (Rlt_dec x 0); [lra|]. destruct (Rlt_dec 1 x); [|lra].
      apply (local_dlim (fun _ => 1) _ x 0 (x - 1)); [lra| |apply const_dlim]. intros y Hy. symmetry. apply indicator_high. apply Rabs_def2 in Hy. lra.
Qed.

(** ** Dot *)
Lemma dot_loop_sq x : forall r, dot_loop x x r = Some (r + norm_sq x).
Proof. induction x as [|a x IH]; intros r; cbn [dot_loop norm_sq]; [f_equal; ring|]. rewrite IH. f_equal. ring. Qed.
Lemma dot_sq x : sqrt (dot_or_zero x x) = norm x.
Proof. unfold dot_or_zero, dot, norm. rewrite dot_loop_sq. f_equal. ring. Qed.

(** ** Evaluate *)
Section Eval.
  Variable dom : list Z.
  Hypothesis V : valid_domain dom.
  Let ft := fftw_transform dom.
  Let n := nodes dom.
  Lemma corr_spectrum_length c : length (corr_spectrum ft n c) = n.
  Proof. unfold corr_spectrum. rewrite map_length, seq_length. reflexivity. Qed.
  Lemma corr_spectrum_nth c k : (k < n)%nat -> nth k (corr_spectrum ft n c) C0 = RtoC (pair_eval (cf_temp c) (cf_peaks c) (2 * PI * norm (tfreq ft k))).
  Proof.
    intros H. unfold corr_spectrum. set (f := fun i => _). rewrite (nth_indep _ C0 (f 0%nat)) by (rewrite map_length, seq_length; exact H).
    rewrite map_nth, seq_nth by exact H. unfold f. rewrite dot_sq. reflexivity.
  Qed.
  Lemma G : good_transform n ft. Proof. exact (ut_good _ _ (fftw_unitary dom V)). Qed.
  Lemma real_len d : length d = n -> length (to_real ft d) = n.
  Proof. intros H. unfold to_real, div_real. rewrite map_length. apply (gt_ifft_len n ft G). exact H. Qed.
  Lemma form_exists c : real_space_form dom c (to_real ft (corr_spectrum ft n c)).
  Proof.
    split; [apply real_len, corr_spectrum_length|]. intros k Hk. fold ft. rewrite (gt_inverse n ft G) by apply corr_spectrum_length. apply corr_spectrum_nth, Hk.
  Qed.
  Lemma form_unique c r : real_space_form dom c r -> r = to_real ft (corr_spectrum ft n c).
  Proof.
    intros [L H]. rewrite <- (gt_left n ft G r L). f_equal. apply (nth_ext _ _ C0 C0).
    - rewrite corr_spectrum_length. apply (gt_fft_len n ft G). exact L.
    - intros k Hk. rewrite (gt_fft_len n ft G) in Hk by exact L. unfold ft at 1. rewrite (H k Hk). symmetry. apply corr_spectrum_nth, Hk.
  Qed.
  Lemma form_real c r : square_layout dom -> real_space_form dom c r -> real_field r.
  Proof.
    intros Sq H. rewrite (form_unique c r H). apply (real_of_hermitian dom); try assumption; [apply corr_spectrum_length|].
    apply (herm_ext dom _ (fun j => RtoC (pair_eval (cf_temp c) (cf_peaks c) (2 * PI * sqrt (norm_sq (tfreq ft j))))) V); [intros; apply corr_spectrum_nth; assumption|].
    exact (isotropic_herm dom V (fun s => pair_eval (cf_temp c) (cf_peaks c) (2 * PI * sqrt s))).
  Qed.
  Lemma evaluate_nth f1 f2 c r1 r2 : length c = n -> real_space_form dom f1 r1 -> real_space_form dom f2 r2 ->
    exists ceff, two_phase_evaluate ft [f1; f2] (fft ft c) = Some (ceff, c) /\ length ceff = n /\
    forall i, (i < n)%nat -> nth i ceff C0 = Cadd (Cmul (RtoC (indicator (Re (nth i c C0)))) (nth i r1 C0)) (Cmul (RtoC (1 - indicator (Re (nth i c C0)))) (nth i r2 C0)).
  Proof.
    intros L H1 H2. unfold two_phase_evaluate. rewrite (gt_fft_len n ft G) by exact L. rewrite (gt_left n ft G c L), <- (form_unique f1 r1 H1), <- (form_unique f2 r2 H2).
    eexists. split; [reflexivity|]. split; [rewrite map_length, seq_length; reflexivity|]. intros i Hi.
    set (f := fun i => _). rewrite (nth_indep _ C0 (f 0%nat)) by (rewrite map_length, seq_length; exact Hi). rewrite map_nth, seq_nth by exact Hi. reflexivity.
  Qed.
  Lemma evaluate_real f1 f2 c ceff arg : square_layout dom -> length c = n -> two_phase_evaluate ft [f1; f2] (fft ft c) = Some (ceff, arg) -> real_field ceff.
  Proof.
    intros Sq L E. destruct (evaluate_nth f1 f2 c _ _ L (form_exists f1) (form_exists f2)) as (ceff' & E' & L' & N). rewrite E in E'. injection E' as <- _.
    apply real_field_nth. intros j Hj. rewrite L' in Hj. rewrite (N j Hj).
    pose proof (proj1 (real_field_nth _) (form_real f1 _ Sq (form_exists f1)) j ltac:(rewrite (proj1 (form_exists f1)); exact Hj)) as A.
    pose proof (proj1 (real_field_nth _) (form_real f2 _ Sq (form_exists f2)) j ltac:(rewrite (proj1 (form_exists f2)); exact Hj)) as B.
    destruct (nth j (to_real ft (corr_spectrum ft n f1)) C0) as [a1 b1] eqn:E1. destruct (nth j (to_real ft (corr_spectrum ft n f2)) C0) as [a2 b2] eqn:E2.
    cbn [Im snd] in A, B. unfold Im in A, B. cbn in A, B. subst b1 b2. unfold RtoC, Cadd, Cmul, Im. cbn. ring.
  Qed.
  Lemma evaluate_pure f1 f2 c (first : bool) : length c = n -> (forall i, (i < n)%nat -> if first then 1 <= Re (nth i c C0) else Re (nth i c C0) <= 0) ->
    exists ceff arg, two_phase_evaluate_ft ft [f1; f2] (fft ft c) = Some (ceff, arg) /\ length ceff = n /\
    forall k, (k < n)%nat -> nth k ceff C0 = RtoC (pair_eval (cf_temp (if first then f1 else f2)) (cf_peaks (if first then f1 else f2)) (2 * PI * norm (tfreq ft k))).
  Proof.
    intros L H. destruct (evaluate_nth f1 f2 c _ _ L (form_exists f1) (form_exists f2)) as (ceff & E & L' & N).
    exists (fft ft ceff), c. unfold two_phase_evaluate_ft. rewrite E. split; [reflexivity|]. split; [apply (gt_fft_len n ft G), L'|].
    assert (X : ceff = to_real ft (corr_spectrum ft n (if first then f1 else f2))).
    { apply (nth_ext _ _ C0 C0); [rewrite L', real_len by apply corr_spectrum_length; reflexivity|]. intros i Hi. rewrite L' in Hi. rewrite (N i Hi). specialize (H i Hi).
      destruct first; [rewrite indicator_high by exact H|rewrite indicator_low by exact H];
        match goal with |- context[Cadd (Cmul _ ?a) (Cmul _ ?b)] => destruct a, b end; csolve. }
    rewrite X, (gt_inverse n ft G) by apply corr_spectrum_length. intros k Hk. apply corr_spectrum_nth, Hk.
  Qed.
End Eval.
Lemma argument_overwritten f1 f2 : exists c, length c = nodes [2; 1]%Z /\ real_field c /\
  exists ceff arg, two_phase_evaluate (fftw_transform [2; 1]%Z) [f1; f2] (fft (fftw_transform [2; 1]%Z) c) = Some (ceff, arg) /\ arg <> fft (fftw_transform [2; 1]%Z) c.
Proof.
  assert (V : valid_domain [2; 1]%Z) by (split; [left; reflexivity|repeat constructor; lia]).
  exists [C1; C1]. split; [reflexivity|]. split; [repeat constructor|].
  destruct (evaluate_nth [2; 1]%Z V f1 f2 [C1; C1] _ _ eq_refl (form_exists _ V f1) (form_exists _ V f2)) as (ceff & E & _). exists ceff, [C1; C1]. split; [exact E|].
  intros X. pose proof (gt_zero _ _ (G _ V) [C1; C1] eq_refl) as Z. rewrite <- X in Z. cbn [nth Csum fold_right] in Z. apply (f_equal fst) in Z. cbn in Z. lra.
Qed.
