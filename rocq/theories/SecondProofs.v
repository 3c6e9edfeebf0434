(** Lemmas for C114: the scheme of ImplicitEuler agrees with the exact solution
    of equations with polynomial right-hand sides up to the third power of the
    time step (analysis only, no model). *)
From Coq Require Import Reals Lra Lia List.
From Verif Require Import ConvergeSpec LimitProofs SddModel SddProofs ApproachProofs.
From Verif Require Import Complex OrderProofs OrderProofs2 OrderProofs3.
Open Scope R_scope.

(** ** The exponential and the integral up to the third power *)
Lemma changes_square c s : changes (fun s => Cmul c (RtoC (s ^ 2 / 2))) s (Cmul c (RtoC s)).
Proof.
  assert (D : derivable_pt_lim (fun s => s ^ 2 / 2) s s).
  { apply (derivable_pt_lim_ext (fun s => / 2 * s ^ 2)); [intros; field|]. replace s with (/ 2 * (INR 2 * s ^ pred 2)) at 2 by (cbn; field).
    apply (derivable_pt_lim_scal (fun s => s ^ 2)). apply derivable_pt_lim_pow. }
  unfold changes, Cmul, RtoC, Re, Im. cbn [fst snd]. split.
  - apply (derivable_pt_lim_ext (fun s => fst c * (s ^ 2 / 2))); [intros; cbn [fst snd]; ring|]. replace (fst c * s - snd c * 0) with (fst c * s) by ring. apply (derivable_pt_lim_scal (fun s => s ^ 2 / 2)), D.
  - apply (derivable_pt_lim_ext (fun s => snd c * (s ^ 2 / 2))); [intros; cbn [fst snd]; ring|]. replace (fst c * 0 + snd c * s) with (snd c * s) by ring. apply (derivable_pt_lim_scal (fun s => s ^ 2 / 2)), D.
Qed.
Lemma exp_third a : exists b, 0 <= b /\ forall h, 0 <= h <= 1 ->
  size (Csub (Csub (Csub (Cexp (Cmul a (RtoC h))) (Cmul (Cmul a a) (RtoC (h ^ 2 / 2)))) (Cmul a (RtoC h))) C1) <= b * h ^ 3.
Proof.
  destruct (exp_near a) as (b & Hb & HE). exists (2 * (size a * b)). split; [apply Rmult_le_pos; [lra|apply Rmult_le_pos; [apply size_pos|exact Hb]]|]. intros h Hh.
  assert (E0 : Cexp (Cmul a (RtoC 0)) = C1).
  { unfold Cexp, Cmul, RtoC, Re, Im. cbn [fst snd]. rewrite !Rmult_0_r, Rminus_0_r, Rplus_0_r, exp_0, cos_0, sin_0. unfold C1, RtoC. f_equal; ring. }
  pose proof (mean_value (fun s => Csub (Cexp (Cmul a (RtoC s))) (Cmul (Cmul a a) (RtoC (s ^ 2 / 2)))) (fun s => Csub (Cmul a (Cexp (Cmul a (RtoC s)))) (Cmul (Cmul a a) (RtoC s))) 0 h (size a * (b * h ^ 2)) a ltac:(lra)) as Q.
  cbv beta in Q. rewrite E0 in Q. replace (2 * (size a * b) * h ^ 3) with (2 * (size a * (b * h ^ 2)) * (h - 0)) by ring.
  replace (Csub (Csub _ _) C1) with (Csub (Csub (Csub (Cexp (Cmul a (RtoC h))) (Cmul (Cmul a a) (RtoC (h ^ 2 / 2)))) (Csub C1 (Cmul (Cmul a a) (RtoC (0 ^ 2 / 2))))) (Cmul (RtoC (h - 0)) a)).
  2:{ replace (RtoC (0 ^ 2 / 2)) with C0 by (unfold RtoC, C0; f_equal; field). replace (h - 0) with h by ring. set (f := Cexp (Cmul a (RtoC h))). set (w := RtoC (h ^ 2 / 2)). csolve. }
  apply Q.
  - intros c Hc. destruct (Cderiv_exp a c) as [D1 D2]. destruct (changes_square (Cmul a a) c) as [S1 S2].
    split; [exact (derivable_pt_lim_minus _ _ _ _ _ D1 S1)|exact (derivable_pt_lim_minus _ _ _ _ _ D2 S2)].
  - intros c Hc. replace (Csub _ a) with (Cmul a (Csub (Csub (Cexp (Cmul a (RtoC c))) (Cmul a (RtoC c))) C1)) by (set (f := Cexp (Cmul a (RtoC c))); csolve).
    eapply Rle_trans; [apply size_mul|]. apply Rmult_le_compat_l; [apply size_pos|]. destruct (HE c ltac:(lra)) as [_ E2]. eapply Rle_trans; [exact E2|].
    rewrite Rmult_assoc. apply Rmult_le_compat_l; [exact Hb|]. replace (h ^ 2) with (h * h) by ring. apply Rmult_le_compat; lra.
Qed.

Lemma not_small a : ~ Cabs a < / 10 ^ 5 -> a <> C0.
Proof.
  intros Ha ->. apply Ha. unfold Cabs. replace (Cnorm2 C0) with 0 by (unfold Cnorm2; cbn; ring). rewrite sqrt_0. apply Rinv_0_lt_compat. apply pow_lt. lra.
Qed.
Lemma real_inverse h : 0 < h -> RtoC (/ h) = Cdiv C1 (RtoC h).
Proof.
  intros Hh. assert (Nh : RtoC h <> C0) by (intros E; apply (f_equal Re) in E; cbn in E; lra).
  assert (E : Cmul (RtoC h) (RtoC (/ h)) = C1) by (rewrite <- RtoC_mul, Rinv_r by lra; reflexivity).
  transitivity (Cdiv (Cmul (RtoC h) (RtoC (/ h))) (RtoC h)); [field; exact Nh|rewrite E; reflexivity].
Qed.
Lemma ie_second a : exists b, 0 <= b /\ forall h o r r0, 0 < h <= 1 ->
  size (Csub (ie_update h o a r r0) (Cadd (Cadd o (Cmul (RtoC h) (Cadd r0 (Cmul a o)))) (Cmul (RtoC (h / 2)) (Cadd (Cmul a (Cmul (RtoC h) (Cadd r0 (Cmul a o)))) (Csub r r0)))))
  <= b * h ^ 3 * (size o + size r0) + b * h ^ 2 * size (Csub r r0).
Proof.
  destruct (exp_near a) as (b0 & Hb0 & HE0). destruct (exp_third a) as (b1 & Hb1 & HE1). unfold ie_update, nonlinear_integral. destruct (Rlt_dec (Cabs a) (/ 10 ^ 5)) as [Ha|Ha].
  - exists (b0 + b1). split; [lra|]. intros h o r r0 Hh. destruct (HE0 h ltac:(lra)) as [_ E2]. pose proof (HE1 h ltac:(lra)) as E3. set (f := Cexp (Cmul a (RtoC h))) in *.
    set (e2 := Csub (Csub f (Cmul a (RtoC h))) C1) in *. set (e3 := Csub (Csub (Csub f _) _) C1) in *.
    replace (Csub _ _) with (Cadd (Cmul o e3) (Cmul (RtoC (/ 2 * h)) (Cmul r0 e2))) by (unfold e2, e3; csolve; field).
    pose proof (size_pos o). pose proof (size_pos r0). pose proof (size_pos (Csub r r0)).
    assert (S1 : size (Cmul o e3) <= size o * (b1 * h ^ 3)) by (apply size_mul_le; lra).
    assert (S2 : size (Cmul (RtoC (/ 2 * h)) (Cmul r0 e2)) <= / 2 * h * (size r0 * (b0 * h * h))).
    { rewrite size_real, Rabs_right by lra. apply Rmult_le_compat_l; [lra|]. apply size_mul_le; lra. }
    eapply Rle_trans; [apply size_add_le; [exact S1|exact S2]|].
    assert (P3 : 0 <= h ^ 3) by (apply pow_le; lra). assert (P2 : 0 <= h ^ 2) by (apply pow_le; lra).
    assert (0 <= h ^ 3 * size r0) by (apply Rmult_le_pos; assumption). assert (0 <= h ^ 3 * size o) by (apply Rmult_le_pos; assumption).
    assert (0 <= h ^ 2 * size (Csub r r0)) by (apply Rmult_le_pos; assumption).
    assert (0 <= b0 * (h ^ 3 * size r0)) by (apply Rmult_le_pos; assumption). assert (0 <= b1 * (h ^ 3 * size r0)) by (apply Rmult_le_pos; assumption).
    assert (0 <= b0 * (h ^ 3 * size o)) by (apply Rmult_le_pos; assumption). assert (0 <= (b0 + b1) * (h ^ 2 * size (Csub r r0))) by (apply Rmult_le_pos; lra).
    replace (/ 2 * h * (size r0 * (b0 * h * h))) with (/ 2 * (b0 * (h ^ 3 * size r0))) by ring.
    replace ((b0 + b1) * h ^ 3 * (size o + size r0) + (b0 + b1) * h ^ 2 * size (Csub r r0))
      with (b0 * (h ^ 3 * size o) + b1 * (h ^ 3 * size o) + b0 * (h ^ 3 * size r0) + b1 * (h ^ 3 * size r0) + (b0 + b1) * (h ^ 2 * size (Csub r r0))) by ring.
    replace (size o * (b1 * h ^ 3)) with (b1 * (h ^ 3 * size o)) by ring. lra.
  - assert (Na := not_small a Ha). set (ia := Cdiv C1 a). assert (Pia := size_pos ia).
    set (b := b1 + size ia * b1 + size ia * size ia * b1). exists b. assert (P1 : 0 <= size ia * b1) by (apply Rmult_le_pos; assumption). assert (P2 : 0 <= size ia * size ia * b1) by (apply Rmult_le_pos; [apply Rmult_le_pos|]; assumption).
    split; [unfold b; lra|]. intros h o r r0 Hh. pose proof (HE1 h ltac:(lra)) as E3. set (f := Cexp (Cmul a (RtoC h))) in *. set (e3 := Csub (Csub (Csub f _) _) C1) in *.
    assert (Nh : RtoC h <> C0) by (intros E; apply (f_equal Re) in E; cbn in E; lra).
    replace (Csub _ _) with (Cadd (Cmul o e3) (Cadd (Cmul r0 (Cmul ia e3)) (Cmul (RtoC (/ h)) (Cmul (Csub r r0) (Cmul (Cmul ia ia) e3))))).
    2:{ assert (EH : RtoC (h ^ 2 / 2) = Cmul (RtoC (/ 2)) (Cmul (RtoC h) (RtoC h))) by (csolve; field). assert (EH' : RtoC (h / 2) = Cmul (RtoC (/ 2)) (RtoC h)) by (csolve; field).
        unfold e3, ia. rewrite EH, EH', (real_inverse h) by lra. assert (Half : Cadd (RtoC (/ 2)) (RtoC (/ 2)) = C1) by (csolve; field).
        set (w := RtoC (/ 2)) in *. set (hh := RtoC h) in *. field. split; assumption. }
    pose proof (size_pos o). pose proof (size_pos r0). pose proof (size_pos (Csub r r0)). assert (Ph : 0 <= / h) by (left; apply Rinv_0_lt_compat; lra).
    assert (S1 : size (Cmul o e3) <= size o * (b1 * h ^ 3)) by (apply size_mul_le; lra).
    assert (S2 : size (Cmul r0 (Cmul ia e3)) <= size r0 * (size ia * (b1 * h ^ 3))) by (repeat apply size_mul_le; lra).
    assert (S3 : size (Cmul (RtoC (/ h)) (Cmul (Csub r r0) (Cmul (Cmul ia ia) e3))) <= / h * (size (Csub r r0) * (size ia * size ia * (b1 * h ^ 3)))).
    { rewrite size_real, Rabs_right by lra. apply Rmult_le_compat_l; [exact Ph|]. apply size_mul_le; [lra|]. apply size_mul_le; [|lra]. apply size_mul. }
    eapply Rle_trans; [apply size_add_le; [exact S1|apply size_add_le; [exact S2|exact S3]]|].
    replace (/ h * (size (Csub r r0) * (size ia * size ia * (b1 * h ^ 3)))) with (size ia * size ia * b1 * (h ^ 2 * size (Csub r r0))) by (field; lra).
    assert (0 <= h ^ 3 * size o) by (apply Rmult_le_pos; [apply pow_le; lra|assumption]). assert (0 <= h ^ 3 * size r0) by (apply Rmult_le_pos; [apply pow_le; lra|assumption]).
    assert (0 <= h ^ 2 * size (Csub r r0)) by (apply Rmult_le_pos; [apply pow_le; lra|assumption]).
    assert (b1 * (h ^ 3 * size o) <= b * (h ^ 3 * size o)) by (apply Rmult_le_compat_r; unfold b; lra).
    assert (size ia * b1 * (h ^ 3 * size r0) <= b * (h ^ 3 * size r0)) by (apply Rmult_le_compat_r; unfold b; lra).
    assert (size ia * size ia * b1 * (h ^ 2 * size (Csub r r0)) <= b * (h ^ 2 * size (Csub r r0))) by (apply Rmult_le_compat_r; unfold b; lra). lra.
Qed.

(** How the old values enter. *)
Lemma integral_prev h a r r0 r1 : 0 < h -> Csub (nonlinear_integral h a r r0) (nonlinear_integral h a r r1) = nonlinear_integral h a C0 (Csub r0 r1).
Proof.
  intros Hh. unfold nonlinear_integral. assert (Nh : RtoC h <> C0) by (intros E; apply (f_equal Re) in E; cbn in E; lra).
  destruct (Rlt_dec (Cabs a) (/ 10 ^ 5)) as [Ha|Ha]; [set (f := Cexp _); csolve|]. assert (Na := not_small a Ha). field. split; assumption.
Qed.
Lemma ie_shift a : exists b, 0 <= b /\ forall h o o' r r0 r1, 0 < h <= 1 ->
  size (Csub (ie_update h o a r r0) (ie_update h o' a r r1)) <= (1 + b * h) * size (Csub o o') + b * h * size (Csub r0 r1).
Proof.
  destruct (exp_near a) as (b0 & Hb0 & HE0). destruct (integral_near a) as (b1 & Hb1 & HI). exists (b0 + 2 * b1 + 1). split; [lra|]. intros h o o' r r0 r1 Hh.
  destruct (HE0 h ltac:(lra)) as [E1 _]. destruct (HI h (Csub r0 r1) C0 (Csub r0 r1) Hh) as [I1 I2].
  unfold ie_update. set (f := Cexp (Cmul a (RtoC h))) in *.
  replace (Csub _ _) with (Cadd (Cadd (Csub o o') (Cmul (Csub o o') (Csub f C1))) (Csub (nonlinear_integral h a r r0) (nonlinear_integral h a r r1))) by csolve.
  rewrite integral_prev by lra. set (d := Csub r0 r1) in *. set (u := Csub o o') in *. set (n0 := nonlinear_integral h a C0 d) in *. set (n1 := nonlinear_integral h a d d) in *.
  replace n0 with (Csub (Cadd (Csub n1 (Cmul (RtoC h) d)) (Cmul (RtoC h) d)) (Csub n1 n0)) by csolve.
  replace (Csub d C0) with d in I1 by csolve. pose proof (size_pos u). pose proof (size_pos d).
  assert (S1 : size (Cmul u (Csub f C1)) <= size u * (b0 * h)) by (apply size_mul_le; lra).
  assert (S2 : size (Cmul (RtoC h) d) = h * size d) by (rewrite size_real, Rabs_right by lra; reflexivity).
  assert (S3 := size_sub (Cadd (Csub n1 (Cmul (RtoC h) d)) (Cmul (RtoC h) d)) (Csub n1 n0)). assert (S4 := size_add (Csub n1 (Cmul (RtoC h) d)) (Cmul (RtoC h) d)).
  eapply Rle_trans; [apply size_add|]. assert (S5 := size_add u (Cmul u (Csub f C1))).
  assert (0 <= h * size u) by (apply Rmult_le_pos; lra). assert (0 <= h * size d) by (apply Rmult_le_pos; lra).
  assert (b1 * h * h * size d <= b1 * (h * size d)). { replace (b1 * h * h * size d) with (b1 * (h * (h * size d))) by ring. apply Rmult_le_compat_l; [lra|]. rewrite <- (Rmult_1_l (h * size d)) at 2. apply Rmult_le_compat_r; lra. }
  assert (0 <= b1 * (h * size u)) by (apply Rmult_le_pos; assumption). assert (0 <= b0 * (h * size d)) by (apply Rmult_le_pos; assumption). assert (0 <= b1 * (h * size d)) by (apply Rmult_le_pos; assumption).
  lra.
Qed.

(** ** The trapezoidal rule along the solution *)
Section Trapezoid.
  Variables nf n : nat.
  Variable p : nat -> nat -> pexp.
  Hypothesis HP : forall i k, (i < nf)%nat -> (k < n)%nat -> inside nf n (p i k).
  Notation wi := (within nf n).
  Notation nr := (near nf n).
  Notation f := (ff p).
  Variable Y : R -> grid.
  Variables T B : R.
  Hypothesis HB : 0 <= B.
  Hypothesis HYB : forall t, 0 <= t <= T -> wi B (Y t).
  Hypothesis HY : forall i k t, (i < nf)%nat -> (k < n)%nat -> 0 <= t <= T -> changes (fun s => Y s i k) t (f (Y t) i k).

  Lemma trapezoid : exists C h0, 0 <= C /\ 0 < h0 <= 1 /\ forall t h, 0 <= t -> t + h <= T -> 0 < h <= h0 ->
    nr (C * h ^ 3) (Y (t + h)) (gadd (Y t) (gscal (h / 2) (gadd (f (Y t)) (f (Y (t + h))))))
    /\ nr (C * h ^ 2) (Y (t + h)) (gadd (Y t) (gscal h (f (Y t))))
    /\ nr (C * h) (Y (t + h)) (Y t) /\ wi C (f (Y t)).
  Proof.
    destruct (local_step nf n p HP B HB) as (R & h1 & HR & Ph1 & HL). destruct (constants_exist nf n p HP (B + 1) R ltac:(lra) HR) as (K & CK). assert (PK := ck_pos _ _ _ _ _ _ CK).
    destruct (solution_expansion nf n p HP Y T B HB HYB HY) as (C & h2 & HC & Ph2 & HX).
    assert (RR : 0 <= K * (R * R)) by (repeat apply Rmult_le_pos; assumption). assert (RRR : 0 <= K * (R * R * R)) by (repeat apply Rmult_le_pos; assumption).
    assert (PKR : 0 <= K * R) by (apply Rmult_le_pos; assumption).
    set (c1 := C + 2 * R). set (d1 := K * c1 + K + (K * R + K * (R * R) + (2 * (K * (R * R)) + K * (R * R * R)))).
    assert (Pc1 : 0 <= c1) by (unfold c1; lra). assert (PKc : 0 <= K * c1) by (apply Rmult_le_pos; assumption). assert (Pd1 : 0 <= d1) by (unfold d1; lra).
    set (h0 := Rmin (Rmin h1 h2) (/ (1 + 3 * R))). assert (Pi : 0 < / (1 + 3 * R)) by (apply Rinv_0_lt_compat; lra).
    assert (Ph0 : 0 < h0) by (unfold h0; repeat apply Rmin_glb_lt; assumption). assert (i1 : / (1 + 3 * R) <= 1) by (rewrite <- Rinv_1; apply Rinv_le_contravar; lra).
    assert (h01 : h0 <= 1) by (eapply Rle_trans; [apply Rmin_r|exact i1]).
    exists (c1 + d1 + 2 * R), h0. split; [lra|]. split; [lra|]. intros t h Ht HTh Hh.
    assert (Hh1 : h <= h1) by (eapply Rle_trans; [apply Hh|unfold h0; eapply Rle_trans; [apply Rmin_l|apply Rmin_l]]).
    assert (Hh2 : h <= h2) by (eapply Rle_trans; [apply Hh|unfold h0; eapply Rle_trans; [apply Rmin_l|apply Rmin_r]]).
    assert (Hh3 : 3 * R * h <= 1).
    { assert (h <= / (1 + 3 * R)) by (eapply Rle_trans; [apply Hh|apply Rmin_r]). apply Rle_trans with ((1 + 3 * R) * / (1 + 3 * R)); [|rewrite Rinv_r by lra; lra].
      apply Rle_trans with ((1 + 3 * R) * h); [lra|]. apply Rmult_le_compat_l; lra. }
    assert (Hx : wi B (Y t)) by (apply HYB; lra). assert (Wx : wi (B + 1) (Y t)) by (apply (wi_mono nf n B); [exact Hx|lra]).
    destruct (HL h (Y t) ltac:(lra) Hx) as (_ & WF & WA2 & WA3 & WA4). specialize (HX t h Ht HTh ltac:(lra)).
    set (x := Y t) in *. set (y := Y (t + h)) in *. set (F := f x) in *. set (A2 := a2 p x) in *. set (A3 := a3 p x) in *. set (A4 := a4 p x) in *.
    assert (Wgz : wi R gz) by (apply (wi_mono nf n 0); [apply wi_gz|exact HR]).
    assert (p2 : 0 <= h ^ 2 <= h) by (cbn [pow]; nra). assert (p3 : 0 <= h ^ 3 <= h ^ 2) by (cbn [pow] in *; nra). assert (p4 : 0 <= h ^ 4 <= h ^ 3) by (cbn [pow] in *; nra). assert (p5 : 0 <= h ^ 5 <= h ^ 4) by (cbn [pow] in *; nra).
    (* the solution to third order *)
    assert (N1 : nr (c1 * h ^ 3) y (gadd x (curve h F A2 gz))).
    { eapply nr_mono; [eapply nr_tri; [exact HX|]|].
      - replace (gadd x (quart h F A2 A3 A4)) with (gadd (gadd x (curve h F A2 gz)) (gadd (gscal (h ^ 3) A3) (gscal (h ^ 4) A4))).
        + apply nr_more. apply wi_add; apply wi_scal; eassumption.
        + apply grid_ext. intros i k. unfold quart, curve, gadd, gscal, gz. csolve.
      - rewrite !Rabs_right by (apply Rle_ge, pow_le; lra). assert (C * h ^ 5 <= C * h ^ 3) by (apply Rmult_le_compat_l; lra). assert (h ^ 4 * R <= h ^ 3 * R) by (apply Rmult_le_compat_r; lra). unfold c1. lra. }
    (* the rate to second order *)
    assert (N2 : nr (d1 * h ^ 2) (f y) (gadd F (gscal (2 * h) A2))).
    { eapply nr_mono; [eapply nr_tri; [apply (ck_lip _ _ _ _ _ _ CK y (gadd x (curve h F A2 gz)) (c1 * h ^ 3))|eapply nr_tri; [apply (ck_along _ _ _ _ _ _ CK x F A2 gz h); try assumption; lra|]]|].
      - apply Rmult_le_pos; lra.
      - apply (wi_mono nf n B); [apply HYB; lra|lra].
      - apply wi_add; [exact Hx|]. eapply wi_mono; [apply wi_add; [apply wi_scal, WF|apply wi_add; apply wi_scal; eassumption]|]. rewrite !Rabs_right by (try apply Rle_ge, pow_le; lra).
        assert (h ^ 2 * R <= h * R) by (apply Rmult_le_compat_r; lra). assert (h ^ 3 * R <= h * R) by (apply Rmult_le_compat_r; lra). lra.
      - exact N1.
      - assert (EA2 : D1 p x F = gscal 2 A2) by (unfold A2, a2; fold F; gsolve).
        assert (Eq : alongs p x F A2 gz h = gadd (gadd F (gscal (2 * h) A2)) (gadd (gscal (h ^ 2) (gadd (D1 p x A2) (D2 p x F F))) (gscal (h ^ 3) (gadd (gadd (D2 p x F A2) (D2 p x A2 F)) (D3 p x F F F))))).
        { rewrite alongs_at, (gz_scal F), D1_scal, EA2. fold F. gsolve. }
        rewrite Eq. apply nr_more. apply wi_add; apply wi_scal.
        + apply wi_add; [apply (ck_d1 _ _ _ _ _ _ CK x A2 R)|apply (ck_d2 _ _ _ _ _ _ CK x F F R R)]; assumption.
        + apply wi_add; [apply wi_add; [apply (ck_d2 _ _ _ _ _ _ CK x F A2 R R)|apply (ck_d2 _ _ _ _ _ _ CK x A2 F R R)]|apply (ck_d3 _ _ _ _ _ _ CK x F F F R R R)]; assumption.
      - rewrite !Rabs_right by (apply Rle_ge, pow_le; lra).
        assert (K * c1 * h ^ 3 <= K * c1 * h ^ 2) by (apply Rmult_le_compat_l; lra). assert (K * h ^ 4 <= K * h ^ 2) by (apply Rmult_le_compat_l; lra).
        assert (h ^ 3 * (K * (R * R) + K * (R * R) + K * (R * R * R)) <= h ^ 2 * (K * (R * R) + K * (R * R) + K * (R * R * R))) by (apply Rmult_le_compat_r; lra). unfold d1. lra. }
    assert (M3 : c1 * h ^ 3 <= c1 * h ^ 2) by (apply Rmult_le_compat_l; lra). assert (M2 : c1 * h ^ 2 <= c1 * h) by (apply Rmult_le_compat_l; lra).
    assert (0 <= d1 * h) by (apply Rmult_le_pos; lra). assert (0 <= d1 * h ^ 2) by (apply Rmult_le_pos; lra). assert (0 <= d1 * h ^ 3) by (apply Rmult_le_pos; lra).
    assert (0 <= R * h ^ 2) by (apply Rmult_le_pos; lra). assert (0 <= R * h ^ 3) by (apply Rmult_le_pos; lra). assert (R * h ^ 2 <= R * h) by (apply Rmult_le_compat_l; lra).
    assert (N3 : nr (c1 * h ^ 2 + R * h ^ 2) y (gadd x (gscal h F))).
    { eapply nr_mono; [eapply nr_tri; [exact N1|]|].
      - replace (gadd x (curve h F A2 gz)) with (gadd (gadd x (gscal h F)) (gscal (h ^ 2) A2)) by (apply grid_ext; intros i k; unfold curve, gadd, gscal, gz; csolve). apply nr_more, wi_scal, WA2.
      - rewrite Rabs_right by (apply Rle_ge, pow_le; lra). lra. }
    split; [|split; [|split]].
    - eapply nr_mono; [eapply nr_tri; [exact N1|]|].
      + replace (gadd x (curve h F A2 gz)) with (gadd x (gscal (h / 2) (gadd F (gadd F (gscal (2 * h) A2))))) by (apply grid_ext; intros i k; unfold curve, gadd, gscal, gz; csolve; field).
        apply nr_add; [apply nr_refl|]. apply nr_scal. apply nr_add; [apply nr_refl|]. apply nr_sym, N2.
      + rewrite Rabs_right by lra. replace (0 + h / 2 * (0 + d1 * h ^ 2)) with (d1 * h ^ 3 / 2) by field. lra.
    - eapply nr_mono; [exact N3|lra].
    - eapply nr_mono; [eapply nr_tri; [exact N3|apply nr_more, wi_scal, WF]|]. rewrite Rabs_right by lra. lra.
    - eapply wi_mono; [exact WF|lra].
  Qed.
End Trapezoid.

(** ** One step of the scheme *)
Section Scheme.
  Variables (nf n : nat).
  Variable A : nat -> nat -> C.
  Variable F : nat -> nat -> R -> grid -> grid -> C.
  Variable p : nat -> nat -> pexp.
  Hypothesis HP : forall i k, (i < nf)%nat -> (k < n)%nat -> inside nf n (p i k).
  Hypothesis HFp : forall i k t x, (i < nf)%nat -> (k < n)%nat -> F i k t x x = ff p x i k.
  Variable Y : R -> grid.
  Variable T : R.
  Hypothesis HT : 0 <= T.
  Hypothesis HF : forall r, exists K, 0 <= K /\ forall t t' x y s u e, 0 <= t <= T -> 0 <= t' <= T -> within nf n r x -> within nf n r y -> within nf n r s -> within nf n r u ->
    near nf n e x y -> near nf n e s u -> Rabs (t - t') <= e -> forall i k, (i < nf)%nat -> (k < n)%nat -> size (Csub (F i k t x s) (F i k t' y u)) <= K * e.
  Hypothesis HY : forall i k t, (i < nf)%nat -> (k < n)%nat -> 0 <= t <= T -> changes (fun s => Y s i k) t (G A F Y i k t).
  Notation wi := (within nf n).
  Notation nr := (near nf n).

  (** The whole right-hand side. *)
  Definition whole (i k : nat) : pexp := PAdd (p i k) (PMul (PConst (A i k)) (PVar i k)).
  Lemma whole_at x i k : ff whole x i k = Cadd (ff p x i k) (Cmul (A i k) (x i k)).
  Proof. reflexivity. Qed.
  Lemma defect : exists C h0, 0 <= C /\ 0 < h0 <= 1 /\ forall t h, 0 <= t -> t + h <= T -> 0 < h <= h0 ->
    nr (C * h ^ 3) (target A F h t (Y t) (Y (t + h))) (Y (t + h)).
  Proof.
    destruct (solution_bounded nf n A F Y T HT HY) as (B & HB & HYB).
    destruct (trapezoid nf n whole) with (Y := Y) (T := T) (B := B) as (C & h0 & HC & Hh0 & HX).
    { intros i k Hi Hk. split; [apply HP; assumption|]. split; [exact I|]. split; assumption. }
    { exact HB. }
    { exact HYB. }
    { intros i k t Hi Hk Ht. rewrite whole_at, <- (HFp i k t (Y t) Hi Hk). exact (HY i k t Hi Hk Ht). }
    destruct (constants_exist nf n p HP B 0 HB ltac:(lra)) as (K & CK). assert (PK := ck_pos _ _ _ _ _ _ CK).
    destruct (bound_over2 nf n (fun i k b => size (A i k) <= b)) as (a & Ha & HaA); [intros; lra|intros i k _ _; exists (size (A i k)); lra|].
    destruct (bound_over2 nf n (fun i k b => 0 <= b /\ forall h o r r0, 0 < h <= 1 ->
      size (Csub (ie_update h o (A i k) r r0) (Cadd (Cadd o (Cmul (RtoC h) (Cadd r0 (Cmul (A i k) o)))) (Cmul (RtoC (h / 2)) (Cadd (Cmul (A i k) (Cmul (RtoC h) (Cadd r0 (Cmul (A i k) o)))) (Csub r r0)))))
      <= b * h ^ 3 * (size o + size r0) + b * h ^ 2 * size (Csub r r0))) as (b & Hb & HbI).
    { intros i k b b' [Hb H] Hle. split; [lra|]. intros h o r r0 Hh. eapply Rle_trans; [apply H, Hh|]. pose proof (size_pos o). pose proof (size_pos r0). pose proof (size_pos (Csub r r0)).
      assert (0 <= h ^ 3 * (size o + size r0)) by (apply Rmult_le_pos; [apply pow_le|]; lra). assert (0 <= h ^ 2 * size (Csub r r0)) by (apply Rmult_le_pos; [apply pow_le|]; lra).
      rewrite !Rmult_assoc. apply Rplus_le_compat; apply Rmult_le_compat_r; lra. }
    { intros i k _ _. destruct (ie_second (A i k)) as (b & Hb & H). exists b. split; assumption. }
    assert (PaB : 0 <= a * B) by (apply Rmult_le_pos; assumption). assert (PaC : 0 <= a * C) by (apply Rmult_le_pos; assumption). assert (PKC : 0 <= K * C) by (apply Rmult_le_pos; assumption).
    assert (Pb1 : 0 <= b * (B + (K + 0))) by (apply Rmult_le_pos; lra). assert (Pb2 : 0 <= b * (K * C)) by (apply Rmult_le_pos; assumption).
    exists (b * (B + (K + 0)) + b * (K * C) + a * C + C), h0. split; [lra|]. split; [exact Hh0|]. intros t h Ht HTh Hh i k Hi Hk.
    destruct (HX t h Ht HTh Hh) as (X3 & X2 & X1 & _). assert (Wt : wi B (Y t)) by (apply HYB; lra). assert (Wh : wi B (Y (t + h))) by (apply HYB; lra).
    assert (R0 : size (ff p (Y t) i k) <= K) by (apply (ck_val _ _ _ _ _ _ CK); assumption).
    assert (DR : size (Csub (ff p (Y (t + h)) i k) (ff p (Y t) i k)) <= K * (C * h)) by (apply (ck_lip _ _ _ _ _ _ CK (Y (t + h)) (Y t) (C * h)); try assumption; apply Rmult_le_pos; lra).
    specialize (X3 i k Hi Hk). specialize (X2 i k Hi Hk). unfold gadd, gscal in X3, X2. rewrite !whole_at in X3. rewrite !whole_at in X2. specialize (Wt i k Hi Hk).
    destruct (HbI i k Hi Hk) as [_ I]. specialize (I h (Y t i k) (ff p (Y (t + h)) i k) (ff p (Y t) i k) ltac:(lra)).
    unfold target. rewrite !HFp by assumption. set (o := Y t i k) in *. set (w := Y (t + h) i k) in *. set (r := ff p (Y (t + h)) i k) in *. set (r0 := ff p (Y t) i k) in *. set (al := A i k) in *.
    assert (Hal : size al <= a) by (apply HaA; assumption). set (tg := ie_update h o al r r0) in *.
    set (u := Cadd (Cadd o (Cmul (RtoC h) (Cadd r0 (Cmul al o)))) (Cmul (RtoC (h / 2)) (Cadd (Cmul al (Cmul (RtoC h) (Cadd r0 (Cmul al o)))) (Csub r r0)))) in *.
    set (v := Cadd o (Cmul (RtoC (h / 2)) (Cadd (Cadd r0 (Cmul al o)) (Cadd r (Cmul al w))))) in *. set (z := Csub w (Cadd o (Cmul (RtoC h) (Cadd r0 (Cmul al o))))) in *.
    replace (Csub tg w) with (Csub (Cadd (Csub tg u) (Copp (Csub w v))) (Cmul (RtoC (h / 2)) (Cmul al z))) by (unfold u, v, z; csolve; field).
    assert (S1 : size (Cmul (RtoC (h / 2)) (Cmul al z)) <= h / 2 * (a * (C * h ^ 2))) by (rewrite size_real, Rabs_right by lra; apply Rmult_le_compat_l; [lra|apply size_mul_le; assumption]).
    eapply Rle_trans; [apply size_sub|]. assert (S2 := size_add (Csub tg u) (Copp (Csub w v))). rewrite size_opp in S2.
    assert (P3 : 0 <= h ^ 3) by (apply pow_le; lra). assert (P2 : 0 <= h ^ 2) by (apply pow_le; lra).
    assert (b * h ^ 3 * (size o + size r0) <= b * h ^ 3 * (B + (K + 0))) by (apply Rmult_le_compat_l; [apply Rmult_le_pos; lra|lra]).
    assert (b * h ^ 2 * size (Csub r r0) <= b * h ^ 2 * (K * (C * h))) by (apply Rmult_le_compat_l; [apply Rmult_le_pos; lra|lra]).
    replace (b * h ^ 2 * (K * (C * h))) with (b * (K * C) * h ^ 3) in * by ring. replace (h / 2 * (a * (C * h ^ 2))) with (a * C * h ^ 3 / 2) in * by field.
    assert (0 <= a * C * h ^ 3) by (apply Rmult_le_pos; assumption). lra.
  Qed.

  (** The error after one step whose equation is solved up to the third power
      of the time step. *)
  Lemma second_step rho kap : 0 <= rho -> 0 <= kap -> exists Cx h0, 0 <= Cx /\ 0 < h0 <= 1 /\ forall h t x v E, 0 < h <= h0 -> 0 <= t -> t + h <= T -> 0 <= E <= 1 ->
    nr E x (Y t) -> nr rho v x -> nr (kap * h ^ 3) v (target A F h t x v) -> nr ((1 + Cx * h) * E + Cx * h ^ 3) v (Y (t + h)).
  Proof.
    intros Hrho Hkap. destruct (solution_bounded nf n A F Y T HT HY) as (B & HB & HYB). destruct defect as (Cd & h0 & HCd & Hh0 & Def).
    set (rh := rho + 2 * B + 1). destruct (target_bounds nf n A F Y T HT HF HY rh ltac:(unfold rh; lra)) as (C & HC & TB).
    destruct (HF (B + 1)) as (K & HK & HKF).
    destruct (bound_over2 nf n (fun i k b => 0 <= b /\ forall h o o' r r0 r1, 0 < h <= 1 ->
      size (Csub (ie_update h o (A i k) r r0) (ie_update h o' (A i k) r r1)) <= (1 + b * h) * size (Csub o o') + b * h * size (Csub r0 r1))) as (b & Hb & HbI).
    { intros i k b b' [Hb H] Hle. split; [lra|]. intros h o o' r r0 r1 Hh. eapply Rle_trans; [apply H, Hh|]. pose proof (size_pos (Csub o o')). pose proof (size_pos (Csub r0 r1)).
      assert (b * h <= b' * h) by (apply Rmult_le_compat_r; lra). apply Rplus_le_compat; apply Rmult_le_compat_r; lra. }
    { intros i k _ _. destruct (ie_shift (A i k)) as (b & Hb & H). exists b. split; assumption. }
    assert (PbK : 0 <= b * K) by (apply Rmult_le_pos; assumption). assert (PCk : 0 <= C * kap) by (apply Rmult_le_pos; assumption). assert (PCC : 0 <= C * C) by (apply Rmult_le_pos; assumption).
    assert (PCCC : 0 <= C * (C * (C + kap) + C)) by (apply Rmult_le_pos; [exact HC|]; assert (0 <= C * (C + kap)) by (apply Rmult_le_pos; lra); lra).
    exists (b + b * K + (C + C * C) + kap + Cd + (C * kap + C * (C * (C + kap) + C))), h0. split; [lra|]. split; [exact Hh0|].
    intros h t x v E Hh Ht HTh HE Hx Hvx Hv.
    destruct (TB h t x E ltac:(lra) ltac:(lra) HE Hx) as (T1 & T2 & T3).
    assert (Wv : nr rh v x) by (apply (nr_mono nf n rho); [exact Hvx|unfold rh; lra]).
    assert (Wy : nr rh (Y (t + h)) x).
    { intros i k Hi Hk. pose proof (size_tri (Y (t + h) i k) (Y t i k) (x i k)) as Q. pose proof (Hx i k Hi Hk) as Q1. rewrite size_sub_sym in Q1. pose proof (size_sub (Y (t + h) i k) (Y t i k)).
      pose proof (HYB (t + h) ltac:(lra) i k Hi Hk). pose proof (HYB t ltac:(lra) i k Hi Hk). unfold rh. lra. }
    assert (P2 : 0 <= h ^ 2 <= h) by (cbn [pow]; nra). assert (P3 : 0 <= h ^ 3 <= h ^ 2) by (cbn [pow] in *; nra).
    (* first order *)
    assert (N1 : nr ((C + kap) * h) v x).
    { eapply nr_mono; [eapply nr_tri; [exact Hv|apply T1, Wv]|]. assert (kap * h ^ 3 <= kap * h) by (apply Rmult_le_compat_l; lra). lra. }
    assert (Pe : 0 <= (C + kap) * h) by (apply Rmult_le_pos; lra).
    assert (N2 : nr (kap * h ^ 3 + ((1 + C * h) * E + (C * (C + kap) + C) * h ^ 2)) v (Y (t + h))).
    { eapply nr_mono; [eapply nr_tri; [exact Hv|apply (T3 v _ Pe HTh Wv N1)]|]. right. ring. }
    set (e0 := kap * h ^ 3 + ((1 + C * h) * E + (C * (C + kap) + C) * h ^ 2)) in *.
    assert (PCh : 0 <= C * h) by (apply Rmult_le_pos; lra). assert (PchE : 0 <= C * h * E) by (apply Rmult_le_pos; lra).
    assert (PCk' : 0 <= C * (C + kap)) by (apply Rmult_le_pos; lra). assert (0 <= (C * (C + kap) + C) * h ^ 2) by (apply Rmult_le_pos; lra). assert (Pk3 : 0 <= kap * h ^ 3) by (apply Rmult_le_pos; lra).
    assert (Pe0 : 0 <= e0) by (unfold e0; lra).
    assert (N3 := T2 v (Y (t + h)) e0 Pe0 Wv Wy N2).
    (* old values *)
    assert (N4 : nr ((1 + b * h) * E + b * h * (K * E)) (target A F h t x (Y (t + h))) (target A F h t (Y t) (Y (t + h)))).
    { intros i k Hi Hk. unfold target. destruct (HbI i k Hi Hk) as [_ I]. eapply Rle_trans; [apply I; lra|].
      assert (0 <= b * h) by (apply Rmult_le_pos; lra). apply Rplus_le_compat; apply Rmult_le_compat_l; try lra; [apply Hx; assumption|].
      assert (WY : wi (B + 1) (Y t)) by (intros j q Hj Hq; pose proof (HYB t ltac:(lra) j q Hj Hq); lra).
      assert (Wx : wi (B + 1) x) by (intros j q Hj Hq; pose proof (size_of_sub (x j q) (Y t j q)); pose proof (Hx j q Hj Hq); pose proof (HYB t ltac:(lra) j q Hj Hq); lra).
      apply (HKF t t x (Y t) x (Y t) E); try assumption; try lra. rewrite Rminus_diag_eq, Rabs_R0 by reflexivity. lra. }
    pose proof (Def t h Ht HTh Hh) as N5.
    eapply nr_mono; [eapply nr_tri; [exact Hv|eapply nr_tri; [exact N3|eapply nr_tri; [exact N4|exact N5]]]|].
    assert (Q1 : C * h * e0 <= (C + C * C) * (h * E) + (C * kap + C * (C * (C + kap) + C)) * h ^ 3).
    { unfold e0. replace (C * h * (kap * h ^ 3 + ((1 + C * h) * E + (C * (C + kap) + C) * h ^ 2))) with (C * kap * (h * h ^ 3) + C * (h * E) + C * C * (h * (h * E)) + C * (C * (C + kap) + C) * h ^ 3) by ring.
      assert (0 <= h * E) by (apply Rmult_le_pos; lra). assert (h * h ^ 3 <= 1 * h ^ 3) by (apply Rmult_le_compat_r; lra). assert (h * (h * E) <= 1 * (h * E)) by (apply Rmult_le_compat_r; lra).
      assert (C * kap * (h * h ^ 3) <= C * kap * (1 * h ^ 3)) by (apply Rmult_le_compat_l; lra). assert (C * C * (h * (h * E)) <= C * C * (1 * (h * E))) by (apply Rmult_le_compat_l; lra). lra. }
    assert (0 <= h * E) by (apply Rmult_le_pos; lra).
    assert (0 <= (kap + Cd + (C * kap + C * (C * (C + kap) + C))) * (h * E)) by (apply Rmult_le_pos; lra).
    assert (0 <= (b + b * K + (C + C * C)) * h ^ 3) by (apply Rmult_le_pos; lra). lra.
  Qed.
End Scheme.
