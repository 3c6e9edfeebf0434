From Verif Require Import PixelModel PixelSpec.
From Flocq Require Import Relative.
From Coq Require Import Lia Lra Psatz.
Open Scope R_scope.

Notation fexp64 := (SpecFloat.fexp 53 1024).
Notation rnd := (round radix2 fexp64 ZnearestE).

#[local] Instance vexp : Valid_exp fexp64.
Proof. apply fexp_correct. exact prec_pos. Qed.
#[local] Instance mexp : Monotone_exp fexp64.
Proof. apply fexp_monotone. Qed.

Lemma rnd_le x y : x <= y -> rnd x <= rnd y.
Proof. apply round_le; typeclasses eauto. Qed.
Lemma rnd_id x : generic_format radix2 fexp64 x -> rnd x = x.
Proof. apply round_generic. typeclasses eauto. Qed.
Lemma gf_bpow e : (-1074 <= e)%Z -> generic_format radix2 fexp64 (b2 e).
Proof. intros H. apply generic_format_bpow. unfold SpecFloat.fexp, SpecFloat.emin. lia. Qed.
Lemma rnd_bound x e : (-1074 <= e)%Z -> Rabs x <= b2 e -> Rabs (rnd x) <= b2 e.
Proof. intros He. apply abs_round_le_generic; try typeclasses eauto. apply gf_bpow, He. Qed.
Lemma gf_F2R m e : (Z.abs m < 2 ^ 53)%Z -> (-1074 <= e)%Z -> generic_format radix2 fexp64 (IZR m * b2 e).
Proof.
  intros Hm He. change (IZR m * b2 e) with (F2R (Float radix2 m e)).
  apply (generic_format_FLT radix2 (-1074) 53). exists (Float radix2 m e); [reflexivity| |exact He].
  exact Hm.
Qed.
Lemma rnd_0 : rnd 0 = 0.
Proof. apply round_0. typeclasses eauto. Qed.
Lemma rnd_rel x : b2 (-1022) <= Rabs x -> Rabs (rnd x - x) <= / 2 * b2 (-52) * Rabs x.
Proof. intros H. apply (relative_error_N_FLT radix2 (-1074) 53 eq_refl _ x H). Qed.

Lemma lt_emax e x : (e < 1024)%Z -> Rabs x <= b2 e -> Rlt_bool (Rabs x) (b2 1024) = true.
Proof. intros He H. apply Rlt_bool_true. eapply Rle_lt_trans; [exact H|]. apply bpow_lt, He. Qed.

(** Real values of the operations, without overflow. *)
Lemma fsub_val (x y : f64) e : is_finite x = true -> is_finite y = true -> (-1074 <= e < 1024)%Z -> Rabs (B2R x - B2R y) <= b2 e ->
  B2R (fsub x y) = rnd (B2R x - B2R y) /\ is_finite (fsub x y) = true.
Proof.
  intros Fx Fy He H. assert (C := Bminus_correct 53 1024 _ _ mode_NE x y Fx Fy). cbn [round_mode] in C.
  rewrite (lt_emax e) in C; [|lia|apply rnd_bound; [lia|exact H]]. destruct C as (A & B & _). split; assumption.
Qed.
Lemma fadd_val (x y : f64) e : is_finite x = true -> is_finite y = true -> (-1074 <= e < 1024)%Z -> Rabs (B2R x + B2R y) <= b2 e ->
  B2R (fadd x y) = rnd (B2R x + B2R y) /\ is_finite (fadd x y) = true.
Proof.
  intros Fx Fy He H. assert (C := Bplus_correct 53 1024 _ _ mode_NE x y Fx Fy). cbn [round_mode] in C.
  rewrite (lt_emax e) in C; [|lia|apply rnd_bound; [lia|exact H]]. destruct C as (A & B & _). split; assumption.
Qed.
Lemma fmul_val (x y : f64) e : is_finite x = true -> is_finite y = true -> (-1074 <= e < 1024)%Z -> Rabs (B2R x * B2R y) <= b2 e ->
  B2R (fmul x y) = rnd (B2R x * B2R y) /\ is_finite (fmul x y) = true.
Proof.
  intros Fx Fy He H. assert (C := Bmult_correct 53 1024 _ _ mode_NE x y). cbn [round_mode] in C.
  rewrite (lt_emax e) in C; [|lia|apply rnd_bound; [lia|exact H]]. destruct C as (A & B & _). rewrite Fx, Fy in B. split; assumption.
Qed.
Lemma fdiv_val (x y : f64) e : is_finite x = true -> B2R y <> 0 -> (-1074 <= e < 1024)%Z -> Rabs (B2R x / B2R y) <= b2 e ->
  B2R (fdiv x y) = rnd (B2R x / B2R y) /\ is_finite (fdiv x y) = true.
Proof.
  intros Fx Hy He H. assert (C := Bdiv_correct 53 1024 _ _ mode_NE x y Hy). cbn [round_mode] in C.
  rewrite (lt_emax e) in C; [|lia|apply rnd_bound; [lia|exact H]]. destruct C as (A & B & _). rewrite Fx in B. split; assumption.
Qed.

Lemma f_of_val m e : (Z.abs m < 2 ^ 53)%Z -> (-1074 <= e <= 900)%Z -> B2R (f_of m e) = IZR m * b2 e /\ is_finite (f_of m e) = true.
Proof.
  intros Hm He. assert (C := binary_normalize_correct 53 1024 _ _ mode_NE m e false). cbn zeta in C. cbn [round_mode] in C.
  assert (G : generic_format radix2 fexp64 (IZR m * b2 e)) by (apply gf_F2R; lia).
  change (F2R (Float radix2 m e)) with (IZR m * b2 e) in C. rewrite (rnd_id _ G) in C.
  rewrite (lt_emax 953) in C; [|lia|].
  - destruct C as (A & B & _). split; assumption.
  - rewrite Rabs_mult, (Rabs_pos_eq (b2 e)) by apply bpow_ge_0. rewrite <- abs_IZR.
    replace 953%Z with (53 + 900)%Z by reflexivity. rewrite bpow_plus. apply Rmult_le_compat; [apply IZR_le; lia|apply bpow_ge_0| |apply bpow_le; lia].
    change (b2 53) with (IZR (2 ^ 53)). apply IZR_le. lia.
Qed.

Lemma trunc_val (x : f64) : Btrunc x = Ztrunc (B2R x).
Proof.
  apply eq_IZR. rewrite Btrunc_correct; [|exact prec_emax]. unfold round, scaled_mantissa, cexp, FIX_exp, F2R. cbn [Fnum Fexp Z.opp bpow].
  rewrite !Rmult_1_r. reflexivity.
Qed.

(** ** One pixel *)
Definition level (u w : R) : R := rnd (rnd (255 * u) / w).

Lemma f255_val : B2R f255 = 255 /\ is_finite f255 = true.
Proof. destruct (f_of_val 255 0) as [A B]; [lia|lia|]. split; [unfold f255; rewrite A; cbn; lra|exact B]. Qed.
Lemma f1_val : B2R f1 = 1 /\ is_finite f1 = true.
Proof. destruct (f_of_val 1 0) as [A B]; [lia|lia|]. split; [unfold f1; rewrite A; cbn; lra|exact B]. Qed.
Lemma gf_half m : (Z.abs m < 2 ^ 53)%Z -> generic_format radix2 fexp64 (IZR m / 2).
Proof. intros H. change (IZR m / 2) with (IZR m * b2 (-1)). apply gf_F2R; lia. Qed.

Lemma div_ge_0 a b : 0 <= a -> 0 < b -> 0 <= a / b.
Proof. intros Ha Hb. apply Rmult_le_pos; [exact Ha|left; apply Rinv_0_lt_compat, Hb]. Qed.

Lemma level_ge_0 u w : 0 <= u -> 0 < w -> 0 <= rnd (255 * u) /\ 0 <= level u w.
Proof.
  intros Hu Hw. assert (H : 0 <= rnd (255 * u)) by (rewrite <- rnd_0; apply rnd_le; lra). split; [exact H|].
  unfold level. rewrite <- rnd_0. apply rnd_le. apply div_ge_0; assumption.
Qed.

Lemma level_mono u v w : u <= v -> 0 < w -> level u w <= level v w.
Proof.
  intros H Hw. unfold level. apply rnd_le. apply Rmult_le_compat_r; [left; apply Rinv_0_lt_compat, Hw|]. apply rnd_le. lra.
Qed.

Lemma level_top w : b2 (-34) <= w -> 254.5 <= level w w <= 255.5.
Proof.
  intros Hw. assert (H0 : 0 < b2 (-34)) by apply bpow_gt_0.
  assert (Hr : Rabs (rnd (255 * w) - 255 * w) <= / 2 * b2 (-52) * Rabs (255 * w)).
  { apply rnd_rel. rewrite Rabs_pos_eq by lra. apply Rle_trans with (b2 (-34)); [apply bpow_le; lia|lra]. }
  rewrite (Rabs_pos_eq (255 * w)) in Hr by lra. apply Rabs_le_inv in Hr.
  assert (Hs : b2 (-52) <= / 1000) by (apply Rle_trans with (b2 (-10)); [apply bpow_le; lia|cbn; lra]).
  assert (Hp : 0 < b2 (-52)) by apply bpow_gt_0.
  assert (H1 : 255 * w - / 2 * w <= rnd (255 * w) <= 255 * w + / 2 * w) by (split; nra).
  assert (H2 : 254.5 <= rnd (255 * w) / w <= 255.5).
  { split; [apply Rmult_le_reg_r with w|apply Rmult_le_reg_r with w]; try lra; unfold Rdiv; rewrite Rmult_assoc, Rinv_l by lra; lra. }
  unfold level. split.
  - apply round_ge_generic; try typeclasses eauto; [|apply H2]. replace 254.5 with (IZR 509 / 2) by lra. apply gf_half. lia.
  - apply round_le_generic; try typeclasses eauto; [|apply H2]. replace 255.5 with (IZR 511 / 2) by lra. apply gf_half. lia.
Qed.

Lemma pixel_val mn mx' x u w : is_finite mn = true -> is_finite mx' = true -> is_finite x = true ->
  B2R (fsub x mn) = u -> is_finite (fsub x mn) = true -> B2R (fsub mx' mn) = w -> is_finite (fsub mx' mn) = true ->
  0 <= u <= w -> b2 (-34) <= w <= b2 1001 ->
  pixel mn mx' x = Some (Ztrunc (level u w)) /\ (0 <= Ztrunc (level u w) <= 255)%Z.
Proof.
  intros _ _ _ Hu Fu Hw Fw Huw Hb. assert (H0 : 0 < b2 (-34)) by apply bpow_gt_0.
  assert (Hrange : (0 <= Ztrunc (level u w) <= 255)%Z).
  { assert (A := level_ge_0 u w (proj1 Huw) ltac:(lra)). assert (B := level_mono u w w (proj2 Huw) ltac:(lra)).
    assert (T := level_top w (proj1 Hb)). split.
    - rewrite <- (Ztrunc_IZR 0). apply Ztrunc_le. apply A.
    - apply Z.le_trans with (Ztrunc 255.5); [apply Ztrunc_le; lra|]. rewrite Ztrunc_floor by lra.
      apply Z.lt_succ_r. apply lt_IZR. apply Rle_lt_trans with 255.5; [apply Zfloor_lb|cbn; lra]. }
  split; [|exact Hrange]. unfold pixel, to_uint8.
  destruct f255_val as [V F].
  assert (B1 : Rabs (B2R f255 * B2R (fsub x mn)) <= b2 1009).
  { rewrite V, Hu, Rabs_pos_eq by lra. replace 1009%Z with (8 + 1001)%Z by reflexivity. rewrite bpow_plus.
    apply Rmult_le_compat; [lra|lra|cbn; lra|lra]. }
  destruct (fmul_val f255 (fsub x mn) 1009 F Fu ltac:(lia) B1) as [V2 F2]. rewrite V, Hu in V2.
  assert (Hq : 0 <= rnd (255 * u) / w <= 256).
  { assert (A := level_ge_0 u w (proj1 Huw) ltac:(lra)). split; [apply div_ge_0; [apply A|lra]|].
    apply Rle_trans with (rnd (255 * w) / w).
    - apply Rmult_le_compat_r; [left; apply Rinv_0_lt_compat; lra|]. apply rnd_le. lra.
    - assert (Hr : Rabs (rnd (255 * w) - 255 * w) <= / 2 * b2 (-52) * Rabs (255 * w)).
      { apply rnd_rel. rewrite Rabs_pos_eq by lra. apply Rle_trans with (b2 (-34)); [apply bpow_le; lia|lra]. }
      rewrite (Rabs_pos_eq (255 * w)) in Hr by lra. apply Rabs_le_inv in Hr.
      assert (Hs : b2 (-52) <= / 1000) by (apply Rle_trans with (b2 (-10)); [apply bpow_le; lia|cbn; lra]).
      assert (Hp : 0 < b2 (-52)) by apply bpow_gt_0.
      apply Rmult_le_reg_r with w; [lra|]. unfold Rdiv. rewrite Rmult_assoc, Rinv_l by lra. nra. }
  assert (B2 : Rabs (B2R (fmul f255 (fsub x mn)) / B2R (fsub mx' mn)) <= b2 8).
  { rewrite V2, Hw, Rabs_pos_eq by lra. cbn. lra. }
  destruct (fdiv_val _ (fsub mx' mn) 8 F2 ltac:(rewrite Hw; lra) ltac:(lia) B2) as [V3 F3].
  rewrite F3, !trunc_val, V3, V2, Hw. fold (level u w).
  destruct (Z.leb_spec 0 (Ztrunc (level u w))); [|lia]. destruct (Z.leb_spec (Ztrunc (level u w)) 255); [|lia]. reflexivity.
Qed.

(** ** Least and largest value *)

Lemma max_from_spec l : forall m, is_finite m = true -> Forall (fun x => is_finite x = true) l ->
  (max_from m l = m \/ In (max_from m l) l) /\ B2R m <= B2R (max_from m l) /\ forall x, In x l -> B2R x <= B2R (max_from m l).
Proof.
  induction l as [|y l IH]; intros m Fm H; cbn [max_from].
  - split; [left; reflexivity|]. split; [lra|]. intros x [].
  - inversion H as [|? ? Fy Hl]; subst. rewrite (Bltb_correct 53 1024 m y Fm Fy). destruct (Rlt_bool_spec (B2R m) (B2R y)) as [Hc|Hc].
    + destruct (IH y Fy Hl) as (A & B & C). split; [right; destruct A as [->|A]; [left; reflexivity|right; exact A]|].
      split; [lra|]. intros x [<-|Hx]; [exact B|apply C, Hx].
    + destruct (IH m Fm Hl) as (A & B & C). split; [destruct A as [->|A]; [left; reflexivity|right; right; exact A]|].
      split; [lra|]. intros x [<-|Hx]; [lra|apply C, Hx].
Qed.
Lemma min_from_spec l : forall m, is_finite m = true -> Forall (fun x => is_finite x = true) l ->
  (min_from m l = m \/ In (min_from m l) l) /\ B2R (min_from m l) <= B2R m /\ forall x, In x l -> B2R (min_from m l) <= B2R x.
Proof.
  induction l as [|y l IH]; intros m Fm H; cbn [min_from].
  - split; [left; reflexivity|]. split; [lra|]. intros x [].
  - inversion H as [|? ? Fy Hl]; subst. rewrite (Bltb_correct 53 1024 y m Fy Fm). destruct (Rlt_bool_spec (B2R y) (B2R m)) as [Hc|Hc].
    + destruct (IH y Fy Hl) as (A & B & C). split; [right; destruct A as [->|A]; [left; reflexivity|right; exact A]|].
      split; [lra|]. intros x [<-|Hx]; [exact B|apply C, Hx].
    + destruct (IH m Fm Hl) as (A & B & C). split; [destruct A as [->|A]; [left; reflexivity|right; right; exact A]|].
      split; [lra|]. intros x [<-|Hx]; [lra|apply C, Hx].
Qed.

Lemma ftiny_val : is_finite ftiny = true /\ b2 (-34) < B2R ftiny < b2 (-33).
Proof.
  destruct (f_of_val 7737125245533627 (-86)) as [A B]; [lia|lia|]. split; [exact B|]. unfold ftiny. rewrite A.
  replace (-34)%Z with (52 + -86)%Z by reflexivity. replace (-33)%Z with (53 + -86)%Z by reflexivity. rewrite !bpow_plus.
  assert (H : 0 < b2 (-86)) by apply bpow_gt_0. split; apply Rmult_lt_compat_r; try exact H; cbn; lra.
Qed.

Lemma rnd_close x : Rabs x <= b2 52 -> Rabs (rnd x - x) <= / 2.
Proof.
  intros H. eapply Rle_trans; [apply error_le_half_ulp; typeclasses eauto|].
  assert (Hu : ulp radix2 fexp64 x <= ulp radix2 fexp64 (b2 52)).
  { apply ulp_le; try typeclasses eauto. rewrite (Rabs_pos_eq (b2 52)) by apply bpow_ge_0. exact H. }
  rewrite ulp_bpow in Hu. cbn in Hu. lra.
Qed.

Lemma pixel_cases data mn mx D : is_finite mn = true -> is_finite mx = true ->
  Rabs (B2R mn) <= D -> Rabs (B2R mx) <= D ->
  (forall x, In x data -> is_finite x = true /\ B2R mn <= B2R x <= B2R mx) -> B2R mn <= B2R mx ->
  D = b2 51 \/ (D = b2 1000 /\ b2 (-33) <= B2R mx - B2R mn) ->
  (B2R mx - B2R mn < b2 (-33) /\ forall x, In x data -> pixel mn (image_max mn mx) x = Some 0%Z)
  \/ (b2 (-34) < B2R mx - B2R mn /\ exists w, w = rnd (B2R mx - B2R mn) /\ b2 (-34) <= w /\
     forall x, In x data -> pixel mn (image_max mn mx) x = Some (Ztrunc (level (rnd (B2R x - B2R mn)) w))
                            /\ (0 <= Ztrunc (level (rnd (B2R x - B2R mn)) w) <= 255)%Z).
Proof.
  intros Fn Fx Bn Bx Hin Hle HD.
  assert (HD1 : D <= b2 1000) by (destruct HD as [->|[-> _]]; [apply bpow_le; lia|lra]).
  assert (Hpow : b2 1001 = 2 * b2 1000) by (change 1001%Z with (1 + 1000)%Z; rewrite bpow_plus; reflexivity).
  apply Rabs_le_inv in Bn, Bx. assert (Hpos : 0 < b2 1000) by apply bpow_gt_0.
  set (d := B2R mx - B2R mn) in *. assert (Hd : 0 <= d) by (unfold d; lra).
  assert (Bd : Rabs d <= b2 1001) by (rewrite Rabs_pos_eq by lra; unfold d; lra).
  destruct (fsub_val mx mn 1001 Fx Fn ltac:(lia) Bd) as [Vd Fd]. fold d in Vd.
  assert (Hrd : 0 <= rnd d) by (rewrite <- rnd_0; apply rnd_le, Hd).
  destruct ftiny_val as [Ft Ht]. unfold image_max.
  rewrite (Bltb_correct 53 1024 (Babs (fsub mx mn)) ftiny) by (rewrite ?is_finite_Babs; assumption).
  rewrite B2R_Babs, Vd, (Rabs_pos_eq (rnd d)) by exact Hrd.
  assert (Hu : forall x, In x data -> B2R (fsub x mn) = rnd (B2R x - B2R mn) /\ is_finite (fsub x mn) = true /\ 0 <= rnd (B2R x - B2R mn) <= rnd d).
  { intros x Hx. destruct (Hin x Hx) as (F & L1 & L2). assert (B : Rabs (B2R x - B2R mn) <= b2 1001) by (rewrite Rabs_pos_eq by lra; unfold d in *; lra).
    destruct (fsub_val x mn 1001 F Fn ltac:(lia) B) as [V Fs]. split; [exact V|]. split; [exact Fs|]. split.
    - rewrite <- rnd_0 at 1. apply rnd_le. lra.
    - apply rnd_le. unfold d. lra. }
  destruct (Rlt_bool_spec (rnd d) (B2R ftiny)) as [Hc|Hc].
  - left. assert (Hd33 : d < b2 (-33)).
    { destruct (Rlt_le_dec d (b2 (-33))) as [?|Hge]; [assumption|]. apply rnd_le in Hge. rewrite rnd_id in Hge by (apply gf_bpow; lia). lra. }
    split; [exact Hd33|]. assert (E : D = b2 51) by (destruct HD as [E|[_ HH]]; [exact E|lra]). subst D.
    destruct f1_val as [V1 F1].
    assert (P51 : b2 51 + 1 <= b2 52). { change (b2 51) with (IZR (2 ^ 51)). change (b2 52) with (IZR (2 ^ 52)). rewrite <- plus_IZR. apply IZR_le. lia. }
    assert (P51' : 1 <= b2 51) by (change (b2 51) with (IZR (2 ^ 51)); apply IZR_le; lia).
    assert (B1 : Rabs (B2R mn + B2R f1) <= b2 52) by (rewrite V1; apply Rabs_le; lra).
    destruct (fadd_val mn f1 52 Fn F1 ltac:(lia) B1) as [Va Fa]. rewrite V1 in Va, B1.
    assert (Hcl := rnd_close _ B1). apply Rabs_le_inv in Hcl.
    set (m1 := rnd (B2R mn + 1)) in *.
    assert (Bw : Rabs (B2R (fadd mn f1) - B2R mn) <= b2 1) by (rewrite Va; apply Rabs_le; cbn; lra).
    destruct (fsub_val (fadd mn f1) mn 1 Fa Fn ltac:(lia) Bw) as [Vw Fw]. rewrite Va in Vw.
    set (w := rnd (m1 - B2R mn)) in *.
    assert (Hw : / 2 <= w <= 2).
    { split.
      - unfold w. change (/ 2) with (b2 (-1)). rewrite <- (rnd_id (b2 (-1))) by (apply gf_bpow; lia). apply rnd_le. cbn. lra.
      - unfold w. change 2 with (b2 1). rewrite <- (rnd_id (b2 1)) by (apply gf_bpow; lia). apply rnd_le. cbn. lra. }
    assert (P33 : b2 (-33) <= / 1000000) by (apply Rle_trans with (b2 (-20)); [apply bpow_le; lia|cbn; lra]).
    assert (P34 : 0 < b2 (-34) <= / 2) by (split; [apply bpow_gt_0|apply Rle_trans with (b2 (-1)); [apply bpow_le; lia|cbn; lra]]).
    assert (P1001 : 2 <= b2 1001) by (change 2 with (b2 1); apply bpow_le; lia).
    intros x Hx. destruct (Hu x Hx) as (V & Fs & U1 & U2). destruct (Hin x Hx) as (F & _).
    destruct (pixel_val mn (fadd mn f1) x (rnd (B2R x - B2R mn)) w Fn Fa F V Fs Vw Fw) as [Hp Hr]; [lra|lra|].
    rewrite Hp. f_equal. set (u := rnd (B2R x - B2R mn)) in *.
    destruct (level_ge_0 u w U1 ltac:(lra)) as [L1 L2].
    assert (Lr : rnd (255 * u) <= b2 (-10)).
    { rewrite <- (rnd_id (b2 (-10))) by (apply gf_bpow; lia). apply rnd_le. cbn. lra. }
    assert (Lt : level u w <= b2 (-9)).
    { unfold level. rewrite <- (rnd_id (b2 (-9))) by (apply gf_bpow; lia). apply rnd_le.
      apply Rmult_le_reg_r with w; [lra|]. unfold Rdiv. rewrite Rmult_assoc, Rinv_l by lra. cbn in *. lra. }
    rewrite Ztrunc_floor by exact L2. apply Zfloor_imp. cbn in *. lra.
  - right. split.
    { destruct (Rle_lt_dec d (b2 (-34))) as [Hx|?]; [|assumption]. apply rnd_le in Hx. rewrite (rnd_id (b2 (-34))) in Hx by (apply gf_bpow; lia). lra. }
    exists (rnd d). split; [reflexivity|]. split; [lra|]. intros x Hx. destruct (Hu x Hx) as (V & Fs & U). destruct (Hin x Hx) as (F & _).
    assert (Bw : rnd d <= b2 1001). { apply Rle_trans with (Rabs (rnd d)); [apply Rle_abs|]. apply rnd_bound; [lia|exact Bd]. }
    apply (pixel_val mn mx x _ _ Fn Fx F V Fs Vd Fd U). lra.
Qed.

Theorem pixels data : data <> [] ->
  finite_in (b2 51) data \/ (finite_in (b2 1000) data /\ exists x y, In x data /\ In y data /\ b2 (-33) <= B2R y - B2R x) ->
  exists px : list Z, uint8_pixels data = Some (map Some px) /\ length px = length data
  /\ (forall i p, nth_error px i = Some p -> (0 <= p <= 255)%Z)
  /\ (forall i j x y p q, nth_error data i = Some x -> nth_error data j = Some y -> nth_error px i = Some p -> nth_error px j = Some q ->
        B2R x <= B2R y -> (p <= q)%Z)
  /\ (forall i x p, nth_error data i = Some x -> nth_error px i = Some p -> (forall y, In y data -> B2R x <= B2R y) -> p = 0%Z)
  /\ (forall i x p, nth_error data i = Some x -> nth_error px i = Some p -> (forall y, In y data -> B2R y <= B2R x) ->
        (exists y, In y data /\ b2 (-33) <= B2R x - B2R y) -> p = 254%Z \/ p = 255%Z)
  /\ ((forall x y, In x data -> In y data -> B2R x - B2R y <= b2 (-34)) -> forall i p, nth_error px i = Some p -> p = 0%Z).
Proof.
  intros Hne Hg. destruct data as [|a l] eqn:Edata; [congruence|]. clear Hne. rewrite <- Edata in *.
  assert (Hfin : exists D, finite_in D data /\ (D = b2 51 \/ (D = b2 1000 /\ exists x y, In x data /\ In y data /\ b2 (-33) <= B2R y - B2R x))).
  { destruct Hg as [H|[H1 H2]]; [exists (b2 51); auto|exists (b2 1000); auto]. }
  destruct Hfin as (D & Hf & HD). unfold finite_in in Hf. rewrite Forall_forall in Hf.
  assert (Ha : In a data) by (rewrite Edata; left; reflexivity).
  assert (Fall : Forall (fun x => is_finite x = true) data) by (apply Forall_forall; intros x Hx; apply Hf, Hx).
  set (mn := min_from a data). set (mx := max_from a data).
  assert (Emn : min_real data = Some mn) by (unfold mn; rewrite Edata; reflexivity).
  assert (Emx : max_real data = Some mx) by (unfold mx; rewrite Edata; reflexivity).
  destruct (min_from_spec data a (proj1 (Hf a Ha)) Fall) as (A1 & _ & A3). destruct (max_from_spec data a (proj1 (Hf a Ha)) Fall) as (B1 & _ & B3).
  fold mn in A1, A3. fold mx in B1, B3.
  assert (In1 : In mn data) by (destruct A1 as [->|?]; assumption). assert (In2 : In mx data) by (destruct B1 as [->|?]; assumption).
  assert (Hcase := pixel_cases data mn mx D (proj1 (Hf _ In1)) (proj1 (Hf _ In2)) (proj2 (Hf _ In1)) (proj2 (Hf _ In2))).
  assert (Hin : forall x, In x data -> is_finite x = true /\ B2R mn <= B2R x <= B2R mx).
  { intros x Hx. split; [apply Hf, Hx|]. split; [apply A3, Hx|apply B3, Hx]. }
  specialize (Hcase Hin (A3 _ In2)).
  destruct Hcase as [[Hd Hpx]|[Hd (w & Ew & Hw & Hpx)]].
  { destruct HD as [->|[-> (x & y & Hx & Hy & Hxy)]]; [left; reflexivity|right; split; [reflexivity|]].
    specialize (A3 x Hx). specialize (B3 y Hy). lra. }
  - exists (map (fun _ => 0%Z) data). unfold uint8_pixels. rewrite Emn, Emx. unfold as_uint8.
    assert (Em : map (pixel mn (image_max mn mx)) data = map Some (map (fun _ => 0%Z) data)).
    { rewrite map_map. apply map_ext_in. intros x Hx. apply Hpx, Hx. }
    rewrite Em. split; [reflexivity|]. split; [apply map_length|].
    assert (Hz : forall i p, nth_error (map (fun _ : f64 => 0%Z) data) i = Some p -> p = 0%Z).
    { intros i p Hi. apply nth_error_In in Hi. apply in_map_iff in Hi. destruct Hi as (z & E & _). congruence. }
    split; [intros i p Hi; rewrite (Hz i p Hi); lia|]. split; [intros i j x y p q _ _ Hp Hq _; rewrite (Hz i p Hp), (Hz j q Hq); lia|].
    split; [intros i x p _ Hp _; apply (Hz i p Hp)|]. split; [|intros _; exact Hz].
    intros i x p Hx _ _ (y & Hy & Hxy). exfalso. apply nth_error_In in Hx. specialize (A3 y Hy). specialize (B3 x Hx). lra.
  - set (f := fun x : f64 => Ztrunc (level (rnd (B2R x - B2R mn)) w)) in *.
    exists (map f data). unfold uint8_pixels. rewrite Emn, Emx. unfold as_uint8.
    assert (Em : map (pixel mn (image_max mn mx)) data = map Some (map f data)).
    { rewrite map_map. apply map_ext_in. intros x Hx. apply (proj1 (Hpx x Hx)). }
    rewrite Em. split; [reflexivity|]. split; [apply map_length|].
    assert (H0 : 0 < b2 (-34)) by apply bpow_gt_0.
    assert (Hn : forall i x p, nth_error data i = Some x -> nth_error (map f data) i = Some p -> p = f x).
    { intros i x p Hx Hp. rewrite nth_error_map, Hx in Hp. injection Hp as <-. reflexivity. }
    split. { intros i p Hi. apply nth_error_In in Hi. apply in_map_iff in Hi. destruct Hi as (z & <- & Hz). apply (proj2 (Hpx z Hz)). }
    split. { intros i j x y p q Hx Hy Hp Hq Hxy. rewrite (Hn i x p Hx Hp), (Hn j y q Hy Hq). unfold f. apply Ztrunc_le. apply level_mono; [apply rnd_le; lra|lra]. }
    split. { intros i x p Hx Hp Hmin. rewrite (Hn i x p Hx Hp). unfold f. assert (Ex : B2R x - B2R mn = 0).
      { specialize (Hmin mn In1). apply nth_error_In in Hx. specialize (A3 x Hx). lra. }
      rewrite Ex, rnd_0. unfold level. rewrite Rmult_0_r, rnd_0. unfold Rdiv. rewrite Rmult_0_l, rnd_0. apply Ztrunc_IZR. }
    split. { intros i x p Hx Hp Hmax _. rewrite (Hn i x p Hx Hp). assert (Hi := nth_error_In _ _ Hx). assert (Ex : B2R x - B2R mn = B2R mx - B2R mn).
      { specialize (Hmax mx In2). specialize (B3 x Hi). lra. }
      assert (Hr := proj2 (Hpx x Hi)). fold (f x) in Hr. assert (Hge : (254 <= f x)%Z); [|lia].
      unfold f. rewrite Ex, <- Ew. rewrite <- (Ztrunc_IZR 254). apply Ztrunc_le. assert (T := level_top w Hw). lra. }
    intros Hall. exfalso. specialize (Hall mx mn In2 In1). lra.
Qed.
