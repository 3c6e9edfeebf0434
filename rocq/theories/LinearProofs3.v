From Verif Require Import ListAux FileModel ParseProofs RegistryProofs RegistryProofs2 RegistryProofs3 StepProofs SimProofs SimProofs2 SimProofs3 SimProofs4 SimProofs5 SimProofs6 LinearProofs LinearProofs2.
From Verif Require Import DftSpec LinearSpec.
From Coq Require Import Lia Lra.
Open Scope nat_scope.

Lemma Cpow_nonzero z k : z <> C0 -> Cpow z k <> C0.
Proof.
  intros Hz. induction k as [|k IH]; cbn [Cpow]; [intros H; apply (f_equal Re) in H; cbn in H; lra|].
  intros H. apply Cmul_eq0 in H. tauto.
Qed.
Lemma div_solves (y z x : C) : z <> C0 -> x = Cdiv y z -> Cmul z x = y.
Proof. intros Hz ->. field. exact Hz. Qed.

Lemma Cnorm2_mul a b : Cnorm2 (Cmul a b) = (Cnorm2 a * Cnorm2 b)%R.
Proof. unfold Cnorm2, Cmul, Re, Im. cbn [fst snd]. ring. Qed.
Lemma Cnorm2_nonneg a : (0 <= Cnorm2 a)%R.
Proof. unfold Cnorm2. nra. Qed.

Lemma rsum_le (k : nat) (f g : nat -> R) : (forall j, j < k -> (f j <= g j)%R) -> (Vec.rsum k f <= Vec.rsum k g)%R.
Proof. induction k as [|k IH]; intros H; [cbn; lra|]. cbn [Vec.rsum]. assert (H1 := IH (fun j Hj => H j (Nat.lt_trans _ _ _ Hj (Nat.lt_succ_diag_r k)))). assert (H2 := H k (Nat.lt_succ_diag_r k)). lra. Qed.
Lemma rsum_scale (k : nat) (f : nat -> R) c : Vec.rsum k (fun j => (c * f j)%R) = (c * Vec.rsum k f)%R.
Proof. induction k as [|k IH]; cbn [Vec.rsum]; [ring|rewrite IH; ring]. Qed.

(** Parseval for the sum of squares. *)
Lemma energy_modes n ft d : unitary_transform n ft -> length d = n -> (INR n * energy d)%R = Vec.rsum n (fun k => Cnorm2 (nth k (fft ft d) C0)).
Proof.
  intros UT Hl. assert (HP := ut_parseval n ft UT d d Hl Hl). apply (f_equal Re) in HP.
  unfold inner in HP. rewrite csum_re in HP. unfold Cmul at 2 in HP. unfold RtoC in HP. cbn [Re Im fst snd] in HP.
  assert (E1 : forall x, Re (Cmul x (Cconj x)) = Cnorm2 x) by (intros x; unfold Cnorm2, Cmul, Cconj, Re, Im; cbn [fst snd]; ring).
  assert (E2 : Re (csum n (fun i => Cmul (nth i d C0) (Cconj (nth i d C0)))) = energy d).
  { rewrite csum_re. unfold energy. rewrite Hl. apply Vec.rsum_ext. intros i _. apply E1. }
  unfold Re in E2 at 1. unfold Re in HP at 1 2. rewrite E2 in HP. rewrite Rmult_0_l, Rminus_0_r in HP. rewrite <- HP. apply Vec.rsum_ext.
  intros i _. exact (E1 _).
Qed.

(** A step of implicit Euler for a decaying mode. *)
Lemma decaying_step (c dt : R) s y y' : (0 <= c)%R -> (0 < dt)%R -> (Re s <= - c)%R -> y' = Cdiv y (Csub C1 (Cmul (RtoC dt) s)) ->
  ((1 + dt * c) ^ 2 * Cnorm2 y' <= Cnorm2 y)%R.
Proof.
  intros Hc Hdt Hs Hy. assert (Hr : (1 + dt * c <= Re (Csub C1 (Cmul (RtoC dt) s)))%R).
  { destruct s as [a b]. unfold Csub, Cmul, RtoC, C1, Re, Im in *. cbn [fst snd] in *. nra. }
  assert (H0 : (0 <= dt * c)%R) by nra.
  assert (Hz : Csub C1 (Cmul (RtoC dt) s) <> C0) by (intros H; rewrite H in Hr; cbn in Hr; lra).
  apply div_solves in Hy; [|exact Hz]. rewrite <- Hy, Cnorm2_mul. apply Rmult_le_compat_r; [apply Cnorm2_nonneg|]. unfold Cnorm2. nra.
Qed.

Section Linear.
  Variables (L : lang) (cs : list call) (es : list eqtext).
  Hypothesis LM : linear_model L cs es.
  Variable m : mstate.
  Hypothesis Em : run_calls new_mstate (cs ++ [CInit]) = Ok m.
  Variables (n : nat) (ft : transform) (lib : library).
  Hypothesis GL : good_library L n lib.
  Hypothesis GT : good_transform n ft.
  Let p := simulation n ft lib m.

  (** What one step of either kind does. *)
  Definition one_step (dt : R) (e e' : env) : Prop := fits L n m e' /\ forall i q k, nth_error es i = Some q -> k < n ->
    mode ft e' i k = Cdiv (mode ft e i k) (Csub C1 (Cmul (RtoC dt) (symbol L lib (tfreq ft k) q))).

  Fixpoint many_steps (dt : R) (steps : nat) (e e' : env) : Prop :=
    match steps with O => e' = e | S k => exists e1, one_step dt e e1 /\ many_steps dt k e1 e' end.

  Lemma euler_many dt : forall steps step e, fits L n m e ->
    exists e', euler_propagate p ft None dt steps step e = Some (e', step + steps) /\ many_steps dt steps e e'.
  Proof.
    induction steps as [|steps IH]; intros step e Hf; cbn [euler_propagate many_steps].
    { exists e. rewrite Nat.add_0_r. split; reflexivity. }
    destruct (linear_euler L cs es LM m Em n ft lib GL GT dt (time_of dt step) e Hf) as (e1 & E1 & F1 & H1). fold p in E1. rewrite E1.
    destruct (IH (S step) e1 F1) as (e' & E' & H'). exists e'. split; [rewrite E'; f_equal; f_equal; lia|]. exists e1. split; [split; assumption|exact H'].
  Qed.

  Lemma rk4_many dt : forall steps step e, fits L n m e ->
    exists e', rk4_propagate p ft None dt steps step e = Some (e', step + steps) /\ many_steps dt steps e e'.
  Proof.
    induction steps as [|steps IH]; intros step e Hf; cbn [rk4_propagate many_steps].
    { exists e. rewrite Nat.add_0_r. split; reflexivity. }
    destruct (linear_rk4 L cs es LM m Em n ft lib GL GT dt (time_of dt step) e Hf) as (e1 & E1 & F1 & H1). fold p in E1. rewrite E1.
    destruct (IH (S step) e1 F1) as (e' & E' & H'). exists e'. split; [rewrite E'; f_equal; f_equal; lia|]. exists e1. split; [split; assumption|exact H'].
  Qed.

  Lemma many_fits dt : forall steps e e', fits L n m e -> many_steps dt steps e e' -> fits L n m e'.
  Proof.
    induction steps as [|steps IH]; intros e e' Hf H; cbn [many_steps] in H; [rewrite H; exact Hf|]. destruct H as (e1 & [F1 _] & H). exact (IH e1 e' F1 H).
  Qed.

  Lemma many_closed dt i q k : nth_error es i = Some q -> k < n -> Csub C1 (Cmul (RtoC dt) (symbol L lib (tfreq ft k) q)) <> C0 ->
    forall steps e e', many_steps dt steps e e' ->
    Cmul (Cpow (Csub C1 (Cmul (RtoC dt) (symbol L lib (tfreq ft k) q))) steps) (mode ft e' i k) = mode ft e i k.
  Proof.
    intros Hq Hk Hz. induction steps as [|steps IH]; intros e e' H; cbn [many_steps Cpow] in *; [rewrite H; ring|].
    destruct H as (e1 & [_ H1] & H). specialize (IH e1 e' H). assert (H2 := div_solves _ _ _ Hz (H1 i q k Hq Hk)). rewrite <- H2, <- IH. ring.
  Qed.

  Lemma many_decay c dt i q k : (0 <= c)%R -> (0 < dt)%R -> nth_error es i = Some q -> k < n -> (Re (symbol L lib (tfreq ft k) q) <= - c)%R ->
    forall steps e e', many_steps dt steps e e' -> ((1 + dt * c) ^ (2 * steps) * Cnorm2 (mode ft e' i k) <= Cnorm2 (mode ft e i k))%R.
  Proof.
    intros Hc Hdt Hq Hk Hs. induction steps as [|steps IH]; intros e e' H; cbn [many_steps] in H; [rewrite H; cbn; lra|].
    destruct H as (e1 & [_ H1] & H). specialize (IH e1 e' H). assert (H2 := decaying_step c dt _ _ _ Hc Hdt Hs (H1 i q k Hq Hk)).
    replace (2 * S steps) with (2 + 2 * steps) by lia. rewrite pow_add. assert (Hp : (0 <= (1 + dt * c) ^ 2)%R) by apply pow2_ge_0.
    apply Rle_trans with (2 := H2). rewrite Rmult_assoc. apply Rmult_le_compat_l; [exact Hp|exact IH].
  Qed.

  Lemma fits_nth e i q : fits L n m e -> nth_error es i = Some q -> exists d, nth_error (e_fields e) i = Some d /\ length d = n.
  Proof.
    intros (H1 & H2 & _) Hq. destruct (nth_error (e_fields e) i) as [d|] eqn:Ed.
    - exists d. split; [reflexivity|exact (all_length_nth n _ i d H2 Ed)].
    - apply nth_error_None in Ed. assert (Hi := linear_order L cs es LM i q Hq). lia.
  Qed.

  Lemma many_energy c dt i q : unitary_transform n ft -> 0 < n -> (0 <= c)%R -> (0 < dt)%R -> nth_error es i = Some q ->
    (forall k, k < n -> (Re (symbol L lib (tfreq ft k) q) <= - c)%R) ->
    forall steps e e', fits L n m e -> many_steps dt steps e e' ->
    exists d d', nth_error (e_fields e) i = Some d /\ nth_error (e_fields e') i = Some d' /\ ((1 + dt * c) ^ (2 * steps) * energy d' <= energy d)%R.
  Proof.
    intros UT Hn Hc Hdt Hq Hs steps e e' Hf H. assert (Hf' := many_fits dt steps e e' Hf H).
    destruct (fits_nth e i q Hf Hq) as (d & Hd & Ld). destruct (fits_nth e' i q Hf' Hq) as (d' & Hd' & Ld').
    exists d, d'. split; [exact Hd|]. split; [exact Hd'|].
    assert (Hn' : (0 < INR n)%R) by (apply lt_0_INR; exact Hn). apply Rmult_le_reg_l with (1 := Hn').
    rewrite (energy_modes n ft d UT Ld). replace (INR n * ((1 + dt * c) ^ (2 * steps) * energy d'))%R with ((1 + dt * c) ^ (2 * steps) * (INR n * energy d'))%R by ring.
    rewrite (energy_modes n ft d' UT Ld'), <- rsum_scale. apply rsum_le. intros k Hk.
    assert (HM := many_decay c dt i q k Hc Hdt Hq Hk (Hs k Hk) steps e e' H).
    rewrite (mode_nth ft e i d k Hd), (mode_nth ft e' i d' k Hd') in HM. exact HM.
  Qed.

  Lemma many_mean dt i q : 0 < n -> nth_error es i = Some q -> symbol L lib (tfreq ft 0) q = C0 ->
    forall steps e e', fits L n m e -> many_steps dt steps e e' ->
    exists d d', nth_error (e_fields e) i = Some d /\ nth_error (e_fields e') i = Some d' /\ mean d' = mean d.
  Proof.
    intros Hn Hq Hs steps e e' Hf H. assert (Hf' := many_fits dt steps e e' Hf H).
    destruct (fits_nth e i q Hf Hq) as (d & Hd & Ld). destruct (fits_nth e' i q Hf' Hq) as (d' & Hd' & Ld').
    exists d, d'. split; [exact Hd|]. split; [exact Hd'|].
    assert (E1 : Csub C1 (Cmul (RtoC dt) (symbol L lib (tfreq ft 0) q)) = C1) by (rewrite Hs; ring).
    assert (HM := many_closed dt i q 0 Hq Hn). rewrite E1 in HM.
    assert (H1 : C1 <> C0) by (intros X; apply (f_equal Re) in X; cbn in X; lra).
    specialize (HM H1 steps e e' H). assert (P1 : Cpow C1 steps = C1) by (clear; induction steps as [|k IH]; cbn [Cpow]; [reflexivity|rewrite IH; ring]).
    rewrite P1 in HM. rewrite (mode_nth ft e i d 0 Hd), (mode_nth ft e' i d' 0 Hd'), !(gt_zero n ft GT) in HM by assumption.
    unfold mean. rewrite Ld, Ld'. apply (f_equal (fun z => Cdiv z _)). rewrite <- HM. ring.
  Qed.

  (** Every product carries a Laplacian. *)
  Lemma conserved_symbol q : Forall (fun x => match fst x with IProduct t => 0 < total_power t | IUser _ _ => False end) (signed_items q) ->
    symbol L lib (tfreq ft 0) q = C0.
  Proof.
    intros H. unfold symbol. induction H as [|x l Hx _ IH]; cbn [map Csum]; [reflexivity|]. rewrite IH.
    destruct (fst x) as [t|os nm]; [|destruct Hx]. cbn [item_symbol]. destruct (total_power t) as [|j]; [lia|].
    assert (E : lap_symbol (tfreq ft 0) = 0%R) by (unfold lap_symbol; rewrite (gt_freq0 n ft GT); ring).
    rewrite E. rewrite pow_i by lia. change (RtoC 0) with C0. ring.
  Qed.
End Linear.

(** ** Order of the scheme *)
Lemma exp_square h : (0 <= h)%R -> ((1 + h / 2) ^ 2 <= exp h)%R.
Proof.
  intros Hh. replace h with (h / 2 + h / 2)%R at 2 by field. rewrite exp_plus.
  assert (H := exp_ineq1_le (h / 2)). nra.
Qed.
Lemma euler_error h : (0 < h <= 1)%R -> (h ^ 2 / 18 <= / (1 + h) - exp (- h))%R.
Proof.
  intros [H0 H1]. rewrite exp_Ropp. assert (HE := exp_square h ltac:(lra)).
  assert (HS : (0 < (1 + h / 2) ^ 2)%R) by nra. assert (HI : (/ exp h <= / (1 + h / 2) ^ 2)%R) by (apply Rinv_le_contravar; assumption).
  apply Rle_trans with (/ (1 + h) - / (1 + h / 2) ^ 2)%R; [|lra].
  replace (/ (1 + h) - / (1 + h / 2) ^ 2)%R with (h ^ 2 / 4 * / ((1 + h) * (1 + h / 2) ^ 2))%R by (field; split; nra).
  replace (h ^ 2 / 18)%R with (h ^ 2 / 4 * / (9 / 2))%R by field. apply Rmult_le_compat_l; [nra|]. apply Rinv_le_contravar; nra.
Qed.
