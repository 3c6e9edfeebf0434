(** Property C111: runs with disturbances (rounding, noise, inexact initial
    values) stay near the solution of the declared equations. *)
From Verif Require Import ListAux FileModel ParseProofs StepProofs ConserveProofs EquationProps RegistryProps SimProps.
From Verif Require Import SimProofs SimProofs2 LinearProofs2 LinearProofs3 ConvergeProofs KeepProps.
From Verif Require Import LimitProofs LimitProofs2 LimitProofs3 LimitProofs4 LimitProps ResumeProofs DisturbProofs DisturbProofs2.
From Verif Require ConvergeProps IndexProofs.
From Verif Require Import DftSpec LimitSpec KeepSpec DisturbSpec.
From Coq Require Import Reals ZArith Lia Lra.
From Flocq Require Import Core Relative.
From Verif Require Import Complex.
Open Scope R_scope.

(** C111. Let [U] solve the declared equations from time 0 to T.  There are
    constants D, r, s such that whenever states follow the steps of size T/N
    (N large enough) up to a disturbance of at most [dl k] at every node in step
    k, and the disturbances add up to at most s, the fields after every step
    differ from [U] by at most D times (1/N plus the sum of the disturbances so
    far). *)
Theorem C111_disturbed : forall L cs es m, declared L cs es -> run_calls new_mstate (cs ++ [CInit]) = Ok m ->
  forall n ft lib, good_library L n lib -> unitary_transform n ft -> map q_field es = l_fields L -> (0 < n)%nat ->
  forall T, 0 < T -> smooth L cs es n lib T ->
  forall U, solution_until L cs es n ft lib T U ->
  forall step, step = euler_step \/ (step = rk4_step /\ field_independent cs lib) ->
  exists D r s N0, 0 <= D /\ 0 <= r /\ 0 < s /\
  forall N st dl, (N0 <= N)%nat -> (0 < N)%nat -> (forall k, 0 <= dl k) -> (forall k, (k <= N)%nat -> fits L n m (st k)) ->
  close (length (l_fields L)) n (dl 0%nat ^ 2) (e_fields (st 0%nat)) (U 0) -> Vec.rsum (S N) dl <= s ->
  disturbed_run (step (simulation n ft lib m) ft None (T / INR N)) (T / INR N) (length (l_fields L)) n r dl N st ->
  forall k, (k <= N)%nat -> forall i, (i < length (l_fields L))%nat ->
  exists d, nth_error (e_fields (st k)) i = Some d /\ distance2 d (nth i (U (INR k * (T / INR N))) []) <= (D * (/ INR N + Vec.rsum (S k) dl)) ^ 2.
Proof.
  intros L cs es m HD Em n ft lib GL UT HO Hn T HT SM U HU step Hst.
  destruct (disturb_bound L cs es m HD Em n ft lib GL UT HO Hn T HT SM U HU step Hst) as (D & r & s & N0 & H1 & H2 & H3 & _ & H). exists D, r, s, N0. repeat (split; [assumption|]). exact H.
Qed.
Print Assumptions C111_disturbed.

(** Rounding: runs whose fields and derived fields are rounded after every step
    complete; after k steps the fields are off by at most D (1/N + (k+1) delta),
    where delta bounds the rounding error of values in the ball of radius r. *)
Theorem C111_rounding : forall L cs es m, declared L cs es -> run_calls new_mstate (cs ++ [CInit]) = Ok m ->
  forall n ft lib, good_library L n lib -> unitary_transform n ft -> map q_field es = l_fields L -> (0 < n)%nat ->
  forall T, 0 < T -> smooth L cs es n lib T ->
  forall U, solution_until L cs es n ft lib T U ->
  forall step, step = euler_step \/ (step = rk4_step /\ field_independent cs lib) ->
  exists D r s N0, 0 <= D /\ 0 <= r /\ 0 < s /\
  forall N rnd delta e, (N0 <= N)%nat -> (0 < N)%nat -> 0 <= delta -> (forall z, Cnorm2 z <= r ^ 2 -> Cnorm2 (Csub (rnd z) z) <= delta ^ 2) -> INR (S N) * delta <= s ->
  fits L n m e -> close (length (l_fields L)) n (delta ^ 2) (e_fields e) (U 0) ->
  forall k, (k <= N)%nat ->
  exists e', rounded_run (step (simulation n ft lib m) ft None (T / INR N)) rnd (T / INR N) k e = Some e' /\ fits L n m e'
  /\ forall i, (i < length (l_fields L))%nat ->
     exists d, nth_error (e_fields e') i = Some d /\ distance2 d (nth i (U (INR k * (T / INR N))) []) <= (D * (/ INR N + INR (S k) * delta)) ^ 2.
Proof.
  intros L cs es m HD Em n ft lib GL UT HO Hn T HT SM U HU step Hst.
  destruct (disturb_bound L cs es m HD Em n ft lib GL UT HO Hn T HT SM U HU step Hst) as (D & r & s & N0 & H1 & H2 & H3 & Hone & H). exists D, r, s, N0. repeat (split; [assumption|]).
  intros N rnd delta e HN HN1 Hdl Hrnd Hs Hf H0 k Hk.
  destruct (rounded_run_states L n m rnd (step (simulation n ft lib m) ft None (T / INR N)) (T / INR N) e Hf (fun t e => Hone N t e HN HN1)) as (st & E0 & Hst2).
  exists (st k). split; [apply Hst2|]. split; [apply Hst2|]. intros i Hi.
  rewrite <- (rsum_const delta (S k)). apply (H N st (fun _ => delta) HN HN1 (fun _ => Hdl)); [| | | |exact Hk|exact Hi].
  - intros j _. apply Hst2.
  - rewrite E0. exact H0.
  - rewrite rsum_const. exact Hs.
  - intros j Hj. destruct (Hst2 j) as (_ & _ & e' & E & Hf' & Es). exists e'. split; [exact E|]. intros HB a b Ha Hb. rewrite Es.
    rewrite (rounded_at rnd _ n e' (fits_shaped L m n e' Hf')) by assumption. apply Hrnd. exact (HB a b Ha Hb).
Qed.
Print Assumptions C111_rounding.

(** Without any rounding but with inexact initial values: the results depend
    continuously on the initial values. *)
Theorem C111_initial_values : forall L cs es m, declared L cs es -> run_calls new_mstate (cs ++ [CInit]) = Ok m ->
  forall n ft lib, good_library L n lib -> unitary_transform n ft -> map q_field es = l_fields L -> (0 < n)%nat ->
  forall T, 0 < T -> smooth L cs es n lib T ->
  forall U, solution_until L cs es n ft lib T U ->
  forall step propagate, (step = euler_step /\ propagate = euler_propagate) \/ (step = rk4_step /\ propagate = rk4_propagate /\ field_independent cs lib) ->
  exists D s N0, 0 <= D /\ 0 < s /\
  forall N delta e, (N0 <= N)%nat -> (0 < N)%nat -> 0 <= delta <= s -> fits L n m e -> close (length (l_fields L)) n (delta ^ 2) (e_fields e) (U 0) ->
  forall k, (k <= N)%nat ->
  exists e', propagate (simulation n ft lib m) ft None (T / INR N) k 0%nat e = Some (e', k) /\ fits L n m e'
  /\ forall i, (i < length (l_fields L))%nat ->
     exists d, nth_error (e_fields e') i = Some d /\ distance2 d (nth i (U (INR k * (T / INR N))) []) <= (D * (/ INR N + delta)) ^ 2.
Proof.
  intros L cs es m HD Em n ft lib GL UT HO Hn T HT SM U HU step propagate Hst.
  assert (Hst1 : step_of step cs lib) by (destruct Hst as [[-> _]|(-> & _ & HI)]; [left; reflexivity|right; split; [reflexivity|exact HI]]).
  destruct (disturb_bound L cs es m HD Em n ft lib GL UT HO Hn T HT SM U HU step Hst1) as (D & r & s & N0 & H1 & H2 & H3 & Hone & H). exists D, s, N0. repeat (split; [assumption|]).
  intros N delta e HN HN1 Hdl Hf H0 k Hk. set (h := T / INR N) in *.
  destruct (run_states (step (simulation n ft lib m) ft None h) h (fits L n m) (fun t e e' => step (simulation n ft lib m) ft None h t e = Some e')) with (e := e) as (st & E0 & Hst2); [|exact Hf|].
  { intros t e1 Hf1. destruct (Hone N t e1 HN HN1 Hf1) as (e' & E & Hf'). exists e'. repeat split; try assumption; apply Hf'. }
  exists (st k). split. { destruct Hst as [[-> ->]|(-> & -> & _)]; [rewrite euler_iterate|rewrite rk4_iterate]; apply Hst2. }
  split; [apply Hst2|]. intros i Hi. set (dl := fun k : nat => match k with O => delta | S _ => 0 end).
  assert (Sd : forall q, Vec.rsum (S q) dl = delta). { induction q as [|q IH]; [cbn; ring|]. change (Vec.rsum (S (S q)) dl) with (Vec.rsum (S q) dl + dl (S q)). rewrite IH. unfold dl. ring. }
  rewrite <- (Sd k). apply (H N st dl HN HN1); [| | | | |exact Hk|exact Hi].
  - intros [|j]; cbn; lra.
  - intros j _. apply Hst2.
  - rewrite E0. exact H0.
  - rewrite Sd. lra.
  - intros j Hj. destruct (Hst2 j) as (_ & E & _). exists (st (S j)). split; [exact E|]. intros _ a b Ha Hb. replace (Csub _ _) with C0 by csolve. unfold dl, Cnorm2, C0. cbn. lra.
Qed.
Print Assumptions C111_initial_values.

(** *** Floating point *)
Lemma rounding_error emin prec r z : (0 < prec)%Z -> 0 <= r -> Cnorm2 z <= r ^ 2 -> Cnorm2 (Csub (rounded_number emin prec z) z) <= rounding_unit emin prec r ^ 2.
Proof.
  intros Hp Hr Hz.
  assert (Part : forall x, x * x <= r ^ 2 -> Rabs (rounded_part emin prec x - x) <= rounding_unit emin prec r / 2).
  { intros x Hx. assert (Ax : Rabs x <= r) by (apply abs_le_of_sq; [exact Hr|lra] || (apply Rsqr_incr_0_var; [rewrite <- Rsqr_abs; unfold Rsqr; lra|exact Hr])).
    destruct (error_N_FLT radix2 emin prec Hp (fun z => negb (Z.even z)) x) as (eps & eta & He & Ht & _ & E). unfold rounded_part. rewrite E.
    replace (x * (1 + eps) + eta - x) with (x * eps + eta) by ring. eapply Rle_trans; [apply Rabs_triang|]. rewrite Rabs_mult. unfold rounding_unit.
    replace (1 - prec)%Z with (- prec + 1)%Z by ring. pose proof (Rabs_pos x). pose proof (Rabs_pos eps).
    assert (Rabs x * Rabs eps <= r * (/ 2 * bpow radix2 (- prec + 1))) by (apply Rmult_le_compat; assumption). lra. }
  unfold Cnorm2 in *. destruct z as [x y]. cbn [Re Im fst snd rounded_number Csub Cadd Copp] in *.
  assert (Px := Part x ltac:(nra)). assert (Py := Part y ltac:(nra)). set (u := rounding_unit emin prec r) in *.
  assert (Q : forall a b, Rabs (a - b) <= u / 2 -> (a - b) * (a - b) <= u ^ 2 / 4).
  { intros a b H. assert (Rsqr (a - b) <= Rsqr (u / 2)) by (apply neg_pos_Rsqr_le; apply Rabs_le_inv in H; lra). unfold Rsqr in *. nra. }
  apply Q in Px. apply Q in Py. pose proof (pow2_ge_0 u). unfold Csub, Cadd, Copp, Re, Im; cbn [fst snd] in *. lra.
Qed.

(** With values rounded to the nearest floating point numbers after every step:
    for every number of steps N (large enough), enough digits make the run as
    good as one in exact arithmetic, and this much is enough. *)
Theorem C111_floating_point : forall L cs es m, declared L cs es -> run_calls new_mstate (cs ++ [CInit]) = Ok m ->
  forall n ft lib, good_library L n lib -> unitary_transform n ft -> map q_field es = l_fields L -> (0 < n)%nat ->
  forall T, 0 < T -> smooth L cs es n lib T ->
  forall U, solution_until L cs es n ft lib T U ->
  forall step, step = euler_step \/ (step = rk4_step /\ field_independent cs lib) ->
  exists D r s N0, 0 <= D /\ 0 <= r /\ 0 < s /\
  forall N emin prec e, (N0 <= N)%nat -> (0 < N)%nat -> (0 < prec)%Z -> INR (S N) * rounding_unit emin prec r <= s / INR N ->
  fits L n m e -> close (length (l_fields L)) n (rounding_unit emin prec r ^ 2) (e_fields e) (U 0) ->
  forall k, (k <= N)%nat ->
  exists e', rounded_run (step (simulation n ft lib m) ft None (T / INR N)) (rounded_number emin prec) (T / INR N) k e = Some e' /\ fits L n m e'
  /\ forall i, (i < length (l_fields L))%nat ->
     exists d, nth_error (e_fields e') i = Some d /\ distance2 d (nth i (U (INR k * (T / INR N))) []) <= (D / INR N) ^ 2.
Proof.
  intros L cs es m HD Em n ft lib GL UT HO Hn T HT SM U HU step Hst.
  destruct (C111_rounding L cs es m HD Em n ft lib GL UT HO Hn T HT SM U HU step Hst) as (D & r & s & N0 & H1 & H2 & H3 & H). exists (D * (1 + s)), r, s, N0.
  split; [apply Rmult_le_pos; lra|]. repeat (split; [assumption|]).
  intros N emin prec e HN HN1 Hp Hs Hf H0 k Hk. assert (HNr : 1 <= INR N) by (change 1 with (INR 1); apply le_INR; lia).
  assert (HsN : s / INR N <= s). { apply Rmult_le_reg_r with (INR N); [lra|]. replace (s / INR N * INR N) with s by (field; lra). nra. }
  assert (Hu : 0 <= rounding_unit emin prec r).
  { unfold rounding_unit. pose proof (bpow_gt_0 radix2 (1 - prec)). pose proof (bpow_gt_0 radix2 emin). assert (0 <= r * bpow radix2 (1 - prec)) by (apply Rmult_le_pos; lra). lra. }
  destruct (H N (rounded_number emin prec) (rounding_unit emin prec r) e HN HN1 Hu) with (k := k) as (e' & E & Hf' & Hi); try assumption.
  - intros z Hz. apply rounding_error; assumption.
  - lra.
  - exists e'. split; [exact E|]. split; [exact Hf'|]. intros i Hl. destruct (Hi i Hl) as (d & Ed & Hd). exists d. split; [exact Ed|]. apply Rle_trans with (1 := Hd).
    assert (Q : INR (S k) * rounding_unit emin prec r <= s / INR N).
    { apply Rle_trans with (2 := Hs). apply Rmult_le_compat_r; [exact Hu|]. apply le_INR. lia. }
    assert (Q0 : 0 <= INR (S k) * rounding_unit emin prec r) by (apply Rmult_le_pos; [apply pos_INR|exact Hu]). assert (0 < / INR N) by (apply Rinv_0_lt_compat; lra).
    apply pow_incr. split; [apply Rmult_le_pos; lra|]. unfold Rdiv in *. rewrite Rmult_assoc. apply Rmult_le_compat_l; [exact H1|]. lra.
Qed.
Print Assumptions C111_floating_point.

(** The condition on the digits can be met for every N, with room to spare. *)
Theorem C111_enough_digits : forall r s N, 0 <= r -> 0 < s -> (0 < N)%nat -> exists p, (0 < p)%Z /\ forall emin prec, (p <= prec)%Z -> (emin <= - p)%Z -> INR (S N) * rounding_unit emin prec r <= s / INR N.
Proof.
  intros r s N Hr Hs HN. assert (HNr : 0 < INR N) by (apply lt_0_INR; exact HN).
  destruct (ConvergeProps.above (INR (S N) * INR N * (2 * r + 1) / s)) as (q & Hq). exists (Z.of_nat q + 1)%Z. split; [lia|]. intros emin prec Hp He.
  assert (P2 : INR q <= bpow radix2 (Z.of_nat q)).
  { clear. rewrite INR_IZR_INZ, <- IZR_Zpower by lia. apply IZR_le. change (radix_val radix2) with 2%Z. apply Z.lt_le_incl, Z.pow_gt_lin_r; lia. }
  assert (B1 : bpow radix2 (1 - prec) <= bpow radix2 (- Z.of_nat q)) by (apply bpow_le; lia).
  assert (B2 : bpow radix2 emin <= bpow radix2 (- Z.of_nat q)) by (apply bpow_le; lia).
  assert (B0 : bpow radix2 (- Z.of_nat q) * bpow radix2 (Z.of_nat q) = 1) by (rewrite <- bpow_plus; replace (- Z.of_nat q + Z.of_nat q)%Z with 0%Z by lia; reflexivity).
  pose proof (bpow_gt_0 radix2 (- Z.of_nat q)) as B3. set (b := bpow radix2 (- Z.of_nat q)) in *. set (c := bpow radix2 (Z.of_nat q)) in *.
  assert (HS : 0 < INR (S N)) by (apply lt_0_INR; lia). unfold rounding_unit.
  apply Rle_trans with (INR (S N) * ((2 * r + 1) * b)).
  - apply Rmult_le_compat_l; [lra|]. assert (r * bpow radix2 (1 - prec) <= r * b) by (apply Rmult_le_compat_l; lra). assert (0 <= r * b) by (apply Rmult_le_pos; lra). lra.
  - assert (Hx : INR (S N) * INR N * (2 * r + 1) <= s * c).
    { apply Rle_trans with (s * INR q).
      - apply Rmult_le_reg_l with (/ s); [apply Rinv_0_lt_compat, Hs|]. replace (/ s * (s * INR q)) with (INR q) by (field; lra).
        replace (/ s * (INR (S N) * INR N * (2 * r + 1))) with (INR (S N) * INR N * (2 * r + 1) / s) by (field; lra). left. exact Hq.
      - apply Rmult_le_compat_l; lra. }
    apply Rmult_le_reg_r with (INR N); [exact HNr|]. replace (s / INR N * INR N) with (s * (b * c)) by (rewrite B0; field; lra).
    replace (INR (S N) * ((2 * r + 1) * b) * INR N) with (INR (S N) * INR N * (2 * r + 1) * b) by ring. replace (s * (b * c)) with (s * c * b) by ring.
    apply Rmult_le_compat_r; lra.
Qed.
Print Assumptions C111_enough_digits.

(** The theorems apply to Allen-Cahn on any domain with the transforms of the
    program and the solution [pattern] of C98: with rounding to enough digits,
    runs from the rounded pattern end near the pattern at the time T. *)
Example C111_nonvacuous : forall dom w T, valid_domain dom -> (forall j, w j ^ 3 = w j) -> 0 < T ->
  let n := nodes dom in let ft := fftw_transform dom in let p := simulation n ft (no_library n principal_power) ac_state in
  exists D N0, forall N, (N0 <= N)%nat -> (0 < N)%nat -> exists digits, forall emin prec, (digits <= prec)%Z -> (emin <= - digits)%Z ->
  exists e' d, rounded_run (rk4_step p ft None (T / INR N)) (rounded_number emin prec) (T / INR N) N {| e_fields := pattern w n 0; e_derived := [[]] |} = Some e'
  /\ nth_error (e_fields e') 0 = Some d /\ distance2 d (nth 0 (pattern w n T) []) <= (D / INR N) ^ 2.
Proof.
  intros dom w T Hv Hw HT n ft p. destruct (C98_nonvacuous dom w T Hv Hw) as (H1 & H2 & H3 & H4 & H5 & H6 & H7 & H8 & H9 & H10 & _). fold n ft in H3, H4, H6, H7, H8, H9, H10.
  destruct (C111_floating_point La ac_calls ac_eqs ac_state H1 H2 n ft _ H3 H4 H5 H6 T HT H7 (pattern w n) H8 rk4_step (or_intror (conj eq_refl H9))) as (D & r & s & N0 & G1 & G2 & G3 & G).
  exists D, N0. intros N HN HN1. destruct (C111_enough_digits r s N G2 G3 HN1) as (dg & Hd0 & Hdg). exists dg. intros emin prec Hp He.
  destruct (G N emin prec {| e_fields := pattern w n 0; e_derived := [[]] |} HN HN1 ltac:(lia) (Hdg emin prec Hp He) H10) with (k := N) as (e' & E & _ & Hi).
  - intros i j _ _. cbn [e_fields]. replace (Csub _ _) with C0 by csolve. replace (Cnorm2 C0) with 0 by (unfold Cnorm2, C0; cbn; ring). apply pow2_ge_0.
  - lia.
  - destruct (Hi 0%nat ltac:(cbn; lia)) as (d & Ed & Hd). exists e', d. split; [exact E|]. split; [exact Ed|].
    replace (INR N * (T / INR N)) with T in Hd by (field; apply not_0_INR; lia). exact Hd.
Qed.
