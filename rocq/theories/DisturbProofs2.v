(** Lemmas for C111: disturbed runs of declared equations. *)
From Verif Require Import ListAux FileModel ParseProofs StepProofs ConserveProofs EquationProps RegistryProps.
From Verif Require Import SplitSpec SimProofs SimProofs2 SimProofs3 SimProofs4 SimProofs5 SimProofs6 SimProps.
From Verif Require Import LinearProofs2 LinearProofs3 ConvergeProofs LimitProofs LimitProofs2 LimitProofs3 LimitProofs4.
From Verif Require ConvergeProps.
From Verif Require Import DisturbProofs DftSpec LimitSpec KeepSpec DisturbSpec.
From Coq Require Import Reals Lia Lra.
From Verif Require Import Complex.
Open Scope R_scope.

Definition step_of (stepf : pde -> transform -> option (R -> R) -> R -> R -> env -> option env) (cs : list call) (lib : library) : Prop :=
  stepf = euler_step \/ (stepf = rk4_step /\ field_independent cs lib).

Lemma rsum_times c dl : forall m, Vec.rsum m (fun k => c * dl k) = c * Vec.rsum m dl.
Proof. induction m as [|m IH]; cbn [Vec.rsum]; [ring|]. rewrite IH. ring. Qed.

Section Nodes.
  Variables (L : lang) (n : nat) (ft : transform).
  Hypothesis UT : unitary_transform n ft.
  Hypothesis Hn : (0 < n)%nat.
  Let nf := length (l_fields L).
  Lemma close_near fs gs e : shaped nf n fs -> shaped nf n gs -> 0 <= e -> close nf n (e ^ 2) fs gs -> near nf n (4 * INR n * e) (amplitude_of ft fs) (amplitude_of ft gs).
  Proof.
    intros Sf Sg He H i k Hi Hk. assert (Li := shaped_nth L n Hn fs i Sf Hi). assert (Lg := shaped_nth L n Hn gs i Sg Hi).
    unfold amplitude_of. replace (4 * INR n * e) with (2 * (INR n * (2 * e))) by ring.
    apply (mode_close n ft UT Hn); [exact Li|exact Lg|lra| |exact Hk]. intros j Hj. apply size_of_norm; [exact He|]. apply (H i j Hi Hj).
  Qed.
  Lemma within_bounded fs r : shaped nf n fs -> 0 <= r -> within nf n r (amplitude_of ft fs) -> bounded_by nf n ((2 * r) ^ 2) fs.
  Proof.
    intros Sf Hr H i j Hi Hj. apply norm_of_size. apply (real_bound n ft UT Hn); [exact (shaped_nth L n Hn fs i Sf Hi)|exact Hr| |exact Hj].
    intros k Hk. exact (H i k Hi Hk).
  Qed.
  Lemma near_distance fs gs e : shaped nf n fs -> shaped nf n gs -> near nf n e (amplitude_of ft fs) (amplitude_of ft gs) ->
    forall i, (i < nf)%nat -> exists d, nth_error fs i = Some d /\ distance2 d (nth i gs []) <= e ^ 2.
  Proof.
    intros Sf Sg H i Hi. assert (GT := ut_good n ft UT). assert (Li := shaped_nth L n Hn fs i Sf Hi). assert (Lg := shaped_nth L n Hn gs i Sg Hi).
    exists (nth i fs []). split; [apply nth_error_nth'; rewrite (proj1 Sf); exact Hi|].
    rewrite <- (energy_difference n _ _ Li Lg).
    apply Rmult_le_reg_l with (INR n); [apply lt_0_INR; exact Hn|]. rewrite (energy_modes n ft _ UT) by (apply map2_length; assumption).
    rewrite (ut_fft_add n ft UT) by assumption. apply (rsum_bound n Hn). intros k' Hk'.
    rewrite (map2_at _ _ _ n k') by (try apply (gt_fft_len n ft GT); assumption). apply norm_of_size.
    pose proof (H i k' Hi Hk') as Q. unfold amplitude_of in Q.
    replace (Cadd _ _) with (Csub (nth k' (fft ft (nth i fs [])) C0) (nth k' (fft ft (nth i gs [])) C0)) by csolve. exact Q.
  Qed.
End Nodes.

Lemma disturb_bound L cs es m : declared L cs es -> run_calls new_mstate (cs ++ [CInit]) = Ok m ->
  forall n ft lib, good_library L n lib -> unitary_transform n ft -> map q_field es = l_fields L -> (0 < n)%nat ->
  forall T, 0 < T -> smooth L cs es n lib T ->
  forall U, solution_until L cs es n ft lib T U ->
  forall stepf, step_of stepf cs lib ->
  exists D r s N0, 0 <= D /\ 0 <= r /\ 0 < s /\
  (forall N t e, (N0 <= N)%nat -> (0 < N)%nat -> fits L n m e -> exists e', stepf (simulation n ft lib m) ft None (T / INR N) t e = Some e' /\ fits L n m e') /\
  forall N st dl, (N0 <= N)%nat -> (0 < N)%nat -> (forall k, 0 <= dl k) -> (forall k, (k <= N)%nat -> fits L n m (st k)) ->
  close (length (l_fields L)) n (dl 0%nat ^ 2) (e_fields (st 0%nat)) (U 0) -> Vec.rsum (S N) dl <= s ->
  disturbed_run (stepf (simulation n ft lib m) ft None (T / INR N)) (T / INR N) (length (l_fields L)) n r dl N st ->
  forall k, (k <= N)%nat -> forall i, (i < length (l_fields L))%nat ->
  exists d, nth_error (e_fields (st k)) i = Some d /\ distance2 d (nth i (U (INR k * (T / INR N))) []) <= (D * (/ INR N + Vec.rsum (S k) dl)) ^ 2.
Proof.
  intros HD Em n ft lib GL UT HO Hn T HT SM U [HU HS] stepf Hst. assert (GT := ut_good n ft UT). set (nf := length (l_fields L)) in *.
  set (Y := fun t => amplitude_of ft (U t)).
  assert (HY : forall i k t, (i < nf)%nat -> (k < n)%nat -> 0 <= t <= T -> changes (fun s => Y s i k) t (G (AA L es ft lib) (FF L cs es n ft lib) Y i k t)).
  { intros i k t Hi Hk Ht. destruct (nth_error es i) as [q|] eqn:Eq; [|exfalso; apply nth_error_None in Eq; unfold nf in Hi; rewrite <- HO, map_length in Hi; lia].
    destruct (HS t i q k Ht Eq Hk) as (M & HW & HC). replace (G _ _ Y i k t) with (Cadd M (source_sum cs lib t i k)); [exact HC|].
    unfold G, FF, AA. rewrite Eq. unfold Y. rewrite (reals_of L n ft UT Hn (U t) (HU t)).
    rewrite (rate_mine L cs es m HD Em n ft lib GL HO T SM (U t) _ t i q k M (HU t) Eq Hk HW). ring. }
  destruct (scheme_disturbed nf n (AA L es ft lib) (FF L cs es n ft lib) Y T ltac:(lra)
    (fun r => lip_FF L cs es n ft lib UT Hn T ltac:(lra) SM r) HY) as (D & B & h0 & HD0 & HB & Hh0 & Hz & Hconv).
  destruct (ConvergeProps.above (T / h0)) as (N0 & HN0). assert (Hnr : 0 < INR n) by (apply lt_0_INR; exact Hn).
  set (p := simulation n ft lib m).
  assert (Hstep : forall N, (N0 <= N)%nat -> (0 < N)%nat -> 0 < T / INR N <= h0).
  { intros N HN HN1. assert (HNr : 0 < INR N) by (apply lt_0_INR; exact HN1). assert (HN0' : INR N0 <= INR N) by (apply le_INR; exact HN).
    split; [apply Rdiv_lt_0_compat; lra|]. apply Rmult_le_reg_r with (INR N); [exact HNr|]. replace (T / INR N * INR N) with T by (field; lra).
    replace T with (h0 * (T / h0)) by (field; lra). apply Rmult_le_compat_l; lra. }
  assert (Hone : exists step : R -> R -> grid -> grid -> Prop, (step = scheme nf n (AA L es ft lib) (FF L cs es n ft lib) \/ step = rk_scheme nf n (AA L es ft lib) (FF L cs es n ft lib))
    /\ forall h t e, 0 < h <= h0 -> fits L n m e -> exists e', stepf p ft None h t e = Some e' /\ fits L n m e' /\ step h t (amplitude_of ft (e_fields e)) (amplitude_of ft (e_fields e'))).
  { destruct Hst as [-> | [-> HI]].
    - eexists. split; [left; reflexivity|]. intros h t e Hh Hf. apply (euler_scheme L cs es m HD Em n ft lib GL UT HO Hn T SM h t e Hf). intros i k Hi Hk. apply Hz; assumption.
    - eexists. split; [right; reflexivity|]. intros h t e Hh Hf. apply (rk4_scheme L cs es m HD Em n ft lib GL UT HO Hn T SM HI h t e Hf); intros i k Hi Hk; apply Hz; (assumption || lra). }
  destruct Hone as (step & Hsch & Hone).
  exists (D * (T + 4 * INR n)), (2 * B), (/ (32 * INR n * D)), N0.
  split; [apply Rmult_le_pos; lra|]. split; [lra|]. split; [apply Rinv_0_lt_compat, Rmult_lt_0_compat; lra|]. split.
  { intros N t e HN HN1 Hf. destruct (Hone (T / INR N) t e (Hstep N HN HN1) Hf) as (e' & E & Hf' & _). exists e'. split; assumption. }
  intros N st dl HN HN1 Hdl Hf H0 Hsum Hrun k Hk.
  assert (Hh := Hstep N HN HN1). assert (HNr : 0 < INR N) by (apply lt_0_INR; exact HN1). set (h := T / INR N) in *.
  assert (EN : INR N * h = T) by (unfold h; field; lra).
  set (nx := fun k => match stepf p ft None h (INR k * h) (st k) with Some e' => e' | None => st k end).
  assert (Sh : forall k, (k <= N)%nat -> shaped nf n (e_fields (st k))) by (intros k' Hk'; exact (fits_shaped L m n (st k') (Hf k' Hk'))).
  pose proof (Hconv step Hsch h N (fun k => amplitude_of ft (e_fields (st k))) (fun k => amplitude_of ft (e_fields (nx k))) (fun k => 4 * INR n * dl k) Hh ltac:(lra)) as HC. cbv beta in HC.
  assert (HC1 : near nf n (D * (h + Vec.rsum (S k) (fun k => 4 * INR n * dl k))) (amplitude_of ft (e_fields (st k))) (Y (INR k * h))).
  { apply HC; [| | | |exact Hk].
    - intros j. pose proof (Hdl j). apply Rmult_le_pos; lra.
    - rewrite rsum_times. apply Rle_trans with (D * (4 * INR n * / (32 * INR n * D))).
      + apply Rmult_le_compat_l; [lra|]. apply Rmult_le_compat_l; [lra|exact Hsum].
      + right. field. split; lra.
    - apply (close_near L n ft UT Hn); [apply Sh; lia|apply HU|apply Hdl|exact H0].
    - intros j Hj. destruct (Hone h (INR j * h) (st j) Hh (Hf j ltac:(lia))) as (e' & E & Hf' & Hs). unfold nx. rewrite E. split; [exact Hs|]. intros HW.
      destruct (Hrun j Hj) as (e2 & E2 & Hcl). assert (e2 = e') by congruence. subst e2.
      apply (close_near L n ft UT Hn); [apply Sh; lia|exact (fits_shaped L m n e' Hf')|apply Hdl|]. apply Hcl.
      apply (within_bounded L n ft UT Hn); [exact (fits_shaped L m n e' Hf')|exact HB|exact HW]. }
  rewrite rsum_times in HC1. intros i Hi.
  apply (near_distance L n ft UT Hn (e_fields (st k)) (U (INR k * h)) (D * (T + 4 * INR n) * (/ INR N + Vec.rsum (S k) dl)) (Sh k Hk) (HU _)); [|exact Hi].
  intros a b Ha Hb. apply Rle_trans with (1 := HC1 a b Ha Hb). rewrite (Rmult_assoc D (T + 4 * INR n)). apply Rmult_le_compat_l; [lra|].
  assert (S0 := DisturbProofs.rsum_nonneg dl Hdl (S k)). assert (0 < / INR N) by (apply Rinv_0_lt_compat; exact HNr). unfold h, Rdiv.
  assert (0 <= T * Vec.rsum (S k) dl) by (apply Rmult_le_pos; lra). assert (0 <= INR n * / INR N) by (apply Rmult_le_pos; lra). lra.
Qed.

(** ** Rounding *)
Section Rounding.
  Variables (L : lang) (n : nat) (m : mstate) (rnd : C -> C).
  Lemma rounded_fits e : fits L n m e -> fits L n m (rounded rnd e).
  Proof.
    intros (H1 & H2 & H3). unfold fits, rounded. cbn [e_fields e_derived]. rewrite !map_length. split; [exact H1|]. split; [|exact H3].
    unfold all_length in *. rewrite Forall_forall in *. intros d Hd. apply in_map_iff in Hd. destruct Hd as (d0 & <- & Hd0). rewrite map_length. apply H2, Hd0.
  Qed.
  Lemma rounded_run_states step h (e : env) : fits L n m e -> (forall t e, fits L n m e -> exists e', step t e = Some e' /\ fits L n m e') ->
    exists st : nat -> env, st 0%nat = e /\ forall k, fits L n m (st k) /\ rounded_run step rnd h k e = Some (st k)
    /\ exists e', step (INR k * h) (st k) = Some e' /\ fits L n m e' /\ st (S k) = rounded rnd e'.
  Proof.
    intros He Hs. set (st := fun k => match rounded_run step rnd h k e with Some e' => e' | None => e end). exists st. split; [reflexivity|].
    assert (H : forall k, fits L n m (st k) /\ rounded_run step rnd h k e = Some (st k)).
    { induction k as [|k [IH1 IH2]]; [split; [exact He|reflexivity]|]. destruct (Hs (INR k * h) (st k) IH1) as (e' & E & Hf).
      unfold st. cbn [rounded_run]. rewrite IH2, E. split; [apply rounded_fits, Hf|reflexivity]. }
    intros k. destruct (H k) as [H1 H2]. split; [exact H1|]. split; [exact H2|]. destruct (Hs (INR k * h) (st k) H1) as (e' & E & Hf). exists e'. split; [exact E|]. split; [exact Hf|].
    unfold st at 1. cbn [rounded_run]. rewrite H2, E. reflexivity.
  Qed.
End Rounding.
Lemma rounded_at rnd nf n e : shaped nf n (e_fields e) -> forall i j, (i < nf)%nat -> (j < n)%nat -> at_ (e_fields (rounded rnd e)) i j = rnd (at_ (e_fields e) i j).
Proof.
  intros [H1 H2] i j Hi Hj. unfold at_, rounded. cbn [e_fields]. rewrite (nth_indep _ [] (map rnd [])) by (rewrite map_length; lia). rewrite map_nth.
  assert (Hl : length (nth i (e_fields e) []) = n). { unfold all_length in H2. rewrite Forall_forall in H2. apply H2, nth_In. lia. }
  rewrite (nth_indep _ C0 (rnd C0)) by (rewrite map_length; lia). apply map_nth.
Qed.
Lemma rsum_const c : forall m, Vec.rsum m (fun _ => c) = INR m * c.
Proof. induction m as [|m IH]; [cbn; ring|]. cbn [Vec.rsum]. rewrite IH, S_INR. ring. Qed.
