(** Runs of the saddle search of a linear model with one field. *)
From Verif Require Import ListAux FileModel StepProofs SddProofs DftProofs RealSpec SimProofs2 LinearProofs2 SaddleSpec SaddleProofs SaddleProofs2 SaddleProofs3 SaddleProofs4 Vec CVec Complex.
From Coq Require Import Lia Lra.
Open Scope R_scope.

Lemma sdd_run_add p ft a : forall b s e, sdd_run p ft (a + b) s e = match sdd_run p ft a s e with Some (s', e') => sdd_run p ft b s' e' | None => None end.
Proof. induction a as [|a IH]; intros b s e; cbn [Nat.add sdd_run]; [reflexivity|]. destruct (sdd_step p ft s e) as [[s' e']|]; [apply IH|reflexivity]. Qed.

Lemma energy_spectrum n ft y : unitary_transform n ft -> length y = n -> rsum n (fun k => Cnorm2 (nth k (fft ft y) C0)) = INR n * energy y.
Proof.
  intros U Ly. assert (H := ut_parseval n ft U y y Ly Ly). apply (f_equal Re) in H. unfold inner in H. rewrite csum_re in H. unfold energy. rewrite Ly.
  assert (N : forall z, Re (Cmul z (Cconj z)) = Cnorm2 z) by (intros [a b]; unfold Cmul, Cconj, Cnorm2; cbn [Re Im fst snd]; ring).
  rewrite (rsum_ext n _ _ (fun i _ => N _)) in H. rewrite H, <- (rsum_ext n _ _ (fun i _ => N (nth i y C0))), <- csum_re.
  destruct (csum n (fun i => Cmul (nth i y C0) (Cconj (nth i y C0)))) as [u v]. unfold Cmul, RtoC. cbn [Re Im fst snd]. ring.
Qed.

Section Runs.
  Variables (L : lang) (cs : list call) (q : eqtext) (m : mstate) (dom : list Z) (lib : library) (sg : nat -> R).
  Hypothesis LM : linear_model L cs [q].
  Hypothesis Em : run_calls new_mstate (cs ++ [CInit]) = Ok m.
  Hypothesis Hv : valid_domain dom.
  Hypothesis Hsq : square_layout dom.
  Let n := nodes dom.
  Let ft := fftw_transform dom.
  Hypothesis GL : good_library L n lib.
  Hypothesis RS : real_symbols L lib n ft q sg.
  Let p := simulation n ft lib m.
  Let U : unitary_transform n ft := fftw_unitary dom Hv.

  Definition rate_of (s : sdd) : R := s_dt s / s_tau_orient s.
  Lemma dt_pos s e : searching n s e -> 0 < s_dt s.
  Proof. intros [_ _ H]. assert (0 < / 10 ^ 16) by (apply Rinv_0_lt_compat; lra). lra. Qed.

  Section Ratio.
    Variables (k0 : nat) (lo : R).
    Hypothesis Hk0 : (k0 < n)%nat.
    Hypothesis Hsg : forall k, (k < n)%nat -> lo <= sg k <= sg k0.
    Definition ratio (h : R) (k : nat) : R := 1 - h * (sg k0 - sg k) / (1 + h * (sg k0 - lo)).
    Lemma ratio_bounds h k : 0 <= h -> (k < n)%nat -> 0 <= ratio h k <= 1.
    Proof.
      intros Hh Hk. destruct (Hsg k Hk) as [A B]. assert (P1 : 0 <= h * (sg k0 - sg k)) by (apply Rmult_le_pos; lra). assert (P2 : h * (sg k0 - sg k) <= h * (sg k0 - lo)) by (apply Rmult_le_compat_l; lra).
      assert (F : 0 <= h * (sg k0 - sg k) / (1 + h * (sg k0 - lo)) <= 1).
      { split; [unfold Rdiv; apply Rmult_le_pos; [lra|apply Rlt_le, Rinv_0_lt_compat; lra]|]. apply (Rmult_le_reg_r (1 + h * (sg k0 - lo))); [lra|]. unfold Rdiv. rewrite Rmult_assoc, Rinv_l by lra. lra. }
      unfold ratio. lra.
    Qed.

    Lemma ratio_step s e : searching n s e -> fits L n m e -> 0 < s_tau_orient s -> rate_of s * (sg k0 - lo) <= 1 ->
      exists s' e', sdd_step p ft s e = Some (s', e') /\ searching n s' e' /\ fits L n m e' /\ s_dt s' = s_dt s /\ s_tau_orient s' = s_tau_orient s
      /\ (forall k, (k < n)%nat -> share n ft s' k * share n ft s k0 <= ratio (rate_of s) k ^ 2 * (share n ft s k * share n ft s' k0))
      /\ (0 < share n ft s k0 -> 0 < share n ft s' k0).
    Proof.
      intros Hs Hf Ht Hr. destruct (search_step L cs q m dom lib sg LM Em Hv Hsq GL RS s e Hs Hf) as (s' & e' & y & y' & a & E & Hs' & Hf' & E1 & E2 & (len & Hlen & HM) & _).
      exists s', e'. split; [exact E|]. split; [exact Hs'|]. split; [exact Hf'|]. split; [exact E1|]. split; [exact E2|].
      assert (Hh : 0 <= rate_of s) by (unfold rate_of, Rdiv; apply Rmult_le_pos; [apply Rlt_le, (dt_pos s e Hs)|apply Rlt_le, Rinv_0_lt_compat, Ht]).
      set (mu := mean dom sg s) in *. fold (rate_of s) in HM.
      assert (HS : forall k, (k < n)%nat -> share n ft s' k = (1 + rate_of s * (sg k - mu)) ^ 2 * (/ len) ^ 2 * share n ft s k).
      { intros k Hk. unfold share. fold n ft in HM. rewrite (HM k Hk), Cnorm2_mul, Cnorm2_RtoC. unfold Rdiv. ring. }
      assert (MB := mean_bounds n sg (share n ft s) (fun k _ => share_pos dom s e Hs k) (shares_one dom Hv s e Hs) lo (sg k0) Hsg). change (rsum n (fun k => sg k * share n ft s k)) with mu in MB.
      assert (Hl2 : 0 < (/ len) ^ 2) by (apply pow_lt, Rinv_0_lt_compat; lra).
      split.
      - intros k Hk. rewrite (HS k Hk), (HS k0 Hk0).
        assert (F := share_factor n sg (rate_of s) (share n ft s) (fun k _ => share_pos dom s e Hs k) (shares_one dom Hv s e Hs) Hh lo (sg k0) Hsg k k0 Hk Hk0 eq_refl Hr).
        cbv zeta in F. change (rsum n (fun k => sg k * share n ft s k)) with mu in F. fold (ratio (rate_of s) k) in F.
        apply (Rmult_le_compat_r ((/ len) ^ 2 * (share n ft s k * share n ft s k0))) in F; [|apply Rmult_le_pos; [lra|apply Rmult_le_pos; apply (share_pos dom s e Hs)]]. lra.
      - intros Hp. rewrite (HS k0 Hk0). apply Rmult_lt_0_compat; [|exact Hp]. apply Rmult_lt_0_compat; [|exact Hl2]. apply pow_lt. assert (0 <= rate_of s * (sg k0 - mu)) by (apply Rmult_le_pos; lra). lra.
    Qed.

    Lemma ratio_run N : forall s e, searching n s e -> fits L n m e -> 0 < s_tau_orient s -> rate_of s * (sg k0 - lo) <= 1 -> 0 < share n ft s k0 ->
      exists s' e', sdd_run p ft N s e = Some (s', e') /\ searching n s' e' /\ fits L n m e' /\ s_dt s' = s_dt s /\ s_tau_orient s' = s_tau_orient s
      /\ (forall k, (k < n)%nat -> share n ft s' k * share n ft s k0 <= ratio (rate_of s) k ^ (2 * N) * (share n ft s k * share n ft s' k0))
      /\ 0 < share n ft s' k0.
    Proof.
      induction N as [|N IH]; intros s e Hs Hf Ht Hr Hp.
      - exists s, e. split; [reflexivity|]. do 4 (split; [first [exact Hs|exact Hf|reflexivity]|]). split; [|exact Hp]. intros k Hk. rewrite Nat.mul_0_r. cbn [pow]. lra.
      - destruct (ratio_step s e Hs Hf Ht Hr) as (s1 & e1 & E & Hs1 & Hf1 & D1 & T1 & R1 & P1). specialize (P1 Hp).
        assert (ER : rate_of s1 = rate_of s) by (unfold rate_of; rewrite D1, T1; reflexivity).
        destruct (IH s1 e1 Hs1 Hf1) as (s2 & e2 & E2 & Hs2 & Hf2 & D2 & T2 & R2 & P2); [rewrite T1; exact Ht|rewrite ER; exact Hr|exact P1|].
        exists s2, e2. split; [cbn [sdd_run]; rewrite E; exact E2|]. split; [exact Hs2|]. split; [exact Hf2|]. split; [congruence|]. split; [congruence|]. split; [|exact P2].
        intros k Hk. specialize (R1 k Hk). specialize (R2 k Hk). rewrite ER in R2. set (r := ratio (rate_of s) k) in *.
        assert (Hh : 0 <= rate_of s) by (unfold rate_of, Rdiv; apply Rmult_le_pos; [apply Rlt_le, (dt_pos s e Hs)|apply Rlt_le, Rinv_0_lt_compat, Ht]).
        destruct (ratio_bounds (rate_of s) k Hh Hk) as [B1 _]. fold r in B1.
        apply (Rmult_le_reg_r (share n ft s1 k0)); [exact P1|].
        replace (2 * S N)%nat with (2 + 2 * N)%nat by lia. rewrite pow_add.
        apply (Rmult_le_compat_r (share n ft s k0)) in R2; [|lra].
        apply (Rmult_le_compat_l (r ^ (2 * N) * share n ft s2 k0)) in R1; [|apply Rmult_le_pos; [apply pow_le, B1|lra]]. lra.
    Qed.
  End Ratio.

  Section Saddle.
    Variables (k0 : nat) (gam B : R).
    Hypothesis OU : one_unstable n sg k0 gam B.
    Let Hk0 := ou_node _ _ _ _ _ OU.
    Lemma sg_abs k : (k < n)%nat -> - B <= sg k <= B.
    Proof. intros Hk. assert (H := ou_bound _ _ _ _ _ OU k Hk). unfold Rabs in H. destruct (Rcase_abs (sg k)); lra. Qed.
    Lemma sg_top k : (k < n)%nat -> - B <= sg k <= sg k0.
    Proof.
      intros Hk. split; [apply (sg_abs k Hk)|]. assert (H := ou_pos _ _ _ _ _ OU). assert (H1 := ou_up _ _ _ _ _ OU). destruct (Nat.eq_dec k k0) as [->|Hne]; [lra|]. assert (H2 := ou_down _ _ _ _ _ OU k Hk Hne). lra.
    Qed.
    Lemma B_pos : 0 < B.
    Proof. assert (H := ou_pos _ _ _ _ _ OU). assert (H1 := ou_up _ _ _ _ _ OU). assert (H2 := sg_abs k0 Hk0). lra. Qed.

    Record small (s : sdd) : Prop := { sm_tau : 0 < s_tau_orient s; sm_step : s_dt s * B < 1; sm_turn : rate_of s * (2 * B) <= 1 }.

    Lemma turn_small s e : searching n s e -> small s -> 0 <= rate_of s /\ rate_of s * (sg k0 - - B) <= 1.
    Proof.
      intros Hs [H1 H2 H3]. assert (Hh : 0 <= rate_of s) by (unfold rate_of, Rdiv; apply Rmult_le_pos; [apply Rlt_le, (dt_pos s e Hs)|apply Rlt_le, Rinv_0_lt_compat, H1]).
      split; [exact Hh|]. assert (sg k0 - - B <= 2 * B) by (destruct (sg_abs k0 Hk0); lra). assert (rate_of s * (sg k0 - - B) <= rate_of s * (2 * B)) by (apply Rmult_le_compat_l; lra). lra.
    Qed.
    Lemma ratio_small h k : 0 <= h -> h * (2 * B) <= 1 -> (k < n)%nat -> k <> k0 -> ratio k0 (- B) h k <= 1 - h * gam.
    Proof.
      intros Hh Hr Hk Hne. unfold ratio. assert (H1 := ou_up _ _ _ _ _ OU). assert (H2 := ou_down _ _ _ _ _ OU k Hk Hne). assert (H3 := ou_pos _ _ _ _ _ OU). destruct (sg_abs k0 Hk0) as [A1 A2].
      assert (P1 : h * (2 * gam) <= h * (sg k0 - sg k)) by (apply Rmult_le_compat_l; lra). assert (P2 : h * (sg k0 - - B) <= h * (2 * B)) by (apply Rmult_le_compat_l; lra). assert (P3 : 0 <= h * gam) by (apply Rmult_le_pos; lra).
      assert (P4 : 0 <= h * (sg k0 - - B)) by (apply Rmult_le_pos; lra).
      assert (F : h * gam <= h * (sg k0 - sg k) / (1 + h * (sg k0 - - B))).
      { apply (Rmult_le_reg_r (1 + h * (sg k0 - - B))); [lra|]. replace (h * (sg k0 - sg k) / (1 + h * (sg k0 - - B)) * (1 + h * (sg k0 - - B))) with (h * (sg k0 - sg k)) by (field; lra).
        assert (h * gam * (1 + h * (sg k0 - - B)) <= h * gam * 2) by (apply Rmult_le_compat_l; lra). lra. }
      lra.
    Qed.

    Lemma tail_bound (w w' : nat -> R) r : 0 <= r -> rsum n w = 1 -> rsum n w' = 1 -> (forall k, (k < n)%nat -> 0 <= w k) -> 0 <= w' k0 ->
      (forall k, (k < n)%nat -> k <> k0 -> w' k * w k0 <= r * (w k * w' k0)) -> (1 - w' k0) * w k0 <= r * ((1 - w k0) * w' k0).
    Proof.
      intros Hr H1 H2 Hw Hw0 H. assert (E1 := rsum_off n k0 Hk0 w). assert (E2 := rsum_off n k0 Hk0 w'). rewrite H1 in E1. rewrite H2 in E2.
      replace (1 - w' k0) with (rsum n (fun k => if Nat.eqb k k0 then 0 else w' k)) by lra. replace (1 - w k0) with (rsum n (fun k => if Nat.eqb k k0 then 0 else w k)) by lra.
      rewrite <- !rsum_mul_r, <- rsum_mul_l. apply rsum_le. intros k Hk. destruct (Nat.eqb_spec k k0) as [->|Hne]; [lra|]. exact (H k Hk Hne).
    Qed.

    (** The other waves vanish from the orientation. *)
    Lemma tail_run N s e : searching n s e -> fits L n m e -> small s -> 0 < share n ft s k0 ->
      exists s' e', sdd_run p ft N s e = Some (s', e') /\ searching n s' e' /\ fits L n m e' /\ small s' /\ s_dt s' = s_dt s /\ rate_of s' = rate_of s
      /\ 0 < share n ft s' k0 <= 1 /\ (1 - share n ft s' k0) * share n ft s k0 <= (1 - rate_of s * gam) ^ (2 * N) * ((1 - share n ft s k0) * share n ft s' k0).
    Proof.
      intros Hs Hf Sm Hp. destruct (turn_small s e Hs Sm) as [Hh Hr].
      destruct (ratio_run k0 (- B) Hk0 sg_top N s e Hs Hf (sm_tau _ Sm) Hr Hp) as (s' & e' & E & Hs' & Hf' & D & T & R & P).
      assert (ER : rate_of s' = rate_of s) by (unfold rate_of; rewrite D, T; reflexivity). assert (HG := ou_pos _ _ _ _ _ OU).
      assert (HG2 : rate_of s * gam <= 1). { assert (gam <= 2 * B) by (assert (H1 := ou_up _ _ _ _ _ OU); destruct (sg_abs k0 Hk0); lra). assert (rate_of s * gam <= rate_of s * (2 * B)) by (apply Rmult_le_compat_l; lra). assert (H3 := sm_turn _ Sm). lra. }
      exists s', e'. split; [exact E|]. split; [exact Hs'|]. split; [exact Hf'|]. split; [destruct Sm; split; [rewrite T; assumption|rewrite D; assumption|rewrite ER; assumption]|].
      split; [exact D|]. split; [exact ER|]. assert (S1 := shares_one dom Hv s' e' Hs'). assert (S0 := shares_one dom Hv s e Hs).
      split.
      - split; [exact P|]. assert (E2 := rsum_off n k0 Hk0 (share n ft s')). change (rsum n (share n ft s') = 1) in S1. rewrite S1 in E2.
        assert (0 <= rsum n (fun k => if Nat.eqb k k0 then 0 else share n ft s' k)); [|lra]. apply rsum_nonneg. intros k Hk. destruct (Nat.eqb k k0); [lra|apply (share_pos dom s' e' Hs')].
      - apply tail_bound; try assumption.
        + apply pow_le. lra.
        + intros k Hk. apply (share_pos dom s e Hs).
        + lra.
        + intros k Hk Hne. eapply Rle_trans; [exact (R k Hk)|]. apply Rmult_le_compat_r; [apply Rmult_le_pos; [apply (share_pos dom s e Hs)|lra]|]. apply pow_incr.
          split; [apply (ratio_bounds k0 (- B) sg_top (rate_of s) k Hh Hk)|]. apply ratio_small; [exact Hh|exact (sm_turn _ Sm)|exact Hk|exact Hne].
    Qed.

    (** The linear problem of a step has a solution. *)
    Lemma search_regular s e a : searching n s e -> small s -> length a = n -> (forall k, (k < n)%nat -> nth k a C0 = RtoC (sg k)) -> regular_step n (s_dt s) (fft ft (map RtoC (s_orient s))) a.
    Proof.
      intros Hs Sm La Ha. assert (Hdt := dt_pos s e Hs). assert (Hb := sm_step _ Sm). assert (HB := B_pos). set (b := s_dt s * B) in *.
      assert (Hb0 : 0 < b) by (apply Rmult_lt_0_compat; assumption).
      assert (X : forall k, (k < n)%nat -> - b <= s_dt s * sg k <= b).
      { intros k Hk. destruct (sg_abs k Hk) as [A1 A2]. unfold b. split; [replace (- (s_dt s * B)) with (s_dt s * - B) by ring|]; apply Rmult_le_compat_l; lra. }
      split.
      - intros k Hk. rewrite (Ha k Hk), <- RtoC_mul. change C1 with (RtoC 1). rewrite <- RtoC_sub. apply RtoC_neq0. specialize (X k Hk). lra.
      - assert (Nn : 0 < INR n) by exact (SaddleProofs4.INR_pos dom s e Hs).
        rewrite (csum_ext n _ (fun k => RtoC (2 * (s_dt s * sg k) / (1 - s_dt s * sg k) * share n ft s k))).
        2: { intros k Hk. rewrite (Ha k Hk), <- (RtoC_mul (s_dt s)). change C1 with (RtoC 1). rewrite <- RtoC_sub. unfold Cdiv. rewrite <- RtoC_inv by (specialize (X k Hk); lra). unfold share, orient_mode.
             destruct (nth k (fft ft (map RtoC (s_orient s))) C0) as [u v]. unfold Cmul, Cconj, Cnorm2, RtoC. cbn [Re Im fst snd]. apply C_eq; cbn [Re Im fst snd]; field; specialize (X k Hk); repeat split; lra. }
        rewrite csum_RtoC. change C1 with (RtoC 1). rewrite <- RtoC_add. apply RtoC_neq0. apply Rgt_not_eq.
        replace 1 with (rsum n (share n ft s)) at 1 by exact (shares_one dom Hv s e Hs). rewrite <- rsum_plus.
        apply Rlt_le_trans with ((1 - b) / (1 + b)); [apply Rmult_lt_0_compat; [lra|apply Rinv_0_lt_compat; lra]|].
        replace ((1 - b) / (1 + b)) with (rsum n (fun k => (1 - b) / (1 + b) * share n ft s k)) by (rewrite rsum_mul_l; assert (H := shares_one dom Hv s e Hs); change (rsum n (share n ft s) = 1) in H; rewrite H; ring).
        apply rsum_le. intros k Hk. specialize (X k Hk). set (x := s_dt s * sg k) in *.
        replace (share n ft s k + 2 * x / (1 - x) * share n ft s k) with ((1 + x) / (1 - x) * share n ft s k) by (field; lra).
        apply Rmult_le_compat_r; [apply (share_pos dom s e Hs)|]. apply (Rmult_le_reg_r ((1 + b) * (1 - x))); [apply Rmult_lt_0_compat; lra|].
        replace ((1 - b) / (1 + b) * ((1 + b) * (1 - x))) with ((1 - b) * (1 - x)) by (field; lra). replace ((1 + x) / (1 - x) * ((1 + b) * (1 - x))) with ((1 + x) * (1 + b)) by (field; lra). nra.
    Qed.

    Definition near (s : sdd) : Prop := 256 * (1 - share n ft s k0) * (B * B) <= gam * gam.
    Lemma energy_step s e s' e' : searching n s e -> fits L n m e -> small s -> near s -> share n ft s k0 <= 1 -> sdd_step p ft s e = Some (s', e') ->
      (1 + s_dt s * (gam / 2)) ^ 2 * energy (nth 0 (e_fields e') []) <= energy (nth 0 (e_fields e) []).
    Proof.
      intros Hs Hf Sm Nr H1 E. destruct (search_step L cs q m dom lib sg LM Em Hv Hsq GL RS s e Hs Hf) as (s1 & e1 & y & y' & a & E' & _ & _ & _ & _ & _ & Ey & Ey' & Ly & Ly' & La & Ha & HQ).
      fold n ft p in E'. rewrite E in E'. injection E' as <- <-. rewrite Ey, Ey'. cbn [nth]. specialize (HQ (search_regular s e a Hs Sm La Ha)).
      assert (Nn : 0 < INR n) by exact (SaddleProofs4.INR_pos dom s e Hs). assert (Hdt := dt_pos s e Hs).
      set (fo := fft ft (map RtoC (s_orient s))) in *. set (v := fun k => Cmul (RtoC (/ sqrt (INR n))) (nth k fo C0)).
      assert (SQ : sqrt (INR n) * sqrt (INR n) = INR n) by (apply sqrt_sqrt; lra). assert (SQ0 : 0 < sqrt (INR n)) by (apply sqrt_lt_R0, Nn).
      assert (IQ : / sqrt (INR n) * / sqrt (INR n) = / INR n) by (transitivity (/ (sqrt (INR n) * sqrt (INR n))); [field; lra|rewrite SQ; reflexivity]).
      assert (NV : forall k, Cnorm2 (v k) = share n ft s k).
      { intros k. unfold v. rewrite Cnorm2_mul, Cnorm2_RtoC. unfold share, orient_mode. fold fo. rewrite IQ. unfold Rdiv. ring. }
      set (d := sqrt (1 - share n ft s k0)). assert (Hd : 0 <= d) by apply sqrt_pos. assert (Hd2 : d * d = 1 - share n ft s k0) by (apply sqrt_sqrt; lra). assert (HB := B_pos). assert (HG := ou_pos _ _ _ _ _ OU).
      assert (Hsm : 16 * (d * B) <= gam).
      { unfold near in Nr. rewrite <- Hd2 in Nr. destruct (Rle_dec (16 * (d * B)) gam) as [H|H]; [exact H|exfalso].
        assert (gam * gam < 16 * (d * B) * (16 * (d * B))) by (apply Rmult_le_0_lt_compat; lra). lra. }
      assert (C := saddle_contracts n k0 sg v gam B d Hk0).
      assert (HV1 : rsum n (fun k => Cnorm2 (v k)) = 1) by (rewrite (rsum_ext n _ (share n ft s) (fun k _ => NV k)); exact (shares_one dom Hv s e Hs)).
      specialize (C HV1 Hd). rewrite NV in C. specialize (C (eq_sym Hd2) HG (ou_up _ _ _ _ _ OU) (ou_down _ _ _ _ _ OU) (ou_bound _ _ _ _ _ OU) Hsm (fun k => nth k (fft ft y') C0) (s_dt s) (fun k => nth k (fft ft y) C0) (Rlt_le _ _ Hdt)).
      cbv beta in C. rewrite !(energy_spectrum n ft _ U) in C by assumption.
      assert (C' : (1 + s_dt s * (gam / 2)) ^ 2 * (INR n * energy y') <= INR n * energy y).
      { apply C. intros k Hk. specialize (HQ k Hk). fold n ft in HQ. fold fo in HQ.
        assert (Z0 : SddSpec.reflect n fo (fun j => nth j (repeat C0 n) C0) k = C0).
        { unfold SddSpec.reflect. rewrite nth_repeat, (csum_zero' n) by (intros; rewrite nth_repeat; ring). unfold Cdiv. ring. }
        rewrite Z0 in HQ. transitivity (Cadd (nth k (fft ft y) C0) (Cmul (RtoC (s_dt s)) C0)); [ring|]. rewrite <- HQ. f_equal. f_equal. unfold SddSpec.reflect. rewrite (Ha k Hk). f_equal. f_equal.
        rewrite (csum_ext n (fun j => Cmul (Cmul (nth j a C0) (nth j (fft ft y') C0)) (Cconj (nth j fo C0))) (fun j => Cmul (Cmul (RtoC (sg j)) (nth j (fft ft y') C0)) (Cconj (nth j fo C0)))) by (intros j Hj; rewrite (Ha j Hj); reflexivity).
        unfold v. rewrite (csum_ext n (fun j => Cmul (Cmul (RtoC (sg j)) (nth j (fft ft y') C0)) (Cconj (Cmul (RtoC (/ sqrt (INR n))) (nth j fo C0)))) (fun j => Cmul (RtoC (/ sqrt (INR n))) (Cmul (Cmul (RtoC (sg j)) (nth j (fft ft y') C0)) (Cconj (nth j fo C0))))) by (intros j Hj; rewrite Cconj_mul, Cconj_RtoC; ring).
        rewrite csum_mul_l. set (Q := csum n (fun j => Cmul (Cmul (RtoC (sg j)) (nth j (fft ft y') C0)) (Cconj (nth j fo C0)))).
        assert (EN : Cinv (RtoC (INR n)) = Cmul (RtoC (/ sqrt (INR n))) (RtoC (/ sqrt (INR n)))) by (rewrite <- RtoC_inv, <- RtoC_mul, IQ by lra; reflexivity).
        unfold Cdiv. rewrite EN. ring. }
      apply (Rmult_le_reg_l (INR n)); [exact Nn|]. lra.
    Qed.

    Lemma energy_run M : forall s e s' e', searching n s e -> fits L n m e -> small s -> near s -> 0 < share n ft s k0 <= 1 -> sdd_run p ft M s e = Some (s', e') ->
      (1 + s_dt s * (gam / 2)) ^ (2 * M) * energy (nth 0 (e_fields e') []) <= energy (nth 0 (e_fields e) []).
    Proof.
      induction M as [|M IH]; intros s e s' e' Hs Hf Sm Nr Hp E; cbn [sdd_run] in E.
      - injection E as <- <-. rewrite Nat.mul_0_r. cbn [pow]. lra.
      - destruct (tail_run 1 s e Hs Hf Sm (proj1 Hp)) as (s1 & e1 & E1 & Hs1 & Hf1 & Sm1 & D1 & R1 & P1 & T1). cbn [sdd_run] in E1.
        destruct (sdd_step p ft s e) as [[s2 e2]|] eqn:E2; [|discriminate]. injection E1 as -> ->.
        assert (ES := energy_step s e s1 e1 Hs Hf Sm Nr (proj2 Hp) E2).
        assert (Nr1 : near s1).
        { unfold near in *. assert (HB := B_pos). assert (HG := ou_pos _ _ _ _ _ OU). destruct (turn_small s e Hs Sm) as [Hh _].
          assert (HG2 : 0 <= rate_of s * gam <= 1). { split; [apply Rmult_le_pos; lra|]. assert (gam <= 2 * B) by (assert (H1 := ou_up _ _ _ _ _ OU); destruct (sg_abs k0 Hk0); lra). assert (rate_of s * gam <= rate_of s * (2 * B)) by (apply Rmult_le_compat_l; lra). assert (H3 := sm_turn _ Sm). lra. }
          assert (PW : (1 - rate_of s * gam) ^ (2 * 1) <= 1) by (change (2 * 1)%nat with 2%nat; set (x := rate_of s * gam) in *; nra).
          assert (TT : (1 - rate_of s * gam) ^ (2 * 1) * ((1 - share n ft s k0) * share n ft s1 k0) <= 1 * ((1 - share n ft s k0) * share n ft s1 k0)) by (apply Rmult_le_compat_r; [apply Rmult_le_pos; lra|exact PW]).
          assert (Mo : share n ft s k0 <= share n ft s1 k0) by lra.
          assert (256 * (1 - share n ft s1 k0) * (B * B) <= 256 * (1 - share n ft s k0) * (B * B)) by (apply Rmult_le_compat_r; [apply Rle_0_sqr|lra]). lra. }
        specialize (IH s1 e1 s' e' Hs1 Hf1 Sm1 Nr1 P1 E). rewrite D1 in IH. set (c := 1 + s_dt s * (gam / 2)) in *.
        replace (2 * S M)%nat with (2 + 2 * M)%nat by lia. rewrite pow_add. assert (0 <= c ^ 2) by (apply pow2_ge_0).
        apply (Rmult_le_compat_l (c ^ 2)) in IH; [|assumption]. lra.
    Qed.

    Theorem search_converges s e : searching n s e -> fits L n m e -> small s -> 0 < share n ft s k0 ->
      forall eps, 0 < eps -> exists N0, forall N, (N0 <= N)%nat -> exists s' e', sdd_run p ft N s e = Some (s', e') /\ searching n s' e' /\ fits L n m e'
        /\ 1 - share n ft s' k0 < eps /\ energy (nth 0 (e_fields e') []) < eps.
    Proof.
      intros Hs Hf Sm Hp eps He. destruct (turn_small s e Hs Sm) as [Hh _]. assert (HB := B_pos). assert (HG := ou_pos _ _ _ _ _ OU). assert (Hdt := dt_pos s e Hs).
      assert (Hh' : 0 < rate_of s) by (unfold rate_of, Rdiv; apply Rmult_lt_0_compat; [exact Hdt|apply Rinv_0_lt_compat, (sm_tau _ Sm)]).
      assert (HG2 : 0 < rate_of s * gam <= 1). { split; [apply Rmult_lt_0_compat; lra|]. assert (gam <= 2 * B) by (assert (H1 := ou_up _ _ _ _ _ OU); destruct (sg_abs k0 Hk0); lra). assert (rate_of s * gam <= rate_of s * (2 * B)) by (apply Rmult_le_compat_l; lra). assert (H3 := sm_turn _ Sm). lra. }
      set (r := 1 - rate_of s * gam) in *. assert (Hr : Rabs (r ^ 2) < 1). { rewrite Rabs_right by (apply Rle_ge, pow2_ge_0). assert (0 <= r < 1) by (unfold r; lra). nra. }
      set (del := Rmin eps (gam * gam / (256 * (B * B)))). assert (BB : 0 < B * B) by (apply Rmult_lt_0_compat; exact HB).
      assert (Hdel : 0 < del). { apply Rmin_glb_lt; [exact He|]. apply Rmult_lt_0_compat; [apply Rmult_lt_0_compat; exact HG|apply Rinv_0_lt_compat; lra]. }
      destruct (pow_lt_1_zero (r ^ 2) Hr (share n ft s k0 * del) (Rmult_lt_0_compat _ _ Hp Hdel)) as (N1 & HN1).
      assert (Tail : forall N, (N1 <= N)%nat -> exists s' e', sdd_run p ft N s e = Some (s', e') /\ searching n s' e' /\ fits L n m e' /\ small s' /\ s_dt s' = s_dt s /\ 0 < share n ft s' k0 <= 1 /\ 1 - share n ft s' k0 < del).
      { intros N HN. destruct (tail_run N s e Hs Hf Sm Hp) as (s' & e' & E & Hs' & Hf' & Sm' & D & R & P & T). exists s', e'. repeat (split; [assumption|]).
        specialize (HN1 N HN). rewrite <- pow_mult in HN1. rewrite Rabs_right in HN1 by (apply Rle_ge, pow_le; unfold r; lra). fold r in T.
        assert (T2 : r ^ (2 * N) * ((1 - share n ft s k0) * share n ft s' k0) <= r ^ (2 * N) * 1).
        { apply Rmult_le_compat_l; [apply pow_le; unfold r; lra|]. assert (share n ft s k0 <= 1).
          { destruct (tail_run 0 s e Hs Hf Sm Hp) as (s0 & e0 & E0 & _ & _ & _ & _ & _ & P0 & _). cbn [sdd_run] in E0. injection E0 as <- <-. lra. }
          assert ((1 - share n ft s k0) * share n ft s' k0 <= 1 * 1) by (apply Rmult_le_compat; lra). lra. }
        apply (Rmult_lt_reg_r (share n ft s k0)); [exact Hp|]. lra. }
      destruct (Tail N1 (le_n _)) as (s1 & e1 & E1 & Hs1 & Hf1 & Sm1 & D1 & P1 & T1).
      assert (Nr : near s1).
      { unfold near. assert (L1 : 1 - share n ft s1 k0 <= gam * gam / (256 * (B * B))) by (eapply Rle_trans; [apply Rlt_le, T1|apply Rmin_r]).
        apply (Rmult_le_compat_r (256 * (B * B))) in L1; [|lra]. unfold Rdiv in L1. rewrite (Rmult_assoc (gam * gam)), Rinv_l in L1 by lra. lra. }
      set (c := 1 + s_dt s * (gam / 2)). assert (Hc : 1 < c) by (unfold c; assert (0 < s_dt s * (gam / 2)) by (apply Rmult_lt_0_compat; lra); lra).
      set (E0 := energy (nth 0 (e_fields e1) [])). assert (HE0 : 0 <= E0) by (unfold E0, energy; apply rsum_nonneg; intros; apply Cnorm2_nonneg).
      assert (Hc2 : Rabs ((/ c) ^ 2) < 1). { rewrite Rabs_right by (apply Rle_ge, pow2_ge_0). assert (0 < / c) by (apply Rinv_0_lt_compat; lra). assert (/ c < 1) by (rewrite <- Rinv_1; apply Rinv_lt_contravar; lra). nra. }
      destruct (pow_lt_1_zero ((/ c) ^ 2) Hc2 (eps / (E0 + 1))) as (M1 & HM1); [apply Rmult_lt_0_compat; [exact He|apply Rinv_0_lt_compat; lra]|].
      exists (N1 + M1)%nat. intros N HN. destruct (Tail N) as (s' & e' & E & Hs' & Hf' & _ & _ & _ & T'); [lia|]. exists s', e'. split; [exact E|]. split; [exact Hs'|]. split; [exact Hf'|].
      split; [eapply Rlt_le_trans; [exact T'|apply Rmin_l]|].
      replace N with (N1 + (N - N1))%nat in E by lia. rewrite sdd_run_add, E1 in E.
      assert (ER := energy_run (N - N1) s1 e1 s' e' Hs1 Hf1 Sm1 Nr P1 E). rewrite D1 in ER. fold c E0 in ER.
      assert (HM : (M1 <= N - N1)%nat) by lia. specialize (HM1 _ HM). set (M := (N - N1)%nat) in *. rewrite <- pow_mult in HM1. rewrite Rabs_right in HM1 by (apply Rle_ge, pow_le, Rlt_le, Rinv_0_lt_compat; lra).
      assert (CP : 0 < c ^ (2 * M)) by (apply pow_lt; lra). rewrite pow_inv in HM1.
      assert (Q : energy (nth 0 (e_fields e') []) <= / c ^ (2 * M) * E0). { apply (Rmult_le_reg_l (c ^ (2 * M))); [exact CP|]. rewrite <- Rmult_assoc, Rinv_r by lra. lra. }
      assert (Q2 : / c ^ (2 * M) * (E0 + 1) < eps). { apply (Rmult_lt_compat_r (E0 + 1)) in HM1; [|lra]. unfold Rdiv in HM1. rewrite Rmult_assoc, Rinv_l in HM1 by lra. lra. }
      assert (0 < / c ^ (2 * M)) by (apply Rinv_0_lt_compat, CP). lra.
    Qed.
  End Saddle.
End Runs.
