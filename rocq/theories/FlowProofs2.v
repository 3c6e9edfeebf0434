From Verif Require Import ListAux FileModel StepProofs SplitProofs4 SimProofs SimProofs2 EnergyProofs3 FlowSpec FlowProofs Vec CVec Complex.
From Coq Require Import Lia Lra.
Open Scope R_scope.

Lemma lap_nonpos f : 0 <= - lap_symbol f.
Proof.
  unfold lap_symbol. assert (H : 0 <= norm_sq f) by (unfold norm_sq; induction f as [|x f IH]; cbn; [lra|nra]).
  assert (HP := PI_RGT_0). assert (0 <= 4 * PI * PI) by nra. nra.
Qed.

Section Field.
  Variables (n : nat) (ft : transform).
  Hypothesis U : unitary_transform n ft.
  Hypothesis Hn : (0 < n)%nat.

  (** One field. *)
  Lemma field_energy (dt K : R) (M w gv : nat -> R) (d d' : data) : 0 < dt -> length d = n -> length d' = n -> real_field d -> real_field d' ->
    (forall k, (k < n)%nat -> 0 <= M k /\ 1 + dt * M k * w k <> 0 /\ K * M k <= 2 / dt + M k * w k) ->
    (forall k, (k < n)%nat -> nth k (fft ft d') C0 =
       Cdiv (Cadd (nth k (fft ft d) C0) (Cmul (RtoC dt) (Cmul (RtoC (- M k)) (amplitude_at n ft k (fun j => RtoC (gv j))))))
            (Csub C1 (Cmul (RtoC dt) (RtoC (- M k * w k))))) ->
    rsum n (fun j => gv j * (Re (nth j d' C0) - Re (nth j d C0))) + K / 2 * rsum n (fun j => (Re (nth j d' C0) - Re (nth j d C0)) ^ 2)
    + (rsum n (fun k => w k * Cnorm2 (nth k (fft ft d') C0)) - rsum n (fun k => w k * Cnorm2 (nth k (fft ft d) C0))) / (2 * INR n) <= 0.
  Proof.
    intros Hdt Ld Ld' Rd Rd' HM HY. assert (GT := ut_good n ft U). assert (Np : 0 < INR n) by (apply lt_0_INR, Hn).
    set (dl := map2 (fun u v => Cadd u (Cmul (Copp C1) v)) d' d).
    set (gd := map (fun j => RtoC (gv j)) (seq 0 n)).
    assert (Lg : length gd = n) by (unfold gd; rewrite map_length; apply seq_length).
    assert (Ll : length dl = n).
    { unfold dl. rewrite <- Ld in Ld'. rewrite <- Ld. clear -Ld'. revert d Ld'. induction d' as [|x l IH]; intros [|y r] H; try discriminate H; [reflexivity|]. cbn [map2 length]. f_equal. apply IH. injection H as H. exact H. }
    assert (Fl : forall k, (k < n)%nat -> nth k (fft ft dl) C0 = Csub (nth k (fft ft d') C0) (nth k (fft ft d) C0)).
    { intros k Hk. unfold dl. rewrite (ut_fft_add n ft U (Copp C1) d' d Ld' Ld).
      rewrite nth_map2; [ring| |]; rewrite !(gt_fft_len n ft GT) by assumption; [exact Hk|reflexivity]. }
    assert (Vl : forall j, (j < n)%nat -> nth j dl C0 = RtoC (Re (nth j d' C0) - Re (nth j d C0))).
    { intros j Hj. unfold dl. rewrite nth_map2 by lia. unfold real_field in Rd, Rd'. rewrite Forall_forall in Rd, Rd'.
      assert (R1 := Rd _ (nth_In d C0 (eq_ind_r (fun x => (j < x)%nat) Hj Ld))). assert (R2 := Rd' _ (nth_In d' C0 (eq_ind_r (fun x => (j < x)%nat) Hj Ld'))).
      destruct (nth j d C0) as [a b], (nth j d' C0) as [a' b']. cbn [Im Re fst snd] in *. subst. csolve. }
    assert (P1 := parseval_re n ft dl gd U Ll Lg). assert (P2 := parseval_re n ft dl dl U Ll Ll).
    assert (S1 : rsum n (fun j => gv j * (Re (nth j d' C0) - Re (nth j d C0))) = / INR n * rsum n (fun k => Re (Cmul (nth k (fft ft dl) C0) (Cconj (nth k (fft ft gd) C0))))).
    { rewrite P1, <- Rmult_assoc, Rinv_l, Rmult_1_l by lra. apply rsum_ext. intros j Hj. rewrite (Vl j Hj). unfold gd. rewrite (nth_map_seq (fun j => RtoC (gv j)) C0 n j Hj).
      unfold Cmul, Cconj, RtoC. cbn [Re Im fst snd]. ring. }
    assert (S2 : rsum n (fun j => (Re (nth j d' C0) - Re (nth j d C0)) ^ 2) = / INR n * rsum n (fun k => Re (Cmul (nth k (fft ft dl) C0) (Cconj (nth k (fft ft dl) C0))))).
    { rewrite P2, <- Rmult_assoc, Rinv_l, Rmult_1_l by lra. apply rsum_ext. intros j Hj. rewrite (Vl j Hj). unfold Cmul, Cconj, RtoC. cbn [Re Im fst snd]. ring. }
    rewrite S1, S2, <- rsum_minus.
    match goal with |- / ?N * ?a + K / 2 * (/ ?N * ?b) + ?c / (2 * ?N) <= 0 => replace (/ N * a + K / 2 * (/ N * b) + c / (2 * N)) with (/ N * (a + K / 2 * b + / 2 * c)) by (field; lra) end.
    assert (HS : rsum n (fun k => Re (Cmul (nth k (fft ft dl) C0) (Cconj (nth k (fft ft gd) C0)))) + K / 2 * rsum n (fun k => Re (Cmul (nth k (fft ft dl) C0) (Cconj (nth k (fft ft dl) C0))))
      + / 2 * rsum n (fun i => w i * Cnorm2 (nth i (fft ft d') C0) - w i * Cnorm2 (nth i (fft ft d) C0)) <= 0).
    { rewrite <- !rsum_mul_l, <- !rsum_plus. rewrite <- (rsum_0 n). apply rsum_le. intros k Hk. destruct (HM k Hk) as (M1 & M2 & M3).
      assert (Q := mode_energy dt (M k) (w k) K _ _ _ Hdt M1 M2 M3 (HY k Hk)). rewrite (Fl k Hk). change (fft ft gd) with (fft ft (map (fun j => RtoC (gv j)) (seq 0 n))).
      change (nth k (fft ft (map (fun j => RtoC (gv j)) (seq 0 n))) C0) with (amplitude_at n ft k (fun j => RtoC (gv j))).
      assert (N2 : forall z, Re (Cmul z (Cconj z)) = Cnorm2 z) by (intros [a b]; unfold Cmul, Cconj, Cnorm2; cbn [Re Im fst snd]; ring).
      rewrite N2. eapply Rle_trans; [|exact Q]. right. field. }
    assert (0 < / INR n) by (apply Rinv_0_lt_compat, Np). nra.
  Qed.
End Field.

Section Run.
  Variables (L : lang) (cs : list call) (es : list eqtext) (m : mstate).
  Hypothesis HD : declared L cs es.
  Hypothesis Em : run_calls new_mstate (cs ++ [CInit]) = Ok m.
  Variables (n : nat) (ft : transform) (lib : library).
  Hypothesis GL : good_library L n lib.
  Hypothesis U : unitary_transform n ft.
  Hypothesis Hn : (0 < n)%nat.
  Hypothesis HO : map q_field es = l_fields L.
  Hypothesis HS : forall i, sources_of i cs = [].
  Variables (ps : nat -> nat) (w : nat -> nat -> R) (G : (nat -> R) -> R) (g : nat -> (nat -> R) -> R) (K : R) (B : (nat -> R) -> Prop).
  Let nf := length (l_fields L).
  Hypothesis HF : forall i q, nth_error es i = Some q -> flow_equation L (ps i) q.
  Hypothesis HW : forall i q k, nth_error es i = Some q -> (k < n)%nat -> stiffness L lib (ps i) (tfreq ft k) q = RtoC (w i k).
  Hypothesis Hg : forall i q fields val j, nth_error es i = Some q -> shaped nf n fields -> all_real fields -> (forall j, (j < n)%nat -> B (node fields j)) ->
    values L lib fields val -> (j < n)%nat -> force L lib (ps i) val q j = RtoC (g i (node fields j)).
  Hypothesis HG : descends nf G g K B.
  Variable dt : R.
  Hypothesis Hdt : 0 < dt.
  Hypothesis Hstep : forall i k, (i < nf)%nat -> (k < n)%nat ->
    let M := (- lap_symbol (tfreq ft k)) ^ ps i in 1 + dt * M * w i k <> 0 /\ K * M <= 2 / dt + M * w i k.

  Lemma flow_step t e e' : fits L n m e -> all_real (e_fields e) -> all_real (e_fields e') ->
    (forall j, (j < n)%nat -> B (node (e_fields e) j) /\ B (node (e_fields e') j)) ->
    euler_step (simulation n ft lib m) ft None dt t e = Some e' ->
    flow_energy nf n ft G w (e_fields e') <= flow_energy nf n ft G w (e_fields e).
  Proof.
    intros Hf Re0 Re1 HB HE. assert (GT := ut_good n ft U).
    destruct (split_euler L cs es m HD Em n ft lib GL GT HO dt t e Hf) as (e2 & E2 & Hlen & Hall & HY).
    rewrite HE in E2. injection E2 as <-. destruct Hf as (F1 & F2 & F3).
    assert (Hsh : shaped nf n (e_fields e)) by (split; [exact F1|exact F2]).
    assert (Hsh' : shaped nf n (e_fields e')) by (split; [rewrite Hlen; exact F1|exact Hall]).
    assert (Hnth : forall fs i, shaped nf n fs -> (i < nf)%nat -> In (nth i fs []) fs) by (intros fs i [H1 _] Hi; apply nth_In; lia).
    assert (HFi : forall i, (i < nf)%nat ->
      rsum n (fun j => g i (node (e_fields e) j) * (node (e_fields e') j i - node (e_fields e) j i))
      + K / 2 * rsum n (fun j => (node (e_fields e') j i - node (e_fields e) j i) ^ 2)
      + (rsum n (fun k => w i k * Cnorm2 (nth k (fft ft (nth i (e_fields e') [])) C0)) - rsum n (fun k => w i k * Cnorm2 (nth k (fft ft (nth i (e_fields e) [])) C0))) / (2 * INR n) <= 0).
    { intros i Hi. assert (Hle : length es = nf) by (unfold nf; rewrite <- HO, map_length; reflexivity).
      destruct (nth_error es i) as [q|] eqn:Eq; [|apply nth_error_None in Eq; lia].
      refine (field_energy n ft U Hn dt K (fun k => (- lap_symbol (tfreq ft k)) ^ ps i) (w i) (fun j => g i (node (e_fields e) j)) (nth i (e_fields e) []) (nth i (e_fields e') []) Hdt _ _ _ _ _ _).
      - assert (Ha := F2). unfold all_length in Ha. rewrite Forall_forall in Ha. apply Ha, Hnth; assumption.
      - assert (Ha := Hall). unfold all_length in Ha. rewrite Forall_forall in Ha. apply Ha, Hnth; assumption.
      - unfold all_real in Re0. rewrite Forall_forall in Re0. apply Re0, Hnth; assumption.
      - unfold all_real in Re1. rewrite Forall_forall in Re1. apply Re1, Hnth; assumption.
      - intros k Hk. destruct (Hstep i k Hi Hk) as [S1 S2]. split; [apply pow_le, lap_nonpos|]. split; assumption.
      - intros k Hk. specialize (HY i q Eq). cbv zeta in HY.
        match type of HY with forall k X A, _ -> split_written _ _ _ _ _ ?F ?S ?E ?T ?Q _ _ _ -> _ => destruct (split_exists L cs es m HD Em n ft lib E T Q k F S) as (X & A & HXA) end.
        rewrite (HY k X A Hk HXA).
        destruct (flow_parts L cs es HD n ft lib U q (ps i) _ _ _ _ k X A (nth_error_In _ _ Eq) (HF i q Eq) Hk HXA) as (EA & val & HV & EX).
        rewrite (HW i q k Eq Hk), <- RtoC_mul in EA.
        assert (ES : source_sum cs lib t i k = C0) by (unfold source_sum; rewrite HS; reflexivity).
        rewrite EA, EX, ES. f_equal. f_equal. f_equal. rewrite (amp_ext n ft k (force L lib (ps i) val q) (fun j => RtoC (g i (node (e_fields e) j)))); [ring|].
        intros j Hj. apply (Hg i q (e_fields e) val j Eq Hsh Re0); [intros j' Hj'; apply HB, Hj'|exact HV|exact Hj]. }
    unfold flow_energy.
    assert (H1 : rsum n (fun j => G (node (e_fields e') j)) <= rsum n (fun j => G (node (e_fields e) j))
      + rsum nf (fun i => rsum n (fun j => g i (node (e_fields e) j) * (node (e_fields e') j i - node (e_fields e) j i)))
      + K / 2 * rsum nf (fun i => rsum n (fun j => (node (e_fields e') j i - node (e_fields e) j i) ^ 2))).
    { rewrite (rsum_swap nf n (fun i j => g i (node (e_fields e) j) * (node (e_fields e') j i - node (e_fields e) j i))), (rsum_swap nf n (fun i j => (node (e_fields e') j i - node (e_fields e) j i) ^ 2)).
      rewrite <- rsum_mul_l, <- !rsum_plus. apply rsum_le. intros j Hj. apply HG; apply HB, Hj. }
    assert (H2 : rsum nf (fun i => rsum n (fun j => g i (node (e_fields e) j) * (node (e_fields e') j i - node (e_fields e) j i)))
      + K / 2 * rsum nf (fun i => rsum n (fun j => (node (e_fields e') j i - node (e_fields e) j i) ^ 2))
      + (rsum nf (fun i => rsum n (fun k => w i k * Cnorm2 (nth k (fft ft (nth i (e_fields e') [])) C0)))
         - rsum nf (fun i => rsum n (fun k => w i k * Cnorm2 (nth k (fft ft (nth i (e_fields e) [])) C0)))) / (2 * INR n) <= 0).
    { unfold Rdiv at 2. rewrite <- rsum_minus, <- rsum_mul_r, <- rsum_mul_l, <- !rsum_plus. rewrite <- (rsum_0 nf). apply rsum_le. intros i Hi. exact (HFi i Hi). }
    assert (Np : 0 < INR n) by (apply lt_0_INR, Hn).
    unfold Rdiv in *. rewrite Rmult_minus_distr_r in H2. lra.
  Qed.
End Run.
