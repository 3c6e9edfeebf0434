From Verif Require Import GradSpec RealProofs GradProofs GradProofs2 DftProofs IndexProofs StepProofs SddProofs EnergyProofs EnergyProofs3 Vec CVec Complex.
From Coq Require Import Lra Lia Qreals.
Open Scope R_scope.

(** ** Derived fields seen by a later derived field *)
Lemma sync_nth : forall calcs i e k c, nth_error calcs k = Some c -> (i + length calcs <= length (e_derived e))%nat ->
  exists e1, e_fields e1 = e_fields e /\
    (forall j, (j < i + k)%nat -> nth_error (e_derived e1) j = nth_error (e_derived (sync_from i calcs e)) j) /\
    nth_error (e_derived (sync_from i calcs e)) (i + k) = Some (c e1).
Proof.
  assert (Keep : forall calcs i e j, (j < i)%nat -> nth_error (e_derived (sync_from i calcs e)) j = nth_error (e_derived e) j).
  { induction calcs as [|c calcs IH]; intros i e j Hj; cbn [sync_from]; [reflexivity|].
    rewrite IH by lia. unfold set_derived. cbn [e_derived]. apply nth_error_set_nth_neq. lia. }
  induction calcs as [|c0 calcs IH]; intros i e k c Hk HL; [destruct k; discriminate|]. cbn [length] in HL. cbn [sync_from].
  destruct k as [|k]; cbn [nth_error] in Hk.
  - injection Hk as ->. exists e. split; [reflexivity|]. rewrite Nat.add_0_r. split.
    + intros j Hj. rewrite Keep by lia. unfold set_derived. cbn [e_derived]. symmetry. apply nth_error_set_nth_neq. lia.
    + rewrite Keep by lia. unfold set_derived. cbn [e_derived]. apply nth_error_set_nth_eq. lia.
  - destruct (IH (S i) (set_derived e i (c0 e)) k c Hk) as (e1 & E1 & E2 & E3).
    + unfold set_derived. cbn [e_derived]. rewrite set_nth_length. lia.
    + exists e1. split; [exact E1|]. replace (i + S k)%nat with (S i + k)%nat by lia. split; [exact E2|exact E3].
Qed.

(** ** Sums of lists *)
Lemma sum_over_length dim n v : length (sum_over dim n v) = n.
Proof. unfold sum_over. rewrite map_length, seq_length. reflexivity. Qed.
Lemma sum_over_nth dim n v j : (j < n)%nat -> nth j (sum_over dim n v) C0 = csum dim (fun d => nth j (v d) C0).
Proof. intros H. unfold sum_over. exact (EnergyProofs3.nth_map_seq (fun j => csum dim (fun d => nth j (v d) C0)) C0 n j H). Qed.

Lemma csum_shift (T : nat -> C) d dim : csum (S dim) (fun i => T (d + i)%nat) = Cadd (T d) (csum dim (fun i => T (S d + i)%nat)).
Proof.
  induction dim as [|dim IH]; [cbn [csum]; rewrite Nat.add_0_r; ring|].
  cbn [csum] in *. rewrite IH. replace (d + S dim)%nat with (S d + dim)%nat by lia. ring.
Qed.

Lemma flux_from_nth mult ft flux e t : forall dim d field j, (j < length field)%nat ->
  length (flux_term_from mult ft flux dim d e t field) = length field /\
  nth j (flux_term_from mult ft flux dim d e t field) C0 =
  Cadd (nth j field C0) (csum dim (fun i => Cmul (0, mult (nth (d + i) (tfreq ft j) 0)) (nth j (flux e t (d + i)%nat) C0))).
Proof.
  induction dim as [|dim IH]; intros d field j Hj; cbn [flux_term_from].
  - split; [reflexivity|]. cbn [csum]. ring.
  - destruct (IH (S d) (mapi_from 0 (fun j z => Cadd z (Cmul (Cmul Ci (RtoC (mult (nth d (tfreq ft j) 0)))) (nth j (flux e t d) C0))) field) j) as [A B].
    + rewrite mapi_from_length. exact Hj.
    + rewrite mapi_from_length in A. split; [exact A|]. rewrite B, nth_mapi by exact Hj. cbn [Nat.add].
      pose proof (csum_shift (fun i => Cmul (0, mult (nth i (tfreq ft j) 0)) (nth j (flux e t i) C0)) d dim) as E.
      cbv beta in E. cbn [Nat.add] in E. rewrite E.
      replace (Cmul Ci (RtoC (mult (nth d (tfreq ft j) 0)))) with (0, mult (nth d (tfreq ft j) 0)) by (apply C_eq; cbn; ring). ring.
Qed.
Lemma flux_nth mult ft dim flux e t tmp j : (j < length tmp)%nat ->
  nth j (flux_term mult ft dim flux e t tmp) C0 = csum dim (fun d => Cmul (0, mult (nth d (tfreq ft j) 0)) (nth j (flux e t d) C0)).
Proof.
  intros Hj. unfold flux_term. destruct (flux_from_nth mult ft flux e t dim 0 (repeat C0 (length tmp)) j) as [_ B]; [rewrite repeat_length; exact Hj|].
  rewrite B, nth_repeat. cbn [Nat.add]. ring.
Qed.
Lemma flux_length mult ft dim flux e t tmp : length (flux_term mult ft dim flux e t tmp) = length tmp.
Proof.
  unfold flux_term. generalize 0%nat. enough (H : forall field d, length (flux_term_from mult ft flux dim d e t field) = length field).
  { intros d. rewrite H. apply repeat_length. }
  induction dim as [|dim IH]; intros field d; cbn [flux_term_from]; [reflexivity|]. rewrite IH. apply mapi_from_length.
Qed.

(** ** Linearity of the normalised inverse transform *)
Section Linear.
  Variables (n : nat) (ft : transform).
  Hypothesis U : unitary_transform n ft.
  Let G := ut_good _ _ U.

  Lemma tr_length X : length X = n -> length (to_real ft X) = n.
  Proof. intros L. unfold to_real. rewrite div_real_length. apply (gt_ifft_len _ _ G), L. Qed.

  Lemma tr_add a X Y j : length X = n -> length Y = n -> (j < n)%nat ->
    nth j (to_real ft (map2 (fun u v => Cadd u (Cmul a v)) X Y)) C0 = Cadd (nth j (to_real ft X) C0) (Cmul a (nth j (to_real ft Y) C0)).
  Proof.
    intros LX LY Hj. unfold to_real. rewrite !div_real_nth. rewrite (StepProofs.map2_length _ _ _ n LX LY), LX, LY.
    rewrite (ut_ifft_add _ _ U a X Y LX LY). rewrite nth_map2.
    - unfold Cdiv. ring.
    - rewrite (gt_ifft_len _ _ G X LX). exact Hj.
    - rewrite (gt_ifft_len _ _ G X LX), (gt_ifft_len _ _ G Y LY). reflexivity.
  Qed.
  Lemma tr_zero j : (j < n)%nat -> nth j (to_real ft (repeat C0 n)) C0 = C0.
  Proof.
    intros Hj. pose proof (tr_add (Copp C1) (repeat C0 n) (repeat C0 n) j (repeat_length _ _) (repeat_length _ _) Hj) as H.
    replace (map2 (fun u v => Cadd u (Cmul (Copp C1) v)) (repeat C0 n) (repeat C0 n)) with (repeat C0 n) in H.
    - rewrite H. ring.
    - clear. induction n as [|m IH]; [reflexivity|]. cbn [repeat map2]. rewrite <- IH. f_equal. csolve.
  Qed.
  Lemma tr_sum dim (v : nat -> data) j : (forall d, (d < dim)%nat -> length (v d) = n) -> (j < n)%nat ->
    nth j (to_real ft (sum_over dim n v)) C0 = csum dim (fun d => nth j (to_real ft (v d)) C0).
  Proof.
    intros HL Hj. induction dim as [|dim IH].
    - replace (sum_over 0 n v) with (repeat C0 n); [apply tr_zero, Hj|].
      apply (list_eq_nth _ _ n); [apply repeat_length|apply sum_over_length|]. intros i Hi. rewrite nth_repeat, sum_over_nth by exact Hi. reflexivity.
    - replace (sum_over (S dim) n v) with (map2 (fun u w => Cadd u (Cmul C1 w)) (sum_over dim n v) (v dim)).
      + rewrite tr_add by first [exact Hj|apply sum_over_length|apply HL; lia]. rewrite IH by (intros d Hd; apply HL; lia). cbn [csum]. ring.
      + apply (list_eq_nth _ _ n).
        * apply StepProofs.map2_length; [apply sum_over_length|apply HL; lia].
        * apply sum_over_length.
        * intros i Hi. rewrite nth_map2 by (rewrite sum_over_length, ?(HL dim) by lia; lia). rewrite !sum_over_nth by exact Hi. cbn [csum]. ring.
  Qed.
  Lemma tr_scale a X j : length X = n -> (j < n)%nat -> nth j (to_real ft (map (Cmul a) X)) C0 = Cmul a (nth j (to_real ft X) C0).
  Proof.
    intros L Hj. replace (map (Cmul a) X) with (map2 (fun u v => Cadd u (Cmul a v)) (repeat C0 n) X).
    - rewrite tr_add by (try assumption; apply repeat_length). rewrite tr_zero by exact Hj. ring.
    - clear - L. revert X L. induction n as [|m IH]; intros [|x X] L; cbn [length] in L; try discriminate; [reflexivity|].
      cbn [repeat map2 map]. f_equal; [ring|]. apply IH. lia.
  Qed.

  Lemma grad_amp_len comp keep X : length (grad_amplitudes ft comp keep X) = length X.
  Proof. apply mapi_from_length. Qed.
  Lemma gradient_len comp keep x : length x = n -> length (gradient ft comp keep x) = n.
  Proof. intros L. apply tr_length. rewrite grad_amp_len. apply (gt_fft_len _ _ G), L. Qed.

  (** the divergence of real-space fluxes *)
  Lemma flux_divergence (mult : R -> R) dim (flux : env -> R -> nat -> data) (w : nat -> data) e t tmp : length tmp = n ->
    (forall d, (d < dim)%nat -> length (w d) = n /\ flux e t d = fft ft (w d)) ->
    to_real ft (flux_term mult ft dim flux e t tmp) =
    sum_over dim n (fun d => to_real ft (mapi_from 0 (fun k z => Cmul z (0, mult (nth d (tfreq ft k) 0))) (fft ft (w d)))).
  Proof.
    intros LT HW. apply (list_eq_nth _ _ n); [apply tr_length; rewrite flux_length; exact LT|apply sum_over_length|].
    intros j Hj. rewrite sum_over_nth by exact Hj.
    rewrite <- (tr_sum dim (fun d => mapi_from 0 (fun k z => Cmul z (0, mult (nth d (tfreq ft k) 0))) (fft ft (w d)))); [|intros d Hd; rewrite mapi_from_length; apply (gt_fft_len _ _ G), HW, Hd|exact Hj].
    f_equal. f_equal. apply (list_eq_nth _ _ n); [rewrite flux_length; exact LT|apply sum_over_length|].
    intros k Hk. rewrite flux_nth by (rewrite LT; exact Hk). rewrite sum_over_nth by exact Hk. apply csum_ext. intros d Hd.
    destruct (HW d Hd) as [LW ->]. rewrite nth_mapi by (rewrite (gt_fft_len _ _ G (w d) LW); exact Hk). cbn [Nat.add]. ring.
  Qed.

  Lemma keep_mult x d : to_real ft (mapi_from 0 (fun k z => Cmul z (0, divgrad_mult (nth d (tfreq ft k) 0))) (fft ft x)) = gradient ft d true x.
  Proof. unfold gradient, grad_amplitudes, divgrad_mult. f_equal. apply mapi_ext. intros k z. rewrite grad_freq_keep. reflexivity. Qed.

  (** ** DivGrad *)
  Lemma divgrad_calcs_nth u F : forall dim base d0 d, (d < dim)%nat ->
    nth_error (divgrad_calcs ft u F base d0 dim) (2 * d) = Some (gradient_calc ft (d0 + d) u) /\
    nth_error (divgrad_calcs ft u F base d0 dim) (2 * d + 1) = Some (weighted_calc F (derived_brick (base + 2 * d))).
  Proof.
    induction dim as [|dim IH]; intros base d0 d Hd; [lia|]. cbn [divgrad_calcs]. destruct d as [|d].
    - cbn. rewrite !Nat.add_0_r. split; reflexivity.
    - destruct (IH (S (S base)) (S d0) d ltac:(lia)) as [A B].
      replace (2 * S d)%nat with (S (S (2 * d))) by lia. replace (S (S (2 * d)) + 1)%nat with (S (S (2 * d + 1))) by lia. cbn [nth_error].
      rewrite A, B. replace (S d0 + d)%nat with (d0 + S d)%nat by lia. replace (S (S base) + 2 * d)%nat with (base + S (S (2 * d)))%nat by lia. split; reflexivity.
  Qed.
  Lemma divgrad_calcs_length u F : forall dim base d0, length (divgrad_calcs ft u F base d0 dim) = (2 * dim)%nat.
  Proof. induction dim as [|dim IH]; intros base d0; cbn [divgrad_calcs length]; [reflexivity|]. rewrite IH. lia. Qed.

  Lemma nth_nth_error {A} (l : list A) i x d : nth_error l i = Some x -> nth i l d = x.
  Proof. apply nth_error_nth. Qed.

  Lemma mapi_times (F : nat -> C) (g : data) : mapi_from 0 (fun i z => Cmul (F i) z) g = times (map F (seq 0 (length g))) g.
  Proof.
    unfold times. generalize 0%nat. induction g as [|z g IH]; intros i; [reflexivity|]. cbn [mapi_from length seq map map2]. rewrite IH. reflexivity.
  Qed.

  Theorem divgrad_value p pre post u F dim e t tmp :
    p_calc p = pre ++ divgrad_calcs ft u F (length pre) 0 dim ++ post ->
    length (e_derived e) = length (p_calc p) -> reads_fields u -> (forall i, reads_fields (F i)) -> length (u e) = n -> length tmp = n ->
    to_real ft (divgrad_term ft (length pre) dim (spectrum p ft e) t tmp) =
    sum_over dim n (fun d => gradient ft d true (times (values n F e) (gradient ft d false (u e)))).
  Proof.
    intros HP HL Ru RF Lu LT. unfold divgrad_term.
    rewrite (flux_divergence divgrad_mult dim _ (fun d => times (values n F e) (gradient ft d false (u e)))); [|exact LT|].
    - unfold sum_over. apply map_ext. intros j. apply csum_ext. intros d Hd. f_equal. apply keep_mult.
    - intros d Hd. assert (Lg : length (gradient ft d false (u e)) = n) by (apply gradient_len; exact Lu).
      split; [unfold times; apply StepProofs.map2_length; [unfold values; rewrite map_length, seq_length; reflexivity|exact Lg]|].
      assert (B : forall k c, nth_error (divgrad_calcs ft u F (length pre) 0 dim) k = Some c -> nth_error (p_calc p) (length pre + k) = Some c).
      { intros k c Hk. rewrite HP, nth_error_app2 by lia. replace (length pre + k - length pre)%nat with k by lia. rewrite nth_error_app1; [exact Hk|].
        apply nth_error_Some. congruence. }
      destruct (divgrad_calcs_nth u F dim (length pre) 0 d Hd) as [A1 A2]. apply B in A1, A2.
      destruct (sync_nth (p_calc p) 0 e _ _ A1 ltac:(lia)) as (e1 & F1 & _ & N1).
      destruct (sync_nth (p_calc p) 0 e _ _ A2 ltac:(lia)) as (e2 & F2 & K2 & N2).
      fold (sync p e) in N1, N2, K2. cbn [Nat.add] in N1, N2, K2.
      unfold derived_brick, spectrum. cbn [e_derived]. apply nth_error_nth. rewrite nth_error_map.
      replace (length pre + 2 * d + 1)%nat with (length pre + (2 * d + 1))%nat by lia. rewrite N2. cbn [option_map]. f_equal. f_equal.
      unfold weighted_calc. rewrite (mapi_ext _ (fun i z => Cmul (F i e) z)) by (intros i z; rewrite (RF i e2 e F2); reflexivity).
      unfold derived_brick. rewrite (nth_error_nth (e_derived e2) (length pre + 2 * d) [] (x := gradient ft d false (u e))).
      + rewrite (mapi_times (fun i => F i e)), Lg. reflexivity.
      + rewrite K2 by lia. rewrite N1. f_equal. unfold gradient_calc. cbn [Nat.add]. rewrite (Ru e1 e F1). reflexivity.
  Qed.

  (** ** Advection *)
  Lemma dot_calc_nth e m : forall vs gs data0 j, length vs = length gs -> length data0 = m -> (forall v, In v vs -> length (v e) = m) -> (forall g, In g gs -> length (g e) = m) ->
    (j < m)%nat -> length (dot_calc vs gs e data0) = m /\
    nth j (dot_calc vs gs e data0) C0 = Cadd (nth j data0 C0) (csum (length vs) (fun d => Cmul (nth j (nth d vs (fun _ => []) e) C0) (nth j (nth d gs (fun _ => []) e) C0))).
  Proof.
    induction vs as [|v vs IH]; intros [|g gs] data0 j L L0 Lv Lg Hj; cbn [length] in L; try discriminate; cbn [dot_calc].
    - split; [exact L0|]. cbn [length csum]. ring.
    - destruct (IH gs (map3 (fun z a b => Cadd z (Cmul a b)) data0 (v e) (g e)) j ltac:(lia)) as [A B].
      + apply map3_length; [exact L0|apply Lv; left; reflexivity|apply Lg; left; reflexivity].
      + intros v' Hv'. apply Lv. right. exact Hv'.
      + intros g' Hg'. apply Lg. right. exact Hg'.
      + exact Hj.
      + split; [exact A|]. rewrite B. rewrite nth_map3 by (rewrite ?L0, ?(Lv v (or_introl eq_refl)), ?(Lg g (or_introl eq_refl)); lia).
        cbn [length]. pose proof (csum_shift (fun d => Cmul (nth j (nth d (v :: vs) (fun _ => []) e) C0) (nth j (nth d (g :: gs) (fun _ => []) e) C0)) 0 (length vs)) as E.
        cbv beta in E. cbn [Nat.add] in E. rewrite E. cbn [nth]. ring.
  Qed.

  Theorem advection_value p pre post u vs e t tmp :
    p_calc p = pre ++ advection_calcs ft u vs n (length pre) ++ post ->
    length (e_derived e) = length (p_calc p) -> reads_fields u -> (forall v, In v vs -> reads_fields v /\ length (v e) = n) -> length (u e) = n ->
    to_real ft (advection_term (length pre) (length vs) (spectrum p ft e) t tmp) =
    map Copp (sum_over (length vs) n (fun d => times (nth d vs (fun _ => []) e) (gradient ft d false (u e)))).
  Proof.
    intros HP HL Ru RV Lu. set (dim := length vs) in *.
    assert (B : forall k c, nth_error (advection_calcs ft u vs n (length pre)) k = Some c -> nth_error (p_calc p) (length pre + k) = Some c).
    { intros k c Hk. rewrite HP, nth_error_app2 by lia. replace (length pre + k - length pre)%nat with k by lia. rewrite nth_error_app1; [exact Hk|].
      apply nth_error_Some. congruence. }
    assert (A1 : forall d, (d < dim)%nat -> nth_error (p_calc p) (length pre + d) = Some (gradient_calc ft d u)).
    { intros d Hd. apply B. unfold advection_calcs. fold dim. rewrite nth_error_app1 by (rewrite map_length, seq_length; exact Hd).
      rewrite nth_error_map. rewrite (nth_error_nth' _ 0%nat) by (rewrite seq_length; exact Hd). rewrite seq_nth by exact Hd. reflexivity. }
    assert (A2 : nth_error (p_calc p) (length pre + dim) = Some (fun e => dot_calc vs (map derived_brick (seq (length pre) dim)) e (repeat C0 n))).
    { apply B. unfold advection_calcs. fold dim. rewrite nth_error_app2 by (rewrite map_length, seq_length; lia). rewrite map_length, seq_length, Nat.sub_diag. reflexivity. }
    destruct (sync_nth (p_calc p) 0 e _ _ A2 ltac:(lia)) as (e2 & F2 & K2 & N2). fold (sync p e) in N2, K2. cbn [Nat.add] in N2, K2.
    unfold advection_term, derived_brick at 1, spectrum. cbn [e_derived].
    rewrite (nth_error_nth (map (fft ft) (e_derived (sync p e))) (length pre + dim) [] (x := fft ft (sum_over dim n (fun d => times (nth d vs (fun _ => []) e) (gradient ft d false (u e)))))).
    - rewrite (map_ext Copp (Cmul (Copp C1))) by (intros; ring).
      assert (LS : length (sum_over dim n (fun d => times (nth d vs (fun _ => []) e) (gradient ft d false (u e)))) = n) by apply sum_over_length.
      apply (list_eq_nth _ _ n); [apply tr_length; rewrite map_length; apply (gt_fft_len _ _ G), LS|rewrite map_length; exact LS|].
      intros j Hj. rewrite tr_scale by (try exact Hj; apply (gt_fft_len _ _ G), LS). rewrite (gt_left _ _ G _ LS), nth_map_data by (rewrite LS; exact Hj). ring.
    - rewrite nth_error_map, N2. cbn [option_map]. f_equal. f_equal.
      assert (Gn : forall d, (d < dim)%nat -> derived_brick (length pre + d) e2 = gradient ft d false (u e)).
      { intros d Hd. unfold derived_brick. apply nth_error_nth. rewrite K2 by lia.
        destruct (sync_nth (p_calc p) 0 e _ _ (A1 d Hd) ltac:(lia)) as (e1 & F1 & _ & N1). fold (sync p e) in N1. cbn [Nat.add] in N1.
        rewrite N1. unfold gradient_calc. rewrite (Ru e1 e F1). reflexivity. }
      assert (D : forall j, (j < n)%nat -> length (dot_calc vs (map derived_brick (seq (length pre) dim)) e2 (repeat C0 n)) = n /\
        nth j (dot_calc vs (map derived_brick (seq (length pre) dim)) e2 (repeat C0 n)) C0 =
        Cadd (nth j (repeat C0 n) C0) (csum dim (fun d => Cmul (nth j (nth d vs (fun _ => []) e2) C0) (nth j (nth d (map derived_brick (seq (length pre) dim)) (fun _ => []) e2) C0)))).
      { intros j Hj. apply (dot_calc_nth e2 n).
        - rewrite map_length, seq_length. reflexivity.
        - apply repeat_length.
        - intros v Hv. destruct (RV v Hv) as [R1 R2]. rewrite (R1 e2 e F2). exact R2.
        - intros g Hg. apply in_map_iff in Hg. destruct Hg as (i & <- & Hi). apply in_seq in Hi.
          replace i with (length pre + (i - length pre))%nat by lia. rewrite Gn by lia. apply gradient_len, Lu.
        - exact Hj. }
      destruct (Nat.eq_dec n 0) as [N0|N0].
      { destruct (dot_calc vs (map derived_brick (seq (length pre) dim)) e2 (repeat C0 n)) eqn:E; [unfold sum_over; rewrite N0; reflexivity|].
        exfalso. revert E. clear - N0. rewrite N0. cbn [repeat].
        assert (H : forall gs, dot_calc vs gs e2 [] = []) by (induction vs as [|v vs' IH]; intros [|g gs]; cbn [dot_calc]; try reflexivity; cbn [map3]; apply IH).
        rewrite H. discriminate. }
      apply (list_eq_nth _ _ n); [apply (D 0%nat); lia|apply sum_over_length|].
      intros j Hj. destruct (D j Hj) as [_ ->]. rewrite nth_repeat, sum_over_nth by exact Hj.
      transitivity (csum dim (fun d => Cmul (nth j (nth d vs (fun _ => []) e2) C0) (nth j (nth d (map derived_brick (seq (length pre) dim)) (fun _ => []) e2) C0))); [ring|].
      apply csum_ext. intros d Hd.
      assert (Hin : In (nth d vs (fun _ => [])) vs) by (apply nth_In; exact Hd). destruct (RV _ Hin) as [R1 R2].
      rewrite (nth_indep (map derived_brick _) (fun _ => []) (derived_brick 0)) by (rewrite map_length, seq_length; exact Hd).
      rewrite map_nth, seq_nth by exact Hd. rewrite Gn by exact Hd. rewrite (R1 e2 e F2). unfold times.
      rewrite nth_map2; [reflexivity|rewrite R2; exact Hj|]. rewrite R2, (gradient_len d false (u e) Lu). reflexivity.
  Qed.

  (** ** Weighted Laplacian and squared gradient *)
  Theorem weighted_laplacian_value u F e t tmp x w : length x = n -> length w = n -> u e = fft ft x -> F e = fft ft w ->
    to_real ft (weighted_laplacian_term ft u F e t tmp) =
    times w (to_real ft (mapi_from 0 (fun j z => lap_eval (tfreq ft j) 1 z) (fft ft x))).
  Proof.
    intros Lx Lw Eu EF. unfold weighted_laplacian_term. cbv zeta. rewrite Eu, EF. rewrite (gt_left _ _ G w Lw).
    set (l := to_real ft (mapi_from 0 (fun j z => lap_eval (tfreq ft j) 1 z) (fft ft x))).
    assert (Ll : length l = n) by (apply tr_length; rewrite mapi_from_length; apply (gt_fft_len _ _ G), Lx).
    rewrite (gt_left _ _ G) by (apply StepProofs.map2_length; assumption). unfold times.
    apply (list_eq_nth _ _ n); [apply StepProofs.map2_length; assumption|apply StepProofs.map2_length; assumption|].
    intros j Hj. rewrite !nth_map2 by lia. ring.
  Qed.

  Lemma sqgrad_from_spec factor U0 : length U0 = n -> forall dim d field j, length field = n -> (j < n)%nat ->
    length (sqgrad_from ft factor U0 d dim field) = n /\
    nth j (sqgrad_from ft factor U0 d dim field) C0 =
    Cadd (nth j field C0) (csum dim (fun i => Cmul (RtoC factor) (nth j (fft ft (map (fun z => Cmul z z) (to_real ft (grad_amplitudes ft (d + i) false U0)))) C0))).
  Proof.
    intros LU. assert (Lf : forall d, length (fft ft (map (fun z => Cmul z z) (to_real ft (grad_amplitudes ft d false U0)))) = n).
    { intros d. apply (gt_fft_len _ _ G). rewrite map_length. apply tr_length. rewrite grad_amp_len. exact LU. }
    induction dim as [|dim IH]; intros d field j L Hj; cbn [sqgrad_from]; [split; [exact L|cbn [csum]; ring]|].
    destruct (IH (S d) (map2 (fun a b => Cadd a (Cmul b (RtoC factor))) field (fft ft (map (fun z => Cmul z z) (to_real ft (grad_amplitudes ft d false U0))))) j) as [A B].
    - apply StepProofs.map2_length; [exact L|apply Lf].
    - exact Hj.
    - split; [exact A|]. rewrite B. rewrite nth_map2 by (rewrite ?Lf; lia).
      pose proof (csum_shift (fun i => Cmul (RtoC factor) (nth j (fft ft (map (fun z => Cmul z z) (to_real ft (grad_amplitudes ft i false U0)))) C0)) d dim) as E.
      cbv beta in E. rewrite E. ring.
  Qed.

  Theorem sqgrad_value factor dim u e t tmp x : length x = n -> u e = fft ft x -> length tmp = n ->
    to_real ft (sqgrad_term ft factor dim u e t tmp) =
    sum_over dim n (fun d => map (Cmul (RtoC factor)) (times (gradient ft d false x) (gradient ft d false x))).
  Proof.
    intros Lx Eu LT. unfold sqgrad_term. rewrite Eu, LT. pose proof (gt_fft_len _ _ G x Lx) as LF.
    set (sq := fun d => map (fun z => Cmul z z) (gradient ft d false x)).
    assert (Lsq : forall d, length (sq d) = n) by (intros d; unfold sq; rewrite map_length; apply gradient_len, Lx).
    assert (LS : length (sqgrad_from ft factor (fft ft x) 0 dim (repeat C0 n)) = n).
    { assert (H : forall dim d field, length field = n -> length (sqgrad_from ft factor (fft ft x) d dim field) = n).
      { intros dm. induction dm as [|dm IH]; intros d field L; cbn [sqgrad_from]; [exact L|]. apply IH.
        apply StepProofs.map2_length; [exact L|]. apply (gt_fft_len _ _ G). rewrite map_length. apply tr_length. rewrite grad_amp_len. exact LF. }
      apply H, repeat_length. }
    apply (list_eq_nth _ _ n); [apply tr_length, LS|apply sum_over_length|].
    replace (sqgrad_from ft factor (fft ft x) 0 dim (repeat C0 n)) with (sum_over dim n (fun d => map (Cmul (RtoC factor)) (fft ft (sq d)))).
    - intros j Hj. rewrite tr_sum by (try exact Hj; intros d Hd; rewrite map_length; apply (gt_fft_len _ _ G), Lsq).
      rewrite sum_over_nth by exact Hj. apply csum_ext. intros d Hd. rewrite tr_scale by (try exact Hj; apply (gt_fft_len _ _ G), Lsq).
      rewrite (gt_left _ _ G _ (Lsq d)). unfold times. pose proof (gradient_len d false x Lx) as Lg.
      rewrite (nth_map_data (Cmul (RtoC factor))) by (rewrite (StepProofs.map2_length _ _ _ n Lg Lg); exact Hj).
      rewrite nth_map2 by lia. unfold sq. rewrite nth_map_data by lia. reflexivity.
    - apply (list_eq_nth _ _ n); [apply sum_over_length|exact LS|]. intros j Hj. rewrite sum_over_nth by exact Hj.
      destruct (sqgrad_from_spec factor (fft ft x) LF dim 0 (repeat C0 n) j (repeat_length _ _) Hj) as [_ ->]. rewrite nth_repeat.
      rewrite (csum_ext dim (fun d => nth j (map (Cmul (RtoC factor)) (fft ft (sq d))) C0) (fun i => Cmul (RtoC factor) (nth j (fft ft (map (fun z => Cmul z z) (to_real ft (grad_amplitudes ft (0 + i) false (fft ft x))))) C0))); [ring|].
      intros d _. rewrite nth_map_data by (rewrite (gt_fft_len _ _ G _ (Lsq d)); exact Hj). reflexivity.
  Qed.
End Linear.
