From Verif Require Import ListAux StepProofs SddProofs DftProofs SaddleProofs SaddleProofs3 SimProofs FlowProofs TrackSpec Vec CVec Complex.
From Coq Require Import Lra Lia.
Open Scope R_scope.

Lemma Cabs_sq z : Cabs z * Cabs z = Cnorm2 z.
Proof. unfold Cabs. apply sqrt_sqrt, Cnorm2_nonneg. Qed.
Lemma Cabs_pos z : 0 <= Cabs z.
Proof. apply sqrt_pos. Qed.
Lemma Cabs_zero z : Cabs z = 0 -> z = C0.
Proof.
  intros H. assert (E := Cabs_sq z). rewrite H in E. unfold Cnorm2 in E. assert (A := Rle_0_sqr (Re z)). assert (B := Rle_0_sqr (Im z)). unfold Rsqr in A, B.
  apply C_eq; cbn [C0 RtoC Re Im fst snd]; apply Rsqr_0_uniq; unfold Rsqr; lra.
Qed.

Lemma rsum_first n f : rsum (S n) f = f O + rsum n (fun i => f (S i)).
Proof. change (S n) with (1 + n)%nat. rewrite rsum_split. cbn [rsum]. rewrite Rplus_0_l. reflexivity. Qed.

Lemma data_norm_rsum d : data_norm d = rsum (length d) (fun j => Cnorm2 (nth j d C0)).
Proof. induction d as [|z d IH]; [reflexivity|]. cbn [data_norm length]. rewrite rsum_first, Cabs_sq, IH. reflexivity. Qed.
Lemma field_norm_squares n : forall fs, all_length n fs -> field_norm fs = squares (length fs) n fs.
Proof.
  induction fs as [|d fs IH]; intros H; [reflexivity|]. inversion H; subst. cbn [field_norm length]. unfold squares. rewrite rsum_first, data_norm_rsum. f_equal. apply IH. assumption.
Qed.

Section Watch.
  Variables (dt : R) (n : nat).
  Definition dif (d w : data) (j : nat) : R := Cabs (Cdiv (Csub (nth j d C0) (nth j w C0)) (RtoC dt)).
  Lemma watch_force_spec : forall d w mx ps, length d = length w ->
    let r := watch_force dt n d w mx ps in
    mx <= fst r /\ (forall j, (j < length d)%nat -> dif d w j <= fst r) /\ (fst r = mx \/ exists j, (j < length d)%nat /\ fst r = dif d w j)
    /\ snd r = ps + rsum (length d) (fun j => dif d w j * dif d w j / INR n).
  Proof.
    induction d as [|z d IH]; intros [|u w] mx ps HL; try discriminate HL.
    - cbn [watch_force fst snd length rsum]. split; [lra|]. split; [intros; lia|]. split; [left; reflexivity|]. ring.
    - injection HL as HL. cbn [watch_force length]. set (x := Cabs (Cdiv (Csub z u) (RtoC dt))). set (mx' := if Rlt_dec mx x then x else mx).
      destruct (IH w mx' (ps + x * x / INR n) HL) as (A & B & D & E). set (r := watch_force dt n d w mx' (ps + x * x / INR n)) in *.
      assert (M : mx <= mx' /\ x <= mx' /\ (mx' = mx \/ mx' = x)) by (unfold mx'; destruct (Rlt_dec mx x); lra). destruct M as (M1 & M2 & M3).
      split; [lra|]. split.
      + intros [|j] Hj; [change (dif (z :: d) (u :: w) 0) with x; lra|]. change (dif (z :: d) (u :: w) (S j)) with (dif d w j). apply B. lia.
      + split.
        * destruct D as [D|(j & Hj & D)]; [|right; exists (S j); split; [lia|exact D]]. destruct M3 as [M3|M3]; [left; congruence|right; exists O; split; [lia|]]. change (dif (z :: d) (u :: w) 0) with x. congruence.
        * rewrite rsum_first. change (dif (z :: d) (u :: w) 0) with x. rewrite E. change (rsum (length d) (fun i => dif (z :: d) (u :: w) (S i) * dif (z :: d) (u :: w) (S i) / INR n)) with (rsum (length d) (fun j => dif d w j * dif d w j / INR n)). ring.
  Qed.
End Watch.

Lemma watch_torque_spec : forall t mx, let r := watch_torque t mx in
  mx <= r /\ (forall j, (j < length t)%nat -> Rabs (Re (nth j t C0)) <= r) /\ (r = mx \/ exists j, (j < length t)%nat /\ r = Rabs (Re (nth j t C0))).
Proof.
  induction t as [|z t IH]; intros mx; cbn [watch_torque length]; [split; [lra|split; [intros; lia|left; reflexivity]]|].
  set (mx' := if Rlt_dec mx (Rabs (Re z)) then Rabs (Re z) else mx). destruct (IH mx') as (A & B & D).
  assert (M : mx <= mx' /\ Rabs (Re z) <= mx' /\ (mx' = mx \/ mx' = Rabs (Re z))) by (unfold mx'; destruct (Rlt_dec mx (Rabs (Re z))); lra). destruct M as (M1 & M2 & M3). cbv zeta in *.
  split; [lra|]. split.
  - intros [|j] Hj; [cbn [nth]; lra|cbn [nth]; apply B; lia].
  - destruct D as [D|(j & Hj & D)]; [|right; exists (S j); split; [lia|exact D]]. destruct M3 as [M3|M3]; [left; congruence|right; exists O; split; [lia|cbn [nth]; congruence]].
Qed.

Section Loop.
  Variables (p : pde) (s : sdd) (n k : nat) (fto rs re : data).
  Hypothesis KL : keeps_length n p.
  Hypothesis Lf : length fto = (k * n)%nat.
  Hypothesis Lr : length rs = (k * n)%nat.
  Hypothesis Le : length re = (k * n)%nat.
  Definition move (fs fs' : list data) (i j : nat) : R := Cabs (rate (s_dt s) fs fs' i j).

  Lemma track_fields_some : forall todo i e mx ps e1, sdd_fields p s n fto rs re todo i e = Some e1 -> exists mx' ps', track_fields p s n fto rs re todo i e mx ps = Some (e1, mx', ps').
  Proof.
    induction todo as [|todo IH]; intros i e mx ps e1 H; cbn [sdd_fields track_fields] in *; [injection H as <-; exists mx, ps; reflexivity|].
    destruct (nth_error (e_fields e) i) as [d|]; [|discriminate]. set (d1 := map2 _ d _) in *. destruct (get_denum p (set_field e i d1) i (sdd_time s) n) as [a|]; [|discriminate].
    set (d2 := dsm_dot _ d1) in *. destruct (watch_force (s_dt s) n d2 d mx ps) as [mx1 ps1]. exact (IH _ _ mx1 ps1 _ H).
  Qed.

  Lemma track_fields_spec : forall todo i e mx ps e1 mx' ps', (i + todo <= k)%nat -> length (e_fields e) = k -> all_length n (e_fields e) ->
    track_fields p s n fto rs re todo i e mx ps = Some (e1, mx', ps') ->
    sdd_fields p s n fto rs re todo i e = Some e1
    /\ mx <= mx' /\ (forall a j, (a < todo)%nat -> (j < n)%nat -> move (e_fields e) (e_fields e1) (i + a) j <= mx')
    /\ (mx' = mx \/ exists a j, (a < todo)%nat /\ (j < n)%nat /\ mx' = move (e_fields e) (e_fields e1) (i + a) j)
    /\ ps' = ps + rsum todo (fun a => rsum n (fun j => move (e_fields e) (e_fields e1) (i + a) j * move (e_fields e) (e_fields e1) (i + a) j / INR n)).
  Proof.
    induction todo as [|todo IH]; intros i e mx ps e1 mx' ps' Hi Hk Ha H; cbn [sdd_fields track_fields] in *.
    - injection H as <- <- <-. split; [reflexivity|]. split; [lra|]. split; [intros; lia|]. split; [left; reflexivity|]. cbn [rsum]. ring.
    - destruct (nth_error (e_fields e) i) as [d|] eqn:Ed; [|discriminate].
      set (d1 := map2 _ d _) in *. destruct (get_denum p (set_field e i d1) i (sdd_time s) n) as [a|] eqn:Ea; [|discriminate].
      pose proof (nth_error_all n _ _ _ Ha Ed) as Ld. pose proof (get_denum_length _ _ _ _ _ _ KL Ea) as La.
      assert (Lc : length (chunk n i fto) = n) by (apply (chunk_length n i k); [exact Lf|lia]).
      assert (L1 : length d1 = n).
      { unfold d1. apply StepProofs.map2_length; [exact Ld|]. apply householder_length; [apply (sdd_force_length _ n i rs re k); [assumption|assumption|lia]|exact Lc]. }
      set (d2 := dsm_dot _ d1) in *.
      assert (L2 : length d2 = n) by (apply dsm_dot_length; cbn [m_inv m_u householder_denum]; [rewrite map_length; exact La|exact Lc|exact L1]).
      destruct (watch_force_spec (s_dt s) n d2 d mx ps ltac:(congruence)) as (W1 & W2 & W3 & W4). destruct (watch_force (s_dt s) n d2 d mx ps) as [mx1 ps1]. cbn [fst snd] in *.
      destruct (IH (S i) (set_field e i d2) mx1 ps1 e1 mx' ps') as (F & A & B & D & E).
      + lia.
      + cbn [set_field e_fields]. rewrite set_nth_length. exact Hk.
      + cbn [set_field e_fields]. apply set_nth_all; assumption.
      + exact H.
      + split; [exact F|].
        assert (N1 : nth i (e_fields e1) [] = d2).
        { destruct (sdd_fields_shape p s n k fto rs re KL Lf Lr Le todo (S i) (set_field e i d2) e1 ltac:(lia)) as (_ & _ & S3).
          - cbn [set_field e_fields]. apply set_nth_all; assumption.
          - exact F.
          - apply nth_error_nth. rewrite (S3 i ltac:(lia)). cbn [set_field e_fields]. apply nth_error_set_nth_eq. lia. }
        assert (N0 : nth i (e_fields e) [] = d) by (apply nth_error_nth, Ed).
        assert (Mi : forall j, move (e_fields e) (e_fields e1) i j = dif (s_dt s) d2 d j) by (intros j; unfold move, rate, value_at, dif; rewrite N1, N0; reflexivity).
        assert (Ms : forall a j, move (e_fields e) (e_fields e1) (S i + a) j = move (e_fields (set_field e i d2)) (e_fields e1) (S i + a) j).
        { intros a' j. unfold move, rate, value_at. cbn [set_field e_fields]. do 4 f_equal. destruct (nth_error (e_fields e) (S i + a')) as [x|] eqn:Ex.
          - rewrite (nth_error_nth _ _ _ Ex). symmetry. apply nth_error_nth. rewrite nth_error_set_nth_neq by lia. exact Ex.
          - rewrite !nth_overflow; [reflexivity| |apply nth_error_None, Ex]. rewrite set_nth_length. apply nth_error_None, Ex. }
        rewrite L2 in W2, W3, W4. split; [lra|]. split.
        * intros [|b] j Hb Hj; [rewrite Nat.add_0_r, Mi; apply Rle_trans with mx1; [apply W2, Hj|exact A]|]. replace (i + S b)%nat with (S i + b)%nat by lia. rewrite Ms. apply B; [lia|exact Hj].
        * split.
          -- destruct D as [D|(b & j & Hb & Hj & D)].
             ++ destruct W3 as [W3|(j & Hj & W3)]; [left; congruence|right; exists O, j; split; [lia|]; split; [exact Hj|]; rewrite Nat.add_0_r, Mi; congruence].
             ++ right. exists (S b), j. split; [lia|]. split; [exact Hj|]. replace (i + S b)%nat with (S i + b)%nat by lia. rewrite Ms. exact D.
          -- rewrite rsum_first, E, W4, Nat.add_0_r.
             rewrite (rsum_ext n (fun j => move _ _ i j * _ / INR n) (fun j => dif (s_dt s) d2 d j * dif (s_dt s) d2 d j / INR n)) by (intros j _; rewrite !Mi; reflexivity).
             rewrite (rsum_ext todo (fun a0 => rsum n (fun j => move (e_fields e) (e_fields e1) (i + S a0) j * _ / INR n))
               (fun a0 => rsum n (fun j => move (e_fields (set_field e i d2)) (e_fields e1) (S i + a0) j * move (e_fields (set_field e i d2)) (e_fields e1) (S i + a0) j / INR n))).
             { ring. }
             intros b _. apply rsum_ext. intros j _. replace (i + S b)%nat with (S i + b)%nat by lia. rewrite !Ms. reflexivity.
  Qed.
End Loop.

(** Differences keep their size. *)
Lemma parseval_sub n ft x y : unitary_transform n ft -> length x = n -> length y = n ->
  rsum n (fun j => Cnorm2 (Csub (nth j (fft ft x) C0) (nth j (fft ft y) C0))) = INR n * rsum n (fun j => Cnorm2 (Csub (nth j x C0) (nth j y C0))).
Proof.
  intros U Hx Hy. assert (G := ut_good _ _ U). set (z := map2 (fun u v => Cadd u (Cmul (Copp C1) v)) x y).
  assert (Lz : length z = n) by (apply StepProofs.map2_length; assumption).
  assert (Fx := gt_fft_len _ _ G x Hx). assert (Fy := gt_fft_len _ _ G y Hy).
  assert (P := parseval_re n ft z z U Lz Lz).
  rewrite (rsum_ext n _ (fun k => Re (Cmul (nth k (fft ft z) C0) (Cconj (nth k (fft ft z) C0))))).
  - rewrite P. f_equal. apply rsum_ext. intros j Hj. unfold z. rewrite (map2_nth' _ x y j n Hx Hy Hj). unfold Cnorm2, Cmul, Cconj, Cadd, Csub, Copp, C1. cbn [Re Im fst snd]. ring.
  - intros j Hj. unfold z. rewrite (ut_fft_add n ft U _ x y Hx Hy). rewrite (map2_nth' _ _ _ j n Fx Fy Hj). unfold Cnorm2, Cmul, Cconj, Cadd, Csub, Copp, C1. cbn [Re Im fst snd]. ring.
Qed.
