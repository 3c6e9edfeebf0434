(** Runs of the classical Runge-Kutta step follow the exact solution of
    equations with polynomial right-hand sides with an error of the fourth
    power of the time step (analysis only, no model). *)
From Coq Require Import Reals Lra Lia List FunctionalExtensionality.
From Verif Require Import ConvergeSpec LimitProofs ApproachProofs.
From Verif Require Import Complex OrderProofs OrderProofs2.
Open Scope R_scope.

Ltac gsolve := apply grid_ext; let i := fresh "i" in let k := fresh "k" in intros i k; apply injective_projections;
  repeat (rewrite fst_gadd || rewrite snd_gadd || rewrite fst_gscal || rewrite snd_gscal); cbn [gz fst snd C0]; lra.

Section Runs.
  Variables nf n : nat.
  Variable p : nat -> nat -> pexp.
  Hypothesis HP : forall i k, (i < nf)%nat -> (k < n)%nat -> inside nf n (p i k).
  Notation wi := (within nf n).
  Notation nr := (near nf n).
  Notation f := (ff p).
  Variable Y : R -> grid.
  Variables T B : R.
  Hypothesis HB : 0 <= B.
  Hypothesis HYB : forall t, 0 <= t <= T -> wi B (Y t).
  Hypothesis HY : forall i k t, (i < nf)%nat -> (k < n)%nat -> 0 <= t <= T -> changes (fun s => Y s i k) t (f (Y t) i k).

  Lemma derive_shift g l t s : derivable_pt_lim g (t + s) l -> derivable_pt_lim (fun s => g (t + s)) s l.
  Proof.
    intros H e He. destruct (H e He) as (d & Hd). exists d. intros h Hh Hl. specialize (Hd h Hh Hl). replace (t + (s + h)) with (t + s + h) by ring. exact Hd.
  Qed.
  Lemma boot t h u1 u2 u3 u4 K j : 0 <= t -> t + h <= T -> 0 <= K -> (forall s, 0 <= s <= h -> nr (K * s ^ j) (f (Y (t + s))) (quart' s u1 u2 u3 u4)) ->
    forall s, 0 <= s <= h -> nr (2 * K * s ^ S j) (Y (t + s)) (gadd (Y t) (quart s u1 u2 u3 u4)).
  Proof.
    intros Ht HT HK H s Hs i k Hi Hk.
    pose proof (mean_value (fun c => Csub (Y (t + c) i k) (quart c u1 u2 u3 u4 i k)) (fun c => Csub (f (Y (t + c)) i k) (quart' c u1 u2 u3 u4 i k)) 0 s (K * s ^ j) C0 ltac:(lra)) as M.
    replace (2 * K * s ^ S j) with (2 * (K * s ^ j) * (s - 0)) by (cbn [pow]; ring). unfold gadd.
    replace (Csub (Y (t + s) i k) _) with (Csub (Csub (Csub (Y (t + s) i k) (quart s u1 u2 u3 u4 i k)) (Csub (Y (t + 0) i k) (quart 0 u1 u2 u3 u4 i k))) (Cmul (RtoC (s - 0)) C0)).
    2:{ rewrite (Rplus_0_r t). unfold quart, curve, gadd, gscal. csolve. }
    apply M.
    - intros c Hc. destruct (HY i k (t + c) Hi Hk ltac:(lra)) as [D1_ D2_]. destruct (quart_changes u1 u2 u3 u4 i k c) as [Q1 Q2].
      split; [exact (derivable_pt_lim_minus _ _ _ _ _ (derive_shift _ _ _ _ D1_) Q1)|exact (derivable_pt_lim_minus _ _ _ _ _ (derive_shift _ _ _ _ D2_) Q2)].
    - intros c Hc. replace (Csub (Csub (f (Y (t + c)) i k) (quart' c u1 u2 u3 u4 i k)) C0) with (Csub (f (Y (t + c)) i k) (quart' c u1 u2 u3 u4 i k)) by csolve.
      eapply Rle_trans; [apply (H c ltac:(lra) i k Hi Hk)|]. apply Rmult_le_compat_l; [exact HK|]. apply pow_incr. lra.
  Qed.
  Lemma quart_curve s u1 u2 u3 : quart s u1 u2 u3 gz = curve s u1 u2 u3.
  Proof. apply grid_ext. intros i k. unfold quart, gadd, gscal, gz. csolve. Qed.
  Lemma curve_at_zero s : curve s gz gz gz = gz.
  Proof. apply grid_ext. intros i k. unfold curve, gadd, gscal, gz. csolve. Qed.
  Lemma gadd_gz x : gadd x gz = x.
  Proof. apply grid_ext. intros i k. unfold gadd, gz. csolve. Qed.

  Lemma solution_expansion : exists C h0, 0 <= C /\ 0 < h0 /\ forall t h, 0 <= t -> t + h <= T -> 0 < h <= h0 ->
    nr (C * h ^ 5) (Y (t + h)) (gadd (Y t) (quart h (f (Y t)) (a2 p (Y t)) (a3 p (Y t)) (a4 p (Y t)))).
  Proof.
    destruct (local_step nf n p HP B HB) as (R & h1 & HR & Ph1 & HL). destruct (constants_exist nf n p HP (B + 1) R ltac:(lra) HR) as (K & CK). assert (PK := ck_pos _ _ _ _ _ _ CK).
    set (h0 := / (1 + 3 * R)). assert (Ph0 : 0 < h0) by (apply Rinv_0_lt_compat; lra). assert (h01 : h0 <= 1) by (unfold h0; rewrite <- Rinv_1; apply Rinv_le_contravar; lra).
    set (c0 := 2 * K). set (c1 := 2 * (K * c0)). set (c2 := 2 * (K * c1 + K + (K * (R * R) + K * (R * R * R)))). set (c3 := 2 * (K * c2 + K + (K * (R * R) + K * (R * R) + K * (R * R * R)))).
    set (c4 := 2 * (K * c3 + K)).
    assert (RR : 0 <= K * (R * R)) by (repeat apply Rmult_le_pos; assumption). assert (RRR : 0 <= K * (R * R * R)) by (repeat apply Rmult_le_pos; assumption).
    assert (P0 : 0 <= c0) by (unfold c0; lra). assert (P1 : 0 <= K * c0) by (apply Rmult_le_pos; assumption). assert (P1' : 0 <= c1) by (unfold c1; lra).
    assert (P2 : 0 <= K * c1) by (apply Rmult_le_pos; assumption). assert (P2' : 0 <= c2) by (unfold c2; lra). assert (P3 : 0 <= K * c2) by (apply Rmult_le_pos; assumption). assert (P3' : 0 <= c3) by (unfold c3; lra).
    assert (P4 : 0 <= K * c3) by (apply Rmult_le_pos; assumption).
    exists c4, h0. split; [unfold c4; lra|]. split; [exact Ph0|]. intros t h Ht HTh Hh.
    assert (Hx : wi B (Y t)) by (apply HYB; lra). assert (Wx : wi (B + 1) (Y t)) by (apply (wi_mono nf n B); [exact Hx|lra]).
    destruct (HL (Rmin h1 1) (Y t)) as (_ & WF & WA2 & WA3 & WA4); [split; [apply Rmin_pos; lra|apply Rmin_l]|exact Hx|].
    set (x := Y t) in *. set (F := f x) in *. set (A2 := a2 p x) in *. set (A3 := a3 p x) in *. set (A4 := a4 p x) in *.
    assert (Wgz : wi R gz) by (apply (wi_mono nf n 0); [apply wi_gz|exact HR]).
    assert (H3 : 3 * R * h <= 1). { apply Rle_trans with ((1 + 3 * R) * h0); [|unfold h0; rewrite Rinv_r by lra; lra]. apply Rle_trans with ((1 + 3 * R) * h); [lra|]. apply Rmult_le_compat_l; lra. }
    assert (Rs : forall s, 0 <= s <= h -> 3 * R * s <= 1) by (intros s Hs; apply Rle_trans with (3 * R * h); [apply Rmult_le_compat_l; lra|exact H3]).
    assert (WY : forall s, 0 <= s <= h -> wi (B + 1) (Y (t + s))) by (intros s Hs; apply (wi_mono nf n B); [apply HYB; lra|lra]).
    assert (Cv : forall s u1 u2 u3, 0 <= s <= h -> wi R u1 -> wi R u2 -> wi R u3 -> wi (B + 1) (gadd x (curve s u1 u2 u3))).
    { intros s u1 u2 u3 Hs H1 H2 H4. apply wi_add; [exact Hx|]. eapply wi_mono; [apply wi_add; [apply wi_scal, H1|apply wi_add; apply wi_scal; eassumption]|].
      specialize (Rs s Hs). rewrite !Rabs_right by (try apply Rle_ge, pow_le; lra). assert (s ^ 2 <= s) by (cbn [pow]; nra). assert (s ^ 3 <= s) by (cbn [pow]; nra). nra. }
    (* one more order *)
    assert (advance : forall c m u1 u2 u3, 0 <= c -> wi R u1 -> wi R u2 -> wi R u3 ->
      (forall s, 0 <= s <= h -> nr (c * s ^ m) (Y (t + s)) (gadd x (curve s u1 u2 u3))) ->
      forall s, 0 <= s <= h -> nr (K * (c * s ^ m) + K * s ^ 4) (f (Y (t + s))) (alongs p x u1 u2 u3 s)).
    { intros c m u1 u2 u3 Hc H1 H2 H4 HN s Hs. eapply nr_tri; [|apply (ck_along _ _ _ _ _ _ CK); try assumption; [lra|apply Rs, Hs]].
      apply (ck_lip _ _ _ _ _ _ CK); [apply Rmult_le_pos; [exact Hc|apply pow_le; lra]|apply WY, Hs|apply Cv; assumption|apply HN, Hs]. }
    assert (pw : forall s m q, (m <= q)%nat -> 0 <= s <= h -> 0 <= s ^ q <= s ^ m).
    { intros s m q Hm Hs. split; [apply pow_le; lra|]. replace q with (m + (q - m))%nat by lia. rewrite pow_add. rewrite <- (Rmult_1_r (s ^ m)) at 2. apply Rmult_le_compat_l; [apply pow_le; lra|].
      rewrite <- (pow1 (q - m)). apply pow_incr. lra. }
    (* order 0 *)
    assert (N0 : forall s, 0 <= s <= h -> nr (c0 * s ^ 1) (Y (t + s)) x).
    { intros s Hs. rewrite <- (gadd_gz x). rewrite <- (curve_at_zero s), <- quart_curve. apply (boot t h gz gz gz gz K 0 Ht HTh PK); [|exact Hs]. intros s' Hs' i k Hi Hk.
      rewrite pow_O, Rmult_1_r. unfold quart', gadd, gscal, gz. replace (Csub _ _) with (f (Y (t + s')) i k) by csolve. apply (ck_val _ _ _ _ _ _ CK); [apply WY, Hs'|exact Hi|exact Hk]. }
    (* order 1 *)
    assert (N1 : forall s, 0 <= s <= h -> nr (c1 * s ^ 2) (Y (t + s)) (gadd x (curve s F gz gz))).
    { intros s Hs. rewrite <- quart_curve. unfold c1. apply (boot t h F gz gz gz (K * c0) 1 Ht HTh P1); [|exact Hs]. intros s' Hs'.
      assert (Eq : quart' s' F gz gz gz = f x) by (apply grid_ext; intros i k; unfold quart', gadd, gscal, gz; fold F; csolve). rewrite Eq, Rmult_assoc.
      apply (ck_lip _ _ _ _ _ _ CK); [apply Rmult_le_pos; [exact P0|apply pow_le; lra]|apply WY, Hs'|exact Wx|apply N0, Hs']. }
    assert (WD2 : wi (K * (R * R)) (D2 p x F F)) by (apply (ck_d2 _ _ _ _ _ _ CK); assumption).
    assert (WD3 : wi (K * (R * R * R)) (D3 p x F F F)) by (apply (ck_d3 _ _ _ _ _ _ CK); assumption).
    assert (WD2a : wi (K * (R * R)) (D2 p x F A2)) by (apply (ck_d2 _ _ _ _ _ _ CK); assumption). assert (WD2b : wi (K * (R * R)) (D2 p x A2 F)) by (apply (ck_d2 _ _ _ _ _ _ CK); assumption).
    assert (EA2 : D1 p x F = gscal 2 A2) by (unfold A2, a2; fold F; gsolve). assert (EA3 : D2 p x F F = gadd (gscal 3 A3) (gscal (-1) (D1 p x A2))) by (unfold A3, a3; fold A2 F; gsolve).
    (* order 2 *)
    assert (N2 : forall s, 0 <= s <= h -> nr (c2 * s ^ 3) (Y (t + s)) (gadd x (curve s F A2 gz))).
    { intros s Hs. rewrite <- quart_curve. unfold c2. apply (boot t h F A2 gz gz _ 2 Ht HTh); [lra| |exact Hs]. intros s' Hs'.
      eapply nr_mono; [apply (nr_tri nf n _ (alongs p x F gz gz s')); [apply (advance c1 2%nat F gz gz P1' WF Wgz Wgz N1 s' Hs')|]|].
      - assert (Eq : alongs p x F gz gz s' = gadd (quart' s' F A2 gz gz) (gadd (gscal (s' ^ 2) (D2 p x F F)) (gscal (s' ^ 3) (D3 p x F F F)))).
        { rewrite alongs_at, (gz_scal F). rewrite !D1_scal, D2_scal_l, D2_scal_r, EA2. unfold quart'. fold F. gsolve. }
        rewrite Eq. apply nr_more. apply wi_add; apply wi_scal; eassumption.
      - destruct (pw s' 2%nat 4%nat ltac:(lia) Hs') as [U1 U2]. destruct (pw s' 2%nat 3%nat ltac:(lia) Hs') as [U3 U4].
        rewrite !Rabs_right by (apply Rle_ge, pow_le; lra).
        assert (K * s' ^ 4 <= K * s' ^ 2) by (apply Rmult_le_compat_l; lra). assert (s' ^ 3 * (K * (R * R * R)) <= s' ^ 2 * (K * (R * R * R))) by (apply Rmult_le_compat_r; lra). lra. }
    (* order 3 *)
    assert (N3 : forall s, 0 <= s <= h -> nr (c3 * s ^ 4) (Y (t + s)) (gadd x (curve s F A2 A3))).
    { intros s Hs. rewrite <- quart_curve. unfold c3. apply (boot t h F A2 A3 gz _ 3 Ht HTh); [lra| |exact Hs]. intros s' Hs'.
      eapply nr_mono; [apply (nr_tri nf n _ (alongs p x F A2 gz s')); [apply (advance c2 3%nat F A2 gz P2' WF WA2 Wgz N2 s' Hs')|]|].
      - assert (Eq : alongs p x F A2 gz s' = gadd (quart' s' F A2 A3 gz) (gscal (s' ^ 3) (gadd (gadd (D2 p x F A2) (D2 p x A2 F)) (D3 p x F F F)))).
        { rewrite alongs_at, (gz_scal F). rewrite !D1_scal. unfold quart'. rewrite EA2, EA3. fold F. gsolve. }
        rewrite Eq. apply nr_more. apply wi_scal. apply wi_add; [apply wi_add; eassumption|eassumption].
      - destruct (pw s' 3%nat 4%nat ltac:(lia) Hs') as [U1 U2].
        rewrite !Rabs_right by (apply Rle_ge, pow_le; lra). assert (K * s' ^ 4 <= K * s' ^ 3) by (apply Rmult_le_compat_l; lra). lra. }
    (* order 4 *)
    assert (Hhh : 0 <= h <= h) by lra. unfold c4. apply (boot t h F A2 A3 A4 _ 4 Ht HTh); [lra| |exact Hhh]. intros s' Hs'.
    assert (Eq : quart' s' F A2 A3 A4 = alongs p x F A2 A3 s').
    { rewrite alongs_at. unfold quart'. rewrite EA2, EA3. unfold A4, a4. fold A3 A2 F. gsolve. }
    rewrite Eq. eapply nr_mono; [apply (advance c3 4%nat F A2 A3 P3' WF WA2 WA3 N3 s' Hs')|]. lra.
  Qed.

  Theorem fourth_order : exists D h0, 0 <= D /\ 0 < h0 /\ forall h N (st : nat -> grid), 0 < h <= h0 -> INR N * h <= T ->
    (forall i k, (i < nf)%nat -> (k < n)%nat -> st 0%nat i k = Y 0 i k) ->
    (forall m, (m < N)%nat -> forall i k, (i < nf)%nat -> (k < n)%nat -> st (S m) i k = Phi p h (st m) i k) ->
    forall m, (m <= N)%nat -> nr (D * h ^ 4) (st m) (Y (INR m * h)).
  Proof.
    destruct solution_expansion as (C1_ & h1 & HC1 & Ph1 & HS). destruct (local_step nf n p HP B HB) as (C2_ & h2 & HC2 & Ph2 & HL).
    destruct (constants_exist nf n p HP (B + 1 + 1) 0 ltac:(lra) ltac:(lra)) as (K & CK). assert (PK := ck_pos _ _ _ _ _ _ CK).
    set (C := 2 * K + C1_ + C2_). assert (HC : 0 <= C) by (unfold C; lra). set (D := exp (C * T)). assert (HD : 0 < D) by apply exp_pos.
    set (h3 := / (1 + D + K)). assert (Ph3 : 0 < h3) by (apply Rinv_0_lt_compat; lra). assert (h31 : h3 <= 1) by (unfold h3; rewrite <- Rinv_1; apply Rinv_le_contravar; lra).
    exists D, (Rmin h3 (Rmin h1 h2)). split; [lra|]. split; [repeat apply Rmin_pos; assumption|].
    intros h N st [Hh Hhm] HN H0 HS1. assert (L3 := Rmin_l h3 (Rmin h1 h2)). assert (Lr := Rmin_r h3 (Rmin h1 h2)). assert (L1 := Rmin_l h1 h2). assert (L2 := Rmin_r h1 h2).
    assert (Hh3 : (1 + D + K) * h <= 1). { apply Rle_trans with ((1 + D + K) * h3); [apply Rmult_le_compat_l; lra|]. unfold h3. rewrite Rinv_r by lra. lra. }
    assert (KH : K * h <= 1) by nra. assert (DH : D * h <= 1) by nra. assert (h3p : 0 < h ^ 3 <= 1) by (split; [apply pow_lt, Hh|rewrite <- (pow1 3); apply pow_incr; lra]).
    assert (G : forall m, (m <= N)%nat -> 0 <= h ^ 4 * ((1 + C * h) ^ m - 1) <= D * h ^ 4).
    { intros m Hm. pose proof (grown C T h N m HC Hh HN Hm) as [G1 G2]. fold D in G2. replace (h ^ 4) with (h ^ 3 * h) by ring. split; nra. }
    assert (Main : forall m, (m <= N)%nat -> nr (h ^ 4 * ((1 + C * h) ^ m - 1)) (st m) (Y (INR m * h))).
    { induction m as [|m IH]; intros Hm.
      - intros i k Hi Hk. rewrite (H0 i k Hi Hk). change (INR 0) with 0. rewrite Rmult_0_l. replace (Csub _ _) with C0 by csolve. rewrite size_0. cbn [pow]. lra.
      - specialize (IH ltac:(lia)). destruct (G m ltac:(lia)) as [G1 G2]. set (E := h ^ 4 * ((1 + C * h) ^ m - 1)) in *.
        assert (E1 : E <= 1) by (apply Rle_trans with (1 := G2); replace (h ^ 4) with (h * h ^ 3) by ring; nra).
        set (t := INR m * h) in *. assert (Tt : t + h <= T). { apply Rle_trans with (2 := HN). unfold t. replace (INR m * h + h) with (INR (S m) * h) by (rewrite S_INR; ring). apply Rmult_le_compat_r; [lra|]. apply le_INR. exact Hm. }
        assert (T0 : 0 <= t) by (apply Rmult_le_pos; [apply pos_INR|lra]).
        assert (Wy : wi B (Y t)) by (apply HYB; lra). assert (Wy1 : wi (B + 1) (Y t)) by (apply (wi_mono nf n B); [exact Wy|lra]).
        assert (Ws : wi (B + 1) (st m)) by (apply (wi_mono nf n (B + E)); [apply (wi_near nf n E B _ _ IH Wy)|lra]).
        pose proof (stable nf n p (B + 1) 0 K h E (st m) (Y t) ltac:(lra) CK ltac:(lra) KH G1 Ws Wy1 IH) as S1.
        destruct (HL h (Y t) ltac:(lra) Wy) as (S2 & _). pose proof (HS t h T0 Tt ltac:(lra)) as S3.
        replace (INR (S m) * h) with (t + h) by (unfold t; rewrite S_INR; ring).
        intros i k Hi Hk. rewrite (HS1 m ltac:(lia) i k Hi Hk). revert i k Hi Hk.
        change (nr (h ^ 4 * ((1 + C * h) ^ S m - 1)) (Phi p h (st m)) (Y (t + h))).
        eapply nr_mono; [eapply nr_tri; [exact S1|eapply nr_tri; [exact S2|apply nr_sym; exact S3]]|].
        assert (h5 : 0 <= h ^ 5) by (apply pow_le; lra). assert (hE : 0 <= h * E) by (apply Rmult_le_pos; lra).
        replace (h ^ 4 * ((1 + C * h) ^ S m - 1)) with ((1 + C * h) * E + C * h ^ 5) by (unfold E; cbn [pow]; ring).
        assert (2 * K * (h * E) <= C * (h * E)) by (apply Rmult_le_compat_r; [exact hE|unfold C; lra]). assert ((C1_ + C2_) * h ^ 5 <= C * h ^ 5) by (apply Rmult_le_compat_r; [exact h5|unfold C; lra]). lra. }
    intros m Hm. eapply nr_mono; [apply Main, Hm|apply G, Hm].
  Qed.
End Runs.
