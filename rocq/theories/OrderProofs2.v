(** The classical Runge-Kutta step for polynomial right-hand sides agrees with
    the exact solution up to the fifth power of the time step (analysis only,
    no model). *)
From Coq Require Import Reals Lra Lia List FunctionalExtensionality.
From Verif Require Import ConvergeSpec LimitProofs.
From Verif Require Import Complex OrderProofs.
Open Scope R_scope.

Section Order.
  Variables nf n : nat.
  Variable p : nat -> nat -> pexp.
  Hypothesis HP : forall i k, (i < nf)%nat -> (k < n)%nat -> inside nf n (p i k).
  Notation wi := (within nf n).
  Notation nr := (near nf n).
  Definition ff (x : grid) : grid := fun i k => eval (p i k) x.
  Definition D1 (x a : grid) : grid := fun i k => d1 (p i k) x a.
  Definition D2 (x a b : grid) : grid := fun i k => d2 (p i k) x a b.
  Definition D3 (x a b c : grid) : grid := fun i k => d3 (p i k) x a b c.
  Definition alongs (x u1 u2 u3 : grid) (s : R) : grid := fun i k => along (p i k) x u1 u2 u3 s.
  Definition gz : grid := fun _ _ => C0.

  Lemma grid_ext (a b : grid) : (forall i k, a i k = b i k) -> a = b.
  Proof. intros H. apply functional_extensionality. intros i. apply functional_extensionality. intros k. apply H. Qed.
  Lemma fst_gadd a b i k : fst (gadd a b i k) = fst (a i k) + fst (b i k).
  Proof. reflexivity. Qed.
  Lemma snd_gadd a b i k : snd (gadd a b i k) = snd (a i k) + snd (b i k).
  Proof. reflexivity. Qed.
  Lemma fst_gscal c a i k : fst (gscal c a i k) = c * fst (a i k).
  Proof. unfold gscal, Cmul, RtoC, Re, Im. cbn [fst snd]. ring. Qed.
  Lemma snd_gscal c a i k : snd (gscal c a i k) = c * snd (a i k).
  Proof. unfold gscal, Cmul, RtoC, Re, Im. cbn [fst snd]. ring. Qed.
  Ltac gsolve := apply grid_ext; let i := fresh "i" in let k := fresh "k" in intros i k; apply injective_projections;
    repeat (rewrite fst_gadd || rewrite snd_gadd || rewrite fst_gscal || rewrite snd_gscal); lra.
  Lemma D1_add x a b : D1 x (gadd a b) = gadd (D1 x a) (D1 x b).
  Proof. apply grid_ext. intros i k. apply d1_add. Qed.
  Lemma D1_scal x c a : D1 x (gscal c a) = gscal c (D1 x a).
  Proof. apply grid_ext. intros i k. apply d1_scal. Qed.
  Lemma D2_add_l x a b c : D2 x (gadd a b) c = gadd (D2 x a c) (D2 x b c).
  Proof. apply grid_ext. intros i k. apply d2_add_l. Qed.
  Lemma D2_add_r x a b c : D2 x a (gadd b c) = gadd (D2 x a b) (D2 x a c).
  Proof. apply grid_ext. intros i k. apply d2_add_r. Qed.
  Lemma D2_scal_l x s a b : D2 x (gscal s a) b = gscal s (D2 x a b).
  Proof. apply grid_ext. intros i k. apply d2_scal_l. Qed.
  Lemma D2_scal_r x s a b : D2 x a (gscal s b) = gscal s (D2 x a b).
  Proof. apply grid_ext. intros i k. apply d2_scal_r. Qed.
  Lemma D3_scal_1 x s a b c : D3 x (gscal s a) b c = gscal s (D3 x a b c).
  Proof. apply grid_ext. intros i k. apply d3_scal_1. Qed.
  Lemma D3_scal_2 x s a b c : D3 x a (gscal s b) c = gscal s (D3 x a b c).
  Proof. apply grid_ext. intros i k. apply d3_scal_2. Qed.
  Lemma D3_scal_3 x s a b c : D3 x a b (gscal s c) = gscal s (D3 x a b c).
  Proof. apply grid_ext. intros i k. apply d3_scal_3. Qed.
  Lemma gz_scal a : gz = gscal 0 a.
  Proof. apply grid_ext. intros i k. unfold gz, gscal. csolve. Qed.
  Lemma alongs_at x u1 u2 u3 s : alongs x u1 u2 u3 s
    = gadd (gadd (ff x) (gscal s (D1 x u1))) (gadd (gscal (s ^ 2) (gadd (D1 x u2) (D2 x u1 u1)))
        (gscal (s ^ 3) (gadd (gadd (D1 x u3) (gadd (D2 x u1 u2) (D2 x u2 u1))) (D3 x u1 u1 u1)))).
  Proof. reflexivity. Qed.

  (** Constants that serve all fields and frequencies. *)
  Record constants (r R K : R) : Prop := {
    ck_pos : 0 <= K;
    ck_val : forall x, wi r x -> wi K (ff x);
    ck_d1 : forall x a e, wi r x -> 0 <= e -> wi e a -> wi (K * e) (D1 x a);
    ck_d2 : forall x a b e f, wi r x -> 0 <= e -> 0 <= f -> wi e a -> wi f b -> wi (K * (e * f)) (D2 x a b);
    ck_d3 : forall x a b c e f g, wi r x -> 0 <= e -> 0 <= f -> 0 <= g -> wi e a -> wi f b -> wi g c -> wi (K * (e * f * g)) (D3 x a b c);
    ck_lip : forall x y e, 0 <= e -> wi r x -> wi r y -> nr e x y -> nr (K * e) (ff x) (ff y);
    ck_along : forall x u1 u2 u3 s, wi r x -> wi R u1 -> wi R u2 -> wi R u3 -> 0 <= s <= 1 -> 3 * R * s <= 1 ->
      nr (K * s ^ 4) (ff (gadd x (curve s u1 u2 u3))) (alongs x u1 u2 u3 s)
  }.
  Lemma constants_exist r R : 0 <= r -> 0 <= R -> exists K, constants r R K.
  Proof.
    intros Hr HR.
    destruct (bound_over2 nf n (fun i k K => 0 <= K /\ (forall x, wi r x ->
      size (eval (p i k) x) <= K /\ (forall a e, 0 <= e -> wi e a -> size (d1 (p i k) x a) <= K * e)
      /\ (forall a b e f, 0 <= e -> 0 <= f -> wi e a -> wi f b -> size (d2 (p i k) x a b) <= K * (e * f))
      /\ (forall a b c e f g, 0 <= e -> 0 <= f -> 0 <= g -> wi e a -> wi f b -> wi g c -> size (d3 (p i k) x a b c) <= K * (e * f * g)))
      /\ (forall x y e, 0 <= e -> wi r x -> wi r y -> near nf n e x y -> size (Csub (eval (p i k) x) (eval (p i k) y)) <= K * e)
      /\ (forall x u1 u2 u3 s, wi r x -> wi R u1 -> wi R u2 -> wi R u3 -> 0 <= s <= 1 -> 3 * R * s <= 1 ->
          size (Csub (eval (p i k) (gadd x (curve s u1 u2 u3))) (along (p i k) x u1 u2 u3 s)) <= K * s ^ 4))) as (K & HK & H).
    - intros i k b b' (P0 & P1 & P2 & P3) Hb. split; [lra|]. split; [|split].
      + intros x Hx. destruct (P1 x Hx) as (Q0 & Q1 & Q2 & Q3). split; [lra|].
        split; [intros a e He Ha; apply Rle_trans with (1 := Q1 a e He Ha); apply Rmult_le_compat_r; assumption|].
        split; [intros a c e f He Hf Ha Hc; apply Rle_trans with (1 := Q2 a c e f He Hf Ha Hc); apply Rmult_le_compat_r; [apply Rmult_le_pos; assumption|assumption]|].
        intros a c d e f g He Hf Hg Ha Hc Hd. apply Rle_trans with (1 := Q3 a c d e f g He Hf Hg Ha Hc Hd). apply Rmult_le_compat_r; [repeat apply Rmult_le_pos; assumption|assumption].
      + intros x y e He Hx Hy Hn. apply Rle_trans with (1 := P2 x y e He Hx Hy Hn). apply Rmult_le_compat_r; assumption.
      + intros x u1 u2 u3 s Hx H1 H2 H3 Hs Hs3. apply Rle_trans with (1 := P3 x u1 u2 u3 s Hx H1 H2 H3 Hs Hs3). apply Rmult_le_compat_r; [apply pow_le; lra|assumption].
    - intros i k Hi Hk. destruct (derivative_bounds nf n (p i k) (HP i k Hi Hk) r Hr) as (K1 & HK1 & B1). destruct (eval_lipschitz nf n (p i k) (HP i k Hi Hk) r Hr) as (K2 & HK2 & B2).
      destruct (along_curve nf n (p i k) (HP i k Hi Hk) r R Hr HR) as (K3 & HK3 & B3). exists (K1 + K2 + K3). split; [lra|]. split; [|split].
      + intros x Hx. destruct (B1 x Hx) as (Q0 & Q1 & Q2 & Q3). split; [lra|].
        split; [intros a e He Ha; apply Rle_trans with (1 := Q1 a e He Ha); apply Rmult_le_compat_r; lra|].
        split; [intros a c e f He Hf Ha Hc; apply Rle_trans with (1 := Q2 a c e f He Hf Ha Hc); apply Rmult_le_compat_r; [apply Rmult_le_pos; assumption|lra]|].
        intros a c d e f g He Hf Hg Ha Hc Hd. apply Rle_trans with (1 := Q3 a c d e f g He Hf Hg Ha Hc Hd). apply Rmult_le_compat_r; [repeat apply Rmult_le_pos; assumption|lra].
      + intros x y e He Hx Hy Hn. apply Rle_trans with (1 := B2 x y e He Hx Hy Hn). apply Rmult_le_compat_r; lra.
      + intros x u1 u2 u3 s Hx H1 H2 H3 Hs Hs3. apply Rle_trans with (1 := B3 x u1 u2 u3 s Hx H1 H2 H3 Hs Hs3). apply Rmult_le_compat_r; [apply pow_le; lra|lra].
    - exists K. split; [exact HK| | | | | |].
      + intros x Hx i k Hi Hk. apply (H i k Hi Hk), Hx.
      + intros x a e Hx He Ha i k Hi Hk. apply (H i k Hi Hk); assumption.
      + intros x a b e f Hx He Hf Ha Hb i k Hi Hk. apply (H i k Hi Hk); assumption.
      + intros x a b c e f g Hx He Hf Hg Ha Hb Hc i k Hi Hk. apply (H i k Hi Hk); assumption.
      + intros x y e He Hx Hy Hn i k Hi Hk. apply (H i k Hi Hk); assumption.
      + intros x u1 u2 u3 s Hx H1 H2 H3 Hs Hs3 i k Hi Hk. apply (H i k Hi Hk); assumption.
  Qed.

  (** Sums of bounded and of close grids. *)
  Lemma wi_add a b e f : wi e a -> wi f b -> wi (e + f) (gadd a b).
  Proof. intros H1 H2 i k Hi Hk. apply size_add_le; auto. Qed.
  Lemma wi_scal c a e : wi e a -> wi (Rabs c * e) (gscal c a).
  Proof. intros H i k Hi Hk. apply size_scal. auto. Qed.
  Lemma wi_mono e f a : wi e a -> e <= f -> wi f a.
  Proof. intros H Hl i k Hi Hk. specialize (H i k Hi Hk). lra. Qed.
  Lemma wi_gz : wi 0 gz.
  Proof. intros i k _ _. unfold gz. rewrite size_0. lra. Qed.
  Lemma nr_refl a : nr 0 a a.
  Proof. intros i k _ _. replace (Csub (a i k) (a i k)) with C0 by csolve. rewrite size_0. lra. Qed.
  Lemma nr_sym a b e : nr e a b -> nr e b a.
  Proof. intros H i k Hi Hk. rewrite size_sub_sym. auto. Qed.
  Lemma nr_add a b c d e f : nr e a b -> nr f c d -> nr (e + f) (gadd a c) (gadd b d).
  Proof. intros H1 H2 i k Hi Hk. unfold gadd. replace (Csub _ _) with (Cadd (Csub (a i k) (b i k)) (Csub (c i k) (d i k))) by csolve. apply size_add_le; auto. Qed.
  Lemma nr_scal s a b e : nr e a b -> nr (Rabs s * e) (gscal s a) (gscal s b).
  Proof. intros H i k Hi Hk. unfold gscal. replace (Csub _ _) with (Cmul (RtoC s) (Csub (a i k) (b i k))) by csolve. apply size_scal. auto. Qed.
  Lemma nr_tri a b c e f : nr e a b -> nr f b c -> nr (e + f) a c.
  Proof. intros H1 H2 i k Hi Hk. eapply Rle_trans; [apply (size_tri _ (b i k))|]. specialize (H1 i k Hi Hk). specialize (H2 i k Hi Hk). lra. Qed.
  Lemma nr_mono e f a b : nr e a b -> e <= f -> nr f a b.
  Proof. intros H Hl i k Hi Hk. specialize (H i k Hi Hk). lra. Qed.
  Lemma nr_more a d e : wi e d -> nr e (gadd a d) a.
  Proof. intros H i k Hi Hk. unfold gadd. replace (Csub _ _) with (d i k) by csolve. auto. Qed.
  Lemma wi_near e f a b : nr e a b -> wi f b -> wi (f + e) a.
  Proof. intros H1 H2 i k Hi Hk. eapply Rle_trans; [apply (size_of_sub _ (b i k))|]. specialize (H1 i k Hi Hk). specialize (H2 i k Hi Hk). lra. Qed.

  (** The coefficients of the exact solution. *)
  Definition a2 (x : grid) : grid := gscal (/ 2) (D1 x (ff x)).
  Definition a3 (x : grid) : grid := gscal (/ 3) (gadd (D1 x (a2 x)) (D2 x (ff x) (ff x))).
  Definition a4 (x : grid) : grid := gscal (/ 4) (gadd (gadd (D1 x (a3 x)) (gadd (D2 x (ff x) (a2 x)) (D2 x (a2 x) (ff x)))) (D3 x (ff x) (ff x) (ff x))).
  Definition quart (s : R) (u1 u2 u3 u4 : grid) : grid := gadd (curve s u1 u2 u3) (gscal (s ^ 4) u4).
  Definition quart' (s : R) (u1 u2 u3 u4 : grid) : grid := gadd (gadd u1 (gscal (2 * s) u2)) (gadd (gscal (3 * s ^ 2) u3) (gscal (4 * s ^ 3) u4)).
  Lemma quart_changes u1 u2 u3 u4 i k s : changes (fun s => quart s u1 u2 u3 u4 i k) s (quart' s u1 u2 u3 u4 i k).
  Proof.
    unfold quart, quart', curve, gadd, gscal, changes, Cadd, Cmul, RtoC, Re, Im. split; cbn [fst snd].
    - apply (derivable_pt_lim_ext (fun s => fst (u1 i k) * s + fst (u2 i k) * s ^ 2 + fst (u3 i k) * s ^ 3 + fst (u4 i k) * s ^ 4)); [intros z; cbn [fst snd]; ring|].
      replace (_ + _) with (fst (u1 i k) * 1 + fst (u2 i k) * (INR 2 * s ^ 1) + fst (u3 i k) * (INR 3 * s ^ 2) + fst (u4 i k) * (INR 4 * s ^ 3)) by (cbn [INR pow]; ring).
      repeat apply derivable_pt_lim_plus; apply derivable_pt_lim_scal; [apply derivable_pt_lim_id|apply derivable_pt_lim_pow ..].
    - apply (derivable_pt_lim_ext (fun s => snd (u1 i k) * s + snd (u2 i k) * s ^ 2 + snd (u3 i k) * s ^ 3 + snd (u4 i k) * s ^ 4)); [intros z; cbn [fst snd]; ring|].
      replace (_ + _) with (snd (u1 i k) * 1 + snd (u2 i k) * (INR 2 * s ^ 1) + snd (u3 i k) * (INR 3 * s ^ 2) + snd (u4 i k) * (INR 4 * s ^ 3)) by (cbn [INR pow]; ring).
      repeat apply derivable_pt_lim_plus; apply derivable_pt_lim_scal; [apply derivable_pt_lim_id|apply derivable_pt_lim_pow ..].
  Qed.

  (** The step of the program. *)
  Definition k2 (h : R) (x : grid) : grid := ff (gadd x (gscal (h / 2) (ff x))).
  Definition k3 (h : R) (x : grid) : grid := ff (gadd x (gscal (h / 2) (k2 h x))).
  Definition k4 (h : R) (x : grid) : grid := ff (gadd x (gscal h (k3 h x))).
  Definition Phi (h : R) (x : grid) : grid := gadd x (gscal h (gadd (gadd (gscal (/ 6) (ff x)) (gscal (/ 3) (k2 h x))) (gadd (gscal (/ 3) (k3 h x)) (gscal (/ 6) (k4 h x))))).

  (** Stability. *)
  Lemma stable r R K h E x y : 0 <= r -> constants (r + 1) R K -> 0 < h <= 1 -> K * h <= 1 -> 0 <= E -> wi r x -> wi r y -> nr E x y ->
    nr ((1 + 2 * K * h) * E) (Phi h x) (Phi h y).
  Proof.
    intros Hr CK Hh Hk HE Hx Hy Hn. assert (PK := ck_pos _ _ _ CK).
    assert (W1 : forall z, wi r z -> wi (r + 1) z) by (intros z Hz; apply (wi_mono r); [exact Hz|lra]).
    assert (St : forall th z k, 0 <= th <= h -> wi r z -> wi K k -> wi (r + 1) (gadd z (gscal th k))).
    { intros th z k Hth Hz Hkk. apply wi_add; [exact Hz|]. apply (wi_mono (Rabs th * K)); [apply wi_scal, Hkk|]. rewrite Rabs_right by lra. nra. }
    assert (KE : 0 <= K * E) by (apply Rmult_le_pos; assumption).
    assert (Nx : forall th a b e, 0 <= th -> nr e a b -> nr (E + th * e) (gadd x (gscal th a)) (gadd y (gscal th b))).
    { intros th a b e Hth H. apply nr_add; [exact Hn|]. apply (nr_mono (Rabs th * e)); [apply nr_scal, H|]. rewrite Rabs_right by lra. lra. }
    assert (hKE : K * E * h <= E) by nra. assert (hKE0 : 0 <= K * E * h) by (apply Rmult_le_pos; lra).
    assert (V1 : wi K (ff x)) by (apply (ck_val _ _ _ CK), W1, Hx). assert (V1' : wi K (ff y)) by (apply (ck_val _ _ _ CK), W1, Hy).
    assert (N1 : nr (K * E) (ff x) (ff y)) by (apply (ck_lip _ _ _ CK); auto).
    assert (S2 : wi (r + 1) (gadd x (gscal (h / 2) (ff x)))) by (apply St; [lra|assumption|assumption]).
    assert (S2' : wi (r + 1) (gadd y (gscal (h / 2) (ff y)))) by (apply St; [lra|assumption|assumption]).
    assert (V2 : wi K (k2 h x)) by (apply (ck_val _ _ _ CK), S2). assert (V2' : wi K (k2 h y)) by (apply (ck_val _ _ _ CK), S2').
    assert (N2 : nr (K * (2 * E)) (k2 h x) (k2 h y)).
    { apply (ck_lip _ _ _ CK); [lra|exact S2|exact S2'|]. apply (nr_mono (E + h / 2 * (K * E))); [apply Nx; [lra|exact N1]|]. lra. }
    assert (S3 : wi (r + 1) (gadd x (gscal (h / 2) (k2 h x)))) by (apply St; [lra|assumption|assumption]).
    assert (S3' : wi (r + 1) (gadd y (gscal (h / 2) (k2 h y)))) by (apply St; [lra|assumption|assumption]).
    assert (V3 : wi K (k3 h x)) by (apply (ck_val _ _ _ CK), S3). assert (V3' : wi K (k3 h y)) by (apply (ck_val _ _ _ CK), S3').
    assert (N3 : nr (K * (2 * E)) (k3 h x) (k3 h y)).
    { apply (ck_lip _ _ _ CK); [lra|exact S3|exact S3'|]. apply (nr_mono (E + h / 2 * (K * (2 * E)))); [apply Nx; [lra|exact N2]|]. lra. }
    assert (S4 : wi (r + 1) (gadd x (gscal h (k3 h x)))) by (apply St; [lra|assumption|assumption]).
    assert (S4' : wi (r + 1) (gadd y (gscal h (k3 h y)))) by (apply St; [lra|assumption|assumption]).
    assert (N4 : nr (K * (3 * E)) (k4 h x) (k4 h y)).
    { apply (ck_lip _ _ _ CK); [lra|exact S4|exact S4'|]. apply (nr_mono (E + h * (K * (2 * E)))); [apply Nx; [lra|exact N3]|]. lra. }
    unfold Phi. eapply nr_mono; [apply Nx; [lra|]; apply nr_add; apply nr_add; apply nr_scal; eassumption|].
    rewrite !Rabs_right by lra. lra.
  Qed.

  (** A step from an exact state against the expansion of the solution. *)
  Lemma curve_zero s a : curve s a gz gz = gscal s a.
  Proof. apply grid_ext. intros i k. unfold curve, gadd, gscal, gz. csolve. Qed.
  Lemma local_step r : 0 <= r -> exists C h0, 0 <= C /\ 0 < h0 /\ forall h x, 0 < h <= h0 -> wi r x ->
    nr (C * h ^ 5) (Phi h x) (gadd x (quart h (ff x) (a2 x) (a3 x) (a4 x))) /\ wi C (ff x) /\ wi C (a2 x) /\ wi C (a3 x) /\ wi C (a4 x).
  Proof.
    intros Hr. destruct (constants_exist (r + 1) 0 ltac:(lra) ltac:(lra)) as (K0 & CK0). assert (P0 := ck_pos _ _ _ CK0).
    (* a common bound of all coefficients *)
    assert (Main : exists R, 0 <= R /\ forall x, wi r x ->
      let F := ff x in let c21 := D1 x (gscal (/ 2) F) in let c22 := D2 x (gscal (/ 2) F) (gscal (/ 2) F) in let c23 := D3 x (gscal (/ 2) F) (gscal (/ 2) F) (gscal (/ 2) F) in
      let c32 := gadd (D1 x (gscal (/ 2) c21)) c22 in
      let c33 := gadd (gadd (D1 x (gscal (/ 2) c22)) (gadd (D2 x (gscal (/ 2) F) (gscal (/ 2) c21)) (D2 x (gscal (/ 2) c21) (gscal (/ 2) F)))) c23 in
      wi R F /\ wi R (gscal (/ 2) F) /\ wi R c21 /\ wi R (gscal (/ 2) c21) /\ wi R c22 /\ wi R (gscal (/ 2) c22) /\ wi R c23 /\ wi R c32 /\ wi R c33
      /\ wi R (a2 x) /\ wi R (a3 x) /\ wi R (a4 x)).
    { set (b := fun e => K0 * e + K0 * (e * e) + K0 * (e * e) + K0 * (e * e * e) + e).
      assert (Hb : forall e, 0 <= e -> e <= b e /\ K0 * e <= b e /\ K0 * (e * e) <= b e /\ K0 * (e * e * e) <= b e /\ K0 * e + K0 * (e * e) <= b e /\ K0 * e + (K0 * (e * e) + K0 * (e * e)) + K0 * (e * e * e) <= b e).
      { intros e He. assert (0 <= K0 * e) by (apply Rmult_le_pos; assumption). assert (0 <= K0 * (e * e)) by (repeat apply Rmult_le_pos; assumption). assert (0 <= K0 * (e * e * e)) by (repeat apply Rmult_le_pos; assumption). unfold b. lra. }
      assert (half : forall c a e, 0 <= e -> 0 <= c <= 1 -> wi e a -> wi e (gscal c a)).
      { intros c a e He Hc Ha. apply (wi_mono (Rabs c * e)); [apply wi_scal, Ha|]. rewrite Rabs_right by lra. nra. }
      assert (Q1 := Hb K0 P0). set (e1 := b K0) in Q1. clearbody e1. assert (Q2 := Hb e1 ltac:(lra)). set (e2 := b e1) in Q2. clearbody e2. assert (Q3 := Hb e2 ltac:(lra)). set (e3 := b e2) in Q3. clearbody e3.
      exists e3. split; [lra|]. intros x Hx F c21 c22 c23 c32 c33. assert (Wx : wi (r + 1) x) by (apply (wi_mono r); [exact Hx|lra]).
      assert (WF : wi K0 F) by (apply (ck_val _ _ _ CK0), Wx). assert (WF2 : wi K0 (gscal (/ 2) F)) by (apply half; [exact P0|lra|exact WF]).
      assert (B21 : wi e1 c21) by (eapply wi_mono; [apply (ck_d1 _ _ _ CK0 x _ K0 Wx P0 WF2)|lra]).
      assert (B22 : wi e1 c22) by (eapply wi_mono; [apply (ck_d2 _ _ _ CK0 x _ _ K0 K0 Wx P0 P0 WF2 WF2)|lra]).
      assert (B23 : wi e1 c23) by (eapply wi_mono; [apply (ck_d3 _ _ _ CK0 x _ _ _ K0 K0 K0 Wx P0 P0 P0 WF2 WF2 WF2)|lra]).
      assert (BF1 : wi e1 F) by (apply (wi_mono K0); [exact WF|lra]). assert (BF2 : wi e1 (gscal (/ 2) F)) by (apply (wi_mono K0); [exact WF2|lra]).
      assert (A2 : wi e1 (a2 x)) by (apply half; [lra|lra|]; eapply wi_mono; [apply (ck_d1 _ _ _ CK0 x _ K0 Wx P0 WF)|lra]).
      assert (E1 : 0 <= e1) by lra. assert (E2 : 0 <= e2) by lra.
      assert (H21 : wi e1 (gscal (/ 2) c21)) by (apply half; [lra|lra|exact B21]). assert (H22 : wi e1 (gscal (/ 2) c22)) by (apply half; [lra|lra|exact B22]).
      assert (D1_ : forall z, wi e1 z -> wi (K0 * e1) (D1 x z)) by (intros z Hz; exact (ck_d1 _ _ _ CK0 x _ e1 Wx E1 Hz)).
      assert (D2_ : forall z w, wi e1 z -> wi e1 w -> wi (K0 * (e1 * e1)) (D2 x z w)) by (intros z w Hz Hw; exact (ck_d2 _ _ _ CK0 x _ _ e1 e1 Wx E1 E1 Hz Hw)).
      assert (D3_ : forall z w v, wi e1 z -> wi e1 w -> wi e1 v -> wi (K0 * (e1 * e1 * e1)) (D3 x z w v)) by (intros z w v Hz Hw Hv; exact (ck_d3 _ _ _ CK0 x _ _ _ e1 e1 e1 Wx E1 E1 E1 Hz Hw Hv)).
      assert (B32 : wi e2 c32) by (eapply wi_mono; [apply wi_add; [apply D1_, H21|apply D2_; assumption]|lra]).
      assert (B33 : wi e2 c33).
      { eapply wi_mono; [apply wi_add; [apply wi_add; [apply D1_, H22|apply wi_add; apply D2_; assumption]|apply D3_; assumption]|lra]. }
      assert (A3 : wi e2 (a3 x)) by (apply half; [lra|lra|]; eapply wi_mono; [apply wi_add; [apply D1_, A2|apply D2_; assumption]|lra]).
      assert (A4 : wi e3 (a4 x)).
      { apply half; [lra|lra|]. assert (Z1 : wi e2 (a2 x)) by (apply (wi_mono e1); [assumption|lra]). assert (Z0 : wi e2 F) by (apply (wi_mono e1); [assumption|lra]).
        eapply wi_mono; [apply wi_add; [apply wi_add; [exact (ck_d1 _ _ _ CK0 x _ e2 Wx E2 A3)|apply wi_add; [exact (ck_d2 _ _ _ CK0 x _ _ e2 e2 Wx E2 E2 Z0 Z1)|exact (ck_d2 _ _ _ CK0 x _ _ e2 e2 Wx E2 E2 Z1 Z0)]]|exact (ck_d3 _ _ _ CK0 x _ _ _ e2 e2 e2 Wx E2 E2 E2 Z0 Z0 Z0)]|lra]. }
      assert (up1 : forall z, wi e1 z -> wi e3 z) by (intros z Hz; apply (wi_mono e1); [exact Hz|lra]). assert (up2 : forall z, wi e2 z -> wi e3 z) by (intros z Hz; apply (wi_mono e2); [exact Hz|lra]).
      repeat split; auto. }
    destruct Main as (R & HR & Main). destruct (constants_exist (r + 1) R ltac:(lra) HR) as (K & CK). assert (PK := ck_pos _ _ _ CK).
    set (c3 := K * (K + R) + K). set (c4 := K * (c3 + R) + K). set (C := K + c3 + c4 + R).
    assert (Pc3 : 0 <= c3) by (unfold c3; assert (0 <= K * (K + R)) by (apply Rmult_le_pos; lra); lra).
    assert (Pc4 : 0 <= c4) by (unfold c4; assert (0 <= K * (c3 + R)) by (apply Rmult_le_pos; lra); lra).
    set (h0 := / (1 + 3 * R + K)). assert (Ph0 : 0 < h0) by (apply Rinv_0_lt_compat; lra). assert (h01 : h0 <= 1) by (unfold h0; rewrite <- Rinv_1; apply Rinv_le_contravar; lra).
    exists C, h0. split; [unfold C; lra|]. split; [exact Ph0|]. intros h x Hh Hx.
    assert (Hh3 : (1 + 3 * R + K) * h <= 1). { apply Rle_trans with ((1 + 3 * R + K) * h0); [apply Rmult_le_compat_l; lra|]. unfold h0. rewrite Rinv_r by lra. lra. }
    assert (R3 : 3 * R * h <= 1) by (assert (0 <= K * h) by (apply Rmult_le_pos; lra); lra). assert (K3_ : K * h <= 1) by (assert (0 <= 3 * R * h) by (repeat apply Rmult_le_pos; lra); lra).
    specialize (Main x Hx). cbv zeta in Main.
    set (F := ff x) in *. set (c21 := D1 x (gscal (/ 2) F)) in *. set (c22 := D2 x (gscal (/ 2) F) (gscal (/ 2) F)) in *. set (c23 := D3 x (gscal (/ 2) F) (gscal (/ 2) F) (gscal (/ 2) F)) in *.
    set (c32 := gadd (D1 x (gscal (/ 2) c21)) c22) in *.
    set (c33 := gadd (gadd (D1 x (gscal (/ 2) c22)) (gadd (D2 x (gscal (/ 2) F) (gscal (/ 2) c21)) (D2 x (gscal (/ 2) c21) (gscal (/ 2) F)))) c23) in *.
    destruct Main as (BF & BF2 & B21 & H21 & B22 & H22 & B23 & B32 & B33 & A2 & A3 & A4).
    assert (Wx : wi (r + 1) x) by (apply (wi_mono r); [exact Hx|lra]). assert (h4 : 0 <= h ^ 4) by (apply pow_le; lra). assert (h41 : h ^ 4 * h <= h ^ 4) by nra.
    assert (Wgz : wi R gz) by (apply (wi_mono 0); [apply wi_gz|exact HR]).
    assert (St : forall th k, 0 <= th <= h -> wi K k -> wi (r + 1) (gadd x (gscal th k))).
    { intros th k Hth Hkk. apply wi_add; [exact Hx|]. apply (wi_mono (Rabs th * K)); [apply wi_scal, Hkk|]. rewrite Rabs_right by lra. nra. }
    assert (Cv : forall u1 u2 u3, wi R u1 -> wi R u2 -> wi R u3 -> wi (r + 1) (gadd x (curve h u1 u2 u3))).
    { intros u1 u2 u3 H1 H2 H3. apply wi_add; [exact Hx|]. eapply wi_mono; [apply wi_add; [apply wi_scal, H1|apply wi_add; apply wi_scal; eassumption]|].
      rewrite !Rabs_right by (try apply Rle_ge, pow_le; lra). assert (h ^ 2 <= h) by (cbn [pow]; nra). assert (h ^ 3 <= h) by (cbn [pow]; nra). nra. }
    assert (V1 : wi K F) by (apply (ck_val _ _ _ CK), Wx).
    assert (Al : forall u1 u2 u3, wi R u1 -> wi R u2 -> wi R u3 -> nr (K * h ^ 4) (ff (gadd x (curve h u1 u2 u3))) (alongs x u1 u2 u3 h)).
    { intros u1 u2 u3 H1 H2 H3. apply (ck_along _ _ _ CK); try assumption; lra. }
    (* second stage *)
    set (al2 := alongs x (gscal (/ 2) F) gz gz h).
    assert (E2 : al2 = gadd (gadd F (gscal h c21)) (gadd (gscal (h ^ 2) c22) (gscal (h ^ 3) c23))).
    { unfold al2. rewrite alongs_at, (gz_scal F). unfold c21, c22, c23.
      repeat (rewrite D1_scal || rewrite D1_add || rewrite D2_scal_l || rewrite D2_scal_r || rewrite D2_add_l || rewrite D2_add_r || rewrite D3_scal_1 || rewrite D3_scal_2 || rewrite D3_scal_3).
      fold F. gsolve. }
    assert (N2 : nr (K * h ^ 4) (k2 h x) al2).
    { assert (Ec : gscal (h / 2) F = curve h (gscal (/ 2) F) gz gz) by (rewrite curve_zero; gsolve). unfold k2. fold F. rewrite Ec. apply Al; assumption. }
    assert (V2 : wi K (k2 h x)) by (apply (ck_val _ _ _ CK), St; [lra|exact V1]).
    (* third stage *)
    set (al3 := alongs x (gscal (/ 2) F) (gscal (/ 2) c21) (gscal (/ 2) c22) h).
    assert (E3 : al3 = gadd (gadd F (gscal h c21)) (gadd (gscal (h ^ 2) c32) (gscal (h ^ 3) c33))) by (unfold al3; rewrite alongs_at; reflexivity).
    assert (N3 : nr (c3 * h ^ 4) (k3 h x) al3).
    { replace (c3 * h ^ 4) with (K * ((K + R) * h ^ 4) + K * h ^ 4) by (unfold c3; ring). eapply nr_tri; [|apply Al; assumption]. unfold k3.
      apply (ck_lip _ _ _ CK); [apply Rmult_le_pos; lra|apply St; [lra|exact V2]|apply Cv; assumption|].
      eapply nr_mono; [apply (nr_tri _ (gadd x (gscal (h / 2) al2))); [apply nr_add; [apply nr_refl|apply nr_scal, N2]|]|].
      - assert (Ec : gscal (h / 2) al2 = gadd (curve h (gscal (/ 2) F) (gscal (/ 2) c21) (gscal (/ 2) c22)) (gscal (h ^ 4 / 2) c23)).
        { rewrite E2. unfold curve. gsolve. }
        rewrite Ec. apply nr_add; [apply nr_refl|]. apply nr_more, wi_scal, B23.
      - rewrite !Rabs_right by lra. assert (0 <= R * h ^ 4) by (apply Rmult_le_pos; assumption). assert (0 <= K * h ^ 4) by (apply Rmult_le_pos; assumption).
        assert (K * h ^ 4 * h <= K * h ^ 4) by (rewrite Rmult_assoc; apply Rmult_le_compat_l; assumption). lra. }
    assert (V3 : wi K (k3 h x)) by (apply (ck_val _ _ _ CK), St; [lra|exact V2]).
    (* fourth stage *)
    set (al4 := alongs x F c21 c32 h).
    assert (N4 : nr (c4 * h ^ 4) (k4 h x) al4).
    { replace (c4 * h ^ 4) with (K * ((c3 + R) * h ^ 4) + K * h ^ 4) by (unfold c4; ring). eapply nr_tri; [|apply Al; assumption]. unfold k4.
      apply (ck_lip _ _ _ CK); [apply Rmult_le_pos; lra|apply St; [lra|exact V3]|apply Cv; assumption|].
      eapply nr_mono; [apply (nr_tri _ (gadd x (gscal h al3))); [apply nr_add; [apply nr_refl|apply nr_scal, N3]|]|].
      - assert (Ec : gscal h al3 = gadd (curve h F c21 c32) (gscal (h ^ 4) c33)).
        { rewrite E3. unfold curve. gsolve. }
        rewrite Ec. apply nr_add; [apply nr_refl|]. apply nr_more, wi_scal, B33.
      - rewrite !Rabs_right by lra. assert (0 <= R * h ^ 4) by (apply Rmult_le_pos; assumption).
        assert (c3 * h ^ 4 * h <= c3 * h ^ 4) by (rewrite Rmult_assoc; apply Rmult_le_compat_l; assumption). lra. }
    assert (PC : K <= C /\ c3 <= C /\ c4 <= C /\ R <= C) by (unfold C; lra).
    split; [|repeat split; apply (wi_mono R); (assumption || lra)].
    assert (EQ : gadd x (quart h F (a2 x) (a3 x) (a4 x)) = gadd x (gscal h (gadd (gadd (gscal (/ 6) F) (gscal (/ 3) al2)) (gadd (gscal (/ 3) al3) (gscal (/ 6) al4))))).
    { f_equal. rewrite E2, E3. unfold al4. rewrite alongs_at. fold F. unfold a4, a3, a2, c33, c32, c23, c22, c21. fold F.
      repeat (rewrite D1_scal || rewrite D1_add || rewrite D2_scal_l || rewrite D2_scal_r || rewrite D2_add_l || rewrite D2_add_r || rewrite D3_scal_1 || rewrite D3_scal_2 || rewrite D3_scal_3).
      unfold quart, curve. gsolve. }
    fold F. rewrite EQ. unfold Phi. fold F.
    eapply nr_mono; [apply nr_add; [apply nr_refl|]; apply nr_scal; apply nr_add; apply nr_add; apply nr_scal; [apply nr_refl|exact N2|exact N3|exact N4]|].
    rewrite !Rabs_right by lra. replace (C * h ^ 5) with (h * (C * h ^ 4)) by ring.
    assert (K * h ^ 4 <= C * h ^ 4) by (apply Rmult_le_compat_r; lra). assert (c3 * h ^ 4 <= C * h ^ 4) by (apply Rmult_le_compat_r; lra). assert (c4 * h ^ 4 <= C * h ^ 4) by (apply Rmult_le_compat_r; lra).
    assert (0 <= C * h ^ 4) by (apply Rmult_le_pos; lra). rewrite Rplus_0_l. apply Rmult_le_compat_l; [lra|]. lra.
  Qed.
End Order.
