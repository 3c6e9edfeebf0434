From Verif Require Import ListAux FileModel ParseProofs EquationProofs EquationProofs2 EquationProofs4 EquationProofs5 EquationProofs8 StepProofs SplitProofs4 SimProofs SimProofs2 EnergyProofs3 FlowSpec Vec CVec Complex.
From Coq Require Import Lia Lra Permutation.
Open Scope R_scope.

Lemma amp_linear n ft k a f g : unitary_transform n ft -> (k < n)%nat ->
  amplitude_at n ft k (fun j => Cadd (f j) (Cmul a (g j))) = Cadd (amplitude_at n ft k f) (Cmul a (amplitude_at n ft k g)).
Proof.
  intros U Hk. unfold amplitude_at.
  assert (Lm : forall h : nat -> C, length (map h (seq 0 n)) = n) by (intros h; rewrite map_length; apply seq_length).
  assert (E : map (fun j => Cadd (f j) (Cmul a (g j))) (seq 0 n) = map2 (fun u v => Cadd u (Cmul a v)) (map f (seq 0 n)) (map g (seq 0 n))).
  { generalize (seq 0 n). induction l as [|x l IH]; [reflexivity|]. cbn [map map2]. rewrite IH. reflexivity. }
  rewrite E, (ut_fft_add n ft U a _ _ (Lm f) (Lm g)).
  assert (GT := ut_good n ft U). rewrite nth_map2; [reflexivity| |]; rewrite ?(gt_fft_len n ft GT) by apply Lm; [exact Hk|reflexivity].
Qed.
Lemma amp_ext n ft k f g : (forall j, (j < n)%nat -> f j = g j) -> amplitude_at n ft k f = amplitude_at n ft k g.
Proof. intros H. unfold amplitude_at. f_equal. f_equal. apply map_ext_in. intros j Hj. apply in_seq in Hj. apply H. lia. Qed.
Lemma amp_zero n ft k : unitary_transform n ft -> (k < n)%nat -> amplitude_at n ft k (fun _ => C0) = C0.
Proof.
  intros U Hk. assert (H := amp_linear n ft k (Copp C1) (fun _ => C0) (fun _ => C0) U Hk).
  rewrite (amp_ext n ft k _ (fun _ => C0)) in H by (intros; ring). rewrite H. ring.
Qed.
Lemma amp_scale n ft k a f : unitary_transform n ft -> (k < n)%nat -> amplitude_at n ft k (fun j => Cmul a (f j)) = Cmul a (amplitude_at n ft k f).
Proof.
  intros U Hk. rewrite (amp_ext n ft k _ (fun j => Cadd C0 (Cmul a (f j)))) by (intros; ring).
  rewrite (amp_linear n ft k a (fun _ => C0) f U Hk), (amp_zero n ft k U Hk). ring.
Qed.

(** Sums of items. *)
Lemma sum_signed_scale c f l : sum_signed (fun it => Cmul c (f it)) l = Cmul c (sum_signed f l).
Proof. unfold sum_signed. induction l as [|x l IH]; cbn [map Csum]; [ring|]. rewrite IH. ring. Qed.
Lemma sum_signed_amp n ft k (f : nat -> item -> C) l : unitary_transform n ft -> (k < n)%nat ->
  amplitude_at n ft k (fun j => sum_signed (f j) l) = sum_signed (fun it => amplitude_at n ft k (fun j => f j it)) l.
Proof.
  intros U Hk. unfold sum_signed. induction l as [|x l IH]; cbn [map Csum]; [apply amp_zero; assumption|].
  rewrite (amp_ext n ft k _ (fun j => Cadd (Csum (map (fun p => Cmul (RtoC (sign_value (snd p))) (f j (fst p))) l)) (Cmul (RtoC (sign_value (snd x))) (f j (fst x)))))
    by (intros; ring).
  rewrite (amp_linear n ft k _ _ (fun j => f j (fst x)) U Hk), IH. ring.
Qed.
Lemma amplitude_nodes cpow val n ft k fs :
  amplitude cpow val (amplitude_at n ft k) fs = amplitude_at n ft k (fun j => amplitude cpow val (fun x => x j) fs).
Proof. unfold amplitude. destruct fs as [|f [|g r]]; [reflexivity| |reflexivity]. destruct (fa_exp f); reflexivity. Qed.

Lemma lap_flow p (s : R) : (s ^ p = - (- s) ^ p * (- (-1) ^ p))%R.
Proof. replace (- s) with ((-1) * s) by ring. rewrite Rpow_mult_distr. assert (H : (-1) ^ p * (-1) ^ p = 1) by (rewrite <- Rpow_mult_distr; replace (-1 * -1) with 1 by ring; apply pow1).
  replace (- ((-1) ^ p * s ^ p) * - (-1) ^ p) with (((-1) ^ p * (-1) ^ p) * s ^ p) by ring. rewrite H. ring.
Qed.

Section Flow.
  Variables (L : lang) (cs : list call) (es : list eqtext) (m : mstate).
  Hypothesis HD : declared L cs es.
  Variables (n : nat) (ft : transform) (lib : library).
  Hypothesis U : unitary_transform n ft.

  Lemma lone_function t : (exists b f a, good_product L t b f a) -> lone_field L t = false -> forall f, field_factors L t = [f] -> fa_exp f = None ->
    In (fa_name f) (l_functions L).
  Proof.
    intros (before & fs & after & GP) Hl f Hf Hx. unfold lone_field in Hl. rewrite Hf, Hx in Hl. apply mem_str_notIn in Hl.
    assert (HP := field_factors_perm L (dc_lang _ _ _ HD) t before fs after GP). rewrite Hf in HP. apply Permutation_length_1_inv in HP.
    destruct fs as [|w r]; [discriminate HP|]. cbn [map] in HP. injection HP as Hw _.
    assert (Ha := fs_atoms L t before _ after GP w (or_introl eq_refl)). unfold wf_name in Ha. rewrite Hw in Ha.
    unfold atoms in Ha. apply in_app_or in Ha. destruct Ha; [contradiction|assumption].
  Qed.

  (** The two parts of a flow equation. *)
  Lemma flow_parts q p fields seen E t k X A : In q es -> flow_equation L p q -> (k < n)%nat ->
    split_written L cs n ft lib fields seen E t q k X A ->
    A = Cmul (RtoC (- (- lap_symbol (tfreq ft k)) ^ p)) (stiffness L lib p (tfreq ft k) q)
    /\ exists val, values L lib fields val
       /\ X = Cmul (RtoC (- (- lap_symbol (tfreq ft k)) ^ p)) (amplitude_at n ft k (force L lib p val q)).
  Proof.
    intros Hq HF Hk (val & lone & im & ex & li & nl & HV & _ & Hfun & _ & _ & _ & -> & ->).
    assert (Hg := dc_good _ _ _ HD). rewrite Forall_forall in Hg. specialize (Hg q Hq).
    destruct (items_good L q Hg _ (Permutation_refl _)) as [Hgs _]. rewrite Forall_forall in Hgs.
    unfold flow_equation in HF. rewrite Forall_forall in HF. split.
    - unfold stiffness. set (s := lap_symbol (tfreq ft k)).
      transitivity (Cmul (RtoC (s ^ p)) (sum_signed (stiffness_item L lib p (q_field q) (tfreq ft k)) (signed_items q))).
      + rewrite <- sum_signed_scale. apply sum_signed_ext. intros x Hx. specialize (HF x Hx). cbv beta in HF.
        destruct (fst x) as [tm|os u]; [|destruct HF]. cbn [implicit_item stiffness_item].
        destruct (linear_in L (q_field q) tm); [|ring]. unfold coefficient. fold s.
        replace (s ^ total_power tm) with (s ^ p * s ^ (total_power tm - p)) by (rewrite <- pow_add; f_equal; lia). rewrite RtoC_mul. ring.
      + rewrite (lap_flow p s), RtoC_mul. ring.
    - exists val. split; [exact HV|]. unfold force. set (s := lap_symbol (tfreq ft k)).
      rewrite (amp_scale n ft k _ (fun j => sum_signed (force_item L lib val (q_field q) j) (signed_items q)) U Hk).
      rewrite (sum_signed_amp n ft k (force_item L lib val (q_field q)) (signed_items q) U Hk).
      transitivity (Cmul (RtoC (s ^ p)) (sum_signed (fun it => amplitude_at n ft k (fun j => force_item L lib val (q_field q) j it)) (signed_items q))).
      + rewrite <- sum_signed_scale. apply sum_signed_ext. intros x Hx. specialize (HF x Hx). specialize (Hgs (fst x) (in_map fst _ _ Hx)). cbv beta in HF.
        destruct (fst x) as [tm|os u]; [|destruct HF]. cbn [explicit_item force_item].
        destruct (linear_in L (q_field q) tm) eqn:El.
        * rewrite (amp_zero n ft k U Hk). ring.
        * destruct HF as [_ [HF|[HF Hl]]]; [discriminate HF|]. unfold coefficient. fold s. rewrite HF.
          rewrite (amp_scale n ft k _ (fun j => amplitude (lb_pow lib) val (fun x => x j) (field_factors L tm)) U Hk), <- amplitude_nodes.
          assert (Es : shown_amplitude L (lb_pow lib) val (amplitude_at n ft k) lone tm = amplitude (lb_pow lib) val (amplitude_at n ft k) (field_factors L tm)).
          { unfold shown_amplitude. destruct (field_factors L tm) as [|f [|g r]] eqn:Ef; [reflexivity| |reflexivity].
            destruct (fa_exp f) eqn:Ex; [reflexivity|]. unfold amplitude. rewrite Ex. apply Hfun. apply (lone_function tm (proj1 Hgs) Hl f Ef Ex). }
          rewrite Es. ring.
      + rewrite (lap_flow p s), RtoC_mul. ring.
  Qed.
End Flow.

(** One wave: new amplitude [y'], old amplitude [y], force [g]. *)
Lemma mode_energy (dt M w K : R) (y y' g : C) : 0 < dt -> 0 <= M -> 1 + dt * M * w <> 0 -> K * M <= 2 / dt + M * w ->
  y' = Cdiv (Cadd y (Cmul (RtoC dt) (Cmul (RtoC (- M)) g))) (Csub C1 (Cmul (RtoC dt) (RtoC (- M * w)))) ->
  Re (Cmul (Csub y' y) (Cconj g)) + K / 2 * Cnorm2 (Csub y' y) + w / 2 * (Cnorm2 y' - Cnorm2 y) <= 0.
Proof.
  intros Hdt HM Hd HK Ey.
  assert (Ed : Csub C1 (Cmul (RtoC dt) (RtoC (- M * w))) = RtoC (1 + dt * M * w)) by csolve.
  assert (Nz : RtoC (1 + dt * M * w) <> C0) by (apply RtoC_neq0, Hd).
  rewrite Ed in Ey.
  assert (E2 : Cmul (RtoC (1 + dt * M * w)) y' = Cadd y (Cmul (RtoC dt) (Cmul (RtoC (- M)) g))).
  { rewrite Ey. field. exact Nz. }
  destruct y as [a b], y' as [a' b'], g as [c d]. unfold Cmul, Cadd, RtoC in E2. cbn [Re Im fst snd] in E2. injection E2 as E1 E2.
  unfold Csub, Cmul, Cconj, Cnorm2. cbn [Re Im fst snd].
  assert (D1 : a' - a = - dt * M * (c + w * a')) by lra.
  assert (D2 : b' - b = - dt * M * (d + w * b')) by lra.
  destruct (Req_dec M 0) as [H0|H0].
  - subst M. assert (a' = a) by lra. assert (b' = b) by lra. subst. lra.
  - assert (HMp : 0 < M) by lra.
    assert (Hc : c = - (a' - a) / (dt * M) - w * a') by (rewrite D1; field; lra).
    assert (Hcd : d = - (b' - b) / (dt * M) - w * b') by (rewrite D2; field; lra).
    assert (HQ : K <= 2 / (dt * M) + w).
    { apply (Rmult_le_reg_l M); [exact HMp|]. replace (M * (2 / (dt * M) + w)) with (2 / dt + M * w) by (field; lra). lra. }
    clear E1 E2 D1 D2 Ey. subst c d. set (x := a' - a) in *. set (z := b' - b) in *.
    replace a with (a' - x) by (unfold x; ring). replace b with (b' - z) by (unfold z; ring).
    match goal with |- ?l <= 0 => replace l with (- (/ 2) * (2 / (dt * M) + w - K) * (x * x + z * z)) by (field; lra) end.
    assert (0 <= x * x + z * z) by nra. assert (0 <= 2 / (dt * M) + w - K) by lra. nra.
Qed.

Lemma parseval_re n ft x y : unitary_transform n ft -> length x = n -> length y = n ->
  rsum n (fun k => Re (Cmul (nth k (fft ft x) C0) (Cconj (nth k (fft ft y) C0)))) = INR n * rsum n (fun j => Re (Cmul (nth j x C0) (Cconj (nth j y C0)))).
Proof.
  intros U Hx Hy. assert (H := ut_parseval n ft U x y Hx Hy). apply (f_equal Re) in H. unfold inner in H. rewrite csum_re in H. rewrite H.
  unfold Cmul at 1, RtoC. cbn [Re Im fst snd]. rewrite Rmult_0_l, Rminus_0_r. f_equal. rewrite csum_re. reflexivity.
Qed.
