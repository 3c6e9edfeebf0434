(** Uniform fields, HomogeneousModulusEnergy, the first step, the strain
    energy tool. *)
From Verif Require Import StrainSpec StrainProofs StrainProofs2 StrainProofs3 ElasticProofs RealProofs RealProofs3 GradProofs GradProofs2 EnergyProofs EnergyProofs3 DftProofs IndexProofs StepProofs Vec CVec.
From Verif Require Import Complex.
From Coq Require Import Lra Lia FunctionalExtensionality.
Open Scope R_scope.

(** ** Uniform fields *)
Lemma rsum_const n a : rsum n (fun _ => a) = INR n * a.
Proof. induction n as [|n IH]; [cbn; ring|]. cbn [rsum]. rewrite IH, S_INR. ring. Qed.
Lemma rsum_head n f : (0 < n)%nat -> rsum n f = f 0%nat + rsum (n - 1) (fun i => f (S i)).
Proof.
  intros Hn. destruct n as [|n]; [lia|]. replace (S n - 1)%nat with n by lia. change (S n) with (1 + n)%nat. rewrite rsum_split. cbn [rsum]. f_equal. ring.
Qed.
Section Uniform.
  Variables (n : nat) (ft : transform).
  Hypothesis U : unitary_transform n ft.
  Hypothesis Hn : (0 < n)%nat.
  Let G : good_transform n ft := ut_good n ft U.
  Lemma mode_const a k : (k < n)%nat -> k <> 0%nat -> mode n ft (fun _ => a) k = C0.
  Proof.
    intros Hk N. assert (P := parseval_real n ft U Hn (fun _ => a) (fun _ => a)). cbv beta in P.
    assert (N0 : INR n <> 0) by (apply not_0_INR; lia).
    assert (M0 : mode n ft (fun _ => a) 0 = RtoC (INR n * a)).
    { unfold mode. rewrite (gt_zero _ _ G) by (rewrite map_length, seq_length; reflexivity). rewrite Csum_seq, map_length, seq_length.
      rewrite (csum_ext n _ (fun _ => RtoC a)) by (intros i Hi; exact (EnergyProofs3.nth_map_seq (fun i => RtoC a) C0 n i Hi)).
      rewrite csum_const, RtoC_mul. reflexivity. }
    rewrite (rsum_const n (a * a)), (rsum_head n _ Hn), M0 in P.
    set (S := rsum (n - 1) (fun i => Re (Cmul (mode n ft (fun _ => a) (Datatypes.S i)) (Cconj (mode n ft (fun _ => a) (Datatypes.S i)))))) in P.
    assert (S0 : S = 0).
    { replace (Re (Cmul (RtoC (INR n * a)) (Cconj (RtoC (INR n * a))))) with (INR n * INR n * (a * a)) in P by (cbn; ring).
      assert (E : INR n * (INR n * (a * a)) = INR n * INR n * (a * a) + S).
      { rewrite P at 1. field. exact N0. }
      apply (Rplus_eq_reg_l (INR n * INR n * (a * a))). rewrite <- E. ring. }
    assert (NN : forall i, (i < n - 1)%nat -> 0 <= Re (Cmul (mode n ft (fun _ => a) (Datatypes.S i)) (Cconj (mode n ft (fun _ => a) (Datatypes.S i)))))
      by (intros i _; destruct (mode n ft (fun _ => a) (Datatypes.S i)) as [p q]; cbn; nra).
    assert (Z := rsum_zero_term (n - 1) _ NN S0 (k - 1)%nat ltac:(lia)). cbv beta in Z. replace (Datatypes.S (k - 1)) with k in Z by lia. destruct (mode n ft (fun _ : nat => a) k) as [p q]. cbn in Z.
    assert (p * p + q * q = 0) by lra. assert (p * p = 0) by nra. assert (q * q = 0) by nra.
    apply C_eq; cbn; nra.
  Qed.
  Lemma wave_zero d : wave ft 0 d = 0.
  Proof.
    unfold wave. pose proof (gt_freq0 _ _ G) as Z. revert d. induction (tfreq ft 0) as [|f l IH]; intros [|d]; cbn [nth]; try reflexivity; cbn [norm_sq] in Z.
    - assert (0 <= norm_sq l) by (clear; induction l; cbn [norm_sq]; nra). nra.
    - apply IH. assert (0 <= norm_sq l) by (clear; induction l; cbn [norm_sq]; nra). nra.
  Qed.
  Theorem uniform_equilibrium c misfit a : equilibrium_strain n ft c misfit (fun _ => a) (fun _ _ _ => 0).
  Proof.
    exists (fun _ _ => C0). split.
    - intros k p q Hk _ _. rewrite (mode_zero n ft U Hn k Hk). csolve.
    - intros k m Hk Hm. unfold divergence_mode. rewrite (csum_ext 3 _ (fun _ => C0)), csum_zero; [reflexivity|]. intros j Hj.
      destruct (Nat.eq_dec k 0) as [->|N]; [rewrite wave_zero; csolve|]. rewrite mode_const by assumption. csolve.
  Qed.
  Theorem uniform_energy c misfit a : total_energy n c misfit (fun _ => a) (fun _ _ _ => 0) = INR n * (a * a * energy_density c misfit).
  Proof.
    unfold total_energy. rewrite rsum_const. f_equal. unfold energy_density. 
    transitivity (0.5 * ((a * a) * rsum 3 (fun i => rsum 3 (fun j => rsum 3 (fun k => rsum 3 (fun l => c i j k l * misfit i j * misfit k l)))))); [|ring].
    replace (/ 2) with 0.5 by lra. f_equal. rewrite <- rsum_mul_l. apply rsum_ext; intros i _. rewrite <- rsum_mul_l. apply rsum_ext; intros j _.
    rewrite <- rsum_mul_l. apply rsum_ext; intros p _. rewrite <- rsum_mul_l. apply rsum_ext; intros q _. ring.
  Qed.
End Uniform.

(** ** Total energies *)
Lemma energy_density_ext c e e' : (forall i j, (i < 3)%nat -> (j < 3)%nat -> e i j = e' i j) -> energy_density c e = energy_density c e'.
Proof. intros H. rewrite !bil_energy. f_equal. apply bil_ext; assumption. Qed.
Lemma fold_rsum (f : nat -> R) n : forall a, fold_left (fun acc k => acc + f k) (seq 0 n) a = a + rsum n f.
Proof.
  assert (G : forall m s a, fold_left (fun acc k => acc + f k) (seq s m) a = a + rsum m (fun i => f (s + i)%nat)).
  { induction m as [|m IH]; intros s a; [cbn; ring|]. cbn [seq fold_left]. rewrite IH. change (S m) with (1 + m)%nat. rewrite rsum_split. cbn [rsum].
    rewrite (rsum_ext m _ (fun i => f (s + S i)%nat)) by (intros; f_equal; lia). replace (s + 0)%nat with s by lia. cbn [Nat.add]. ring. }
  intros a. exact (G n 0%nat a).
Qed.
Lemma sum_density_rsum n ft freq disp misfit ind c a : sum_density n ft freq disp misfit ind c a = a + rsum n (fun k => energy_density c (strain_matrix n ft freq disp misfit ind k)).
Proof. exact (fold_rsum (fun k => energy_density c (strain_matrix n ft freq disp misfit ind k)) n a). Qed.

Section Grid.
  Variable dom : list Z.
  Hypothesis Hg : regular_grid dom.
  Let ft := fftw_transform dom.
  Let n := nodes dom.
  Let Hv : valid_domain dom := proj1 Hg.
  Let U : unitary_transform n ft := fftw_unitary dom Hv.
  Let G : good_transform n ft := fftw_good dom Hv.
  Let Pn : (0 < n)%nat := grid_pos dom Hg.
  Variables (solve : matrix -> matrix -> matrix) (mat : rank4) (misfit : matrix).
  Let c := rat mat.
  Hypothesis Hsol : solves solve.
  Hypothesis St : stiff c.
  Hypothesis Sm : symmetric3 misfit.
  Variable ind : data.
  Hypothesis Li : length ind = n.
  Hypothesis Ri : real_field ind.

  Lemma ind_mode k : nth k (fft ft ind) C0 = mode n ft (value ind) k.
  Proof.
    unfold mode. do 2 f_equal. apply (nth_ext _ _ C0 C0); [rewrite map_length, seq_length; exact Li|]. intros i Hi.
    rewrite (EnergyProofs3.nth_map_seq (fun i => RtoC (value ind i)) C0 n i) by (rewrite <- Li; exact Hi). unfold value.
    unfold RtoC. apply C_eq; cbn [Re Im fst snd]; [reflexivity|]. exact (EnergyProofs3.real_nth ind i Ri).
  Qed.
  Let F : nat -> nat -> C := fun k comp => effective_force mat misfit (length (tfreq ft k)) comp (fun d => nth d (tfreq ft k) 0) (nth k (fft ft ind) C0).
  Lemma F_eq k comp : (k < n)%nat -> (comp < 3)%nat -> F k comp = effective_force mat misfit 3 comp (wave ft k) (mode n ft (value ind) k).
  Proof.
    intros Hk Hc. unfold F. rewrite ind_mode. change (fun d : nat => nth d (tfreq ft k) 0) with (wave ft k).
    assert (L : length (tfreq ft k) = length dom) by exact (tfreq_length dom Hv k Hk).
    rewrite L. destruct (proj1 Hv) as [D|D]; rewrite D; [|reflexivity].
    assert (Z : wave ft k 2 = 0) by (unfold wave; apply nth_overflow; rewrite L, D; lia).
    unfold effective_force. cbv zeta. cbn [csum]. rewrite Z. set (w := wave ft k). set (z := mode n ft (value ind) k). set (s := contract_last mat misfit). csolve.
  Qed.
  Let eps : nat -> matrix := sol_strain dom solve mat F.
  Lemma tool_equilibrium : equilibrium_strain n ft c misfit (value ind) eps.
  Proof. exact (sol_equilibrium dom Hg solve mat misfit (value ind) F Hsol St F_eq). Qed.
  Lemma tool_strain disp freq k : (k < n)%nat -> (forall q, (q < n)%nat -> freq q = wave ft q) -> (forall q, (q < n)%nat -> disp q = displacement solve c (wave ft q) (F q)) ->
    forall i j, (i < 3)%nat -> (j < 3)%nat -> strain_matrix n ft freq disp misfit ind k i j = eps k i j - misfit i j * solid ind k.
  Proof.
    intros Hk Hf Hd i j Hi Hj. unfold strain_matrix.
    assert (Entry : forall a b, strain_entry n ft freq disp misfit ind a b k = eps k a b - misfit a b * solid ind k).
    { intros a b. unfold strain_entry.
      assert (E : map (fun q => strain (freq q) (disp q) a b) (seq 0 n) = sol_modes dom solve mat F a b).
      { unfold sol_modes. apply map_ext_in. intros q Hq. apply in_seq in Hq. rewrite Hf, Hd by lia. reflexivity. }
      rewrite E. unfold eps, sol_strain. fold ft. 
      assert (D : nth k (to_real ft (sol_modes dom solve mat F a b)) C0 = Cdiv (nth k (ifft ft (sol_modes dom solve mat F a b)) C0) (RtoC (INR n))).
      { unfold to_real, div_real. rewrite (sol_len dom solve mat F a b).
        rewrite (nth_map_data (fun z => Cdiv z (RtoC (INR (nodes dom)))) C0); [reflexivity|]. rewrite (gt_ifft_len _ _ G) by apply (sol_len dom solve mat F a b). exact Hk. }
      rewrite D. unfold Cdiv. assert (N0 : INR n <> 0) by (apply not_0_INR; lia). rewrite <- RtoC_inv by exact N0.
      unfold solid, value. set (z := nth k (ifft ft _) C0). destruct (Rlt_dec 0.5 _) as [L|L]; destruct (Rlt_dec (1 / 2) _) as [L'|L']; try lra; cbn; field; exact N0. }
    rewrite Entry. pose proof (equilibrium_symmetric n ft U Pn c misfit (value ind) eps tool_equilibrium k Hk) as Sy.
    destruct (Nat.le_ge_cases i j) as [L|L].
    - rewrite Nat.min_l, Nat.max_r by exact L. reflexivity.
    - rewrite Nat.min_r, Nat.max_l by exact L. rewrite (Sy j i Hj Hi), (Sm j i Hj Hi). reflexivity.
  Qed.
  Lemma tool_total disp freq a : (forall q, (q < n)%nat -> freq q = wave ft q) -> (forall q, (q < n)%nat -> disp q = displacement solve c (wave ft q) (F q)) ->
    sum_density n ft freq disp misfit ind c a = a + total_energy n c misfit (solid ind) eps.
  Proof.
    intros Hf Hd. rewrite sum_density_rsum. f_equal. unfold total_energy. apply rsum_ext. intros k Hk.
    rewrite (energy_density_ext c _ (fun i j => eps k i j - misfit i j * solid ind k)) by (intros i j Hi Hj; apply tool_strain; assumption).
    unfold energy_density. lra.
  Qed.
  Theorem homogeneous_energy_value : exists eps, equilibrium_strain n ft c misfit (value ind) eps /\
    fst (homogeneous_energy solve dom misfit mat ind) = total_energy n c misfit (solid ind) eps / rsum n (value ind).
  Proof.
    exists eps. split; [exact tool_equilibrium|]. unfold homogeneous_energy. cbn [fst]. rewrite Li. fold ft.
    rewrite (gt_left _ _ G) by exact Li.
    assert (V : fold_left (fun s z => s + Re z) ind 0 = rsum n (value ind)).
    { rewrite (fold_energy Re ind 0), Li, Rplus_0_l. reflexivity. }
    rewrite V. f_equal. fold c. rewrite tool_total; [ring| |].
    - intros q Hq. apply functional_extensionality. intros d. unfold freq3, wave. destruct (Nat.eqb_spec (length dom) 3) as [_|N3]; [reflexivity|].
      destruct (Nat.ltb_spec d 2); [reflexivity|]. symmetry. apply nth_overflow. unfold ft. rewrite (tfreq_length dom Hv q Hq). destruct (proj1 Hv); lia.
    - intros q Hq. f_equal. apply functional_extensionality. intros d. unfold freq3, wave. destruct (Nat.eqb_spec (length dom) 3) as [_|N3]; [reflexivity|].
      destruct (Nat.ltb_spec d 2); [reflexivity|]. symmetry. apply nth_overflow. unfold ft. rewrite (tfreq_length dom Hv q Hq). destruct (proj1 Hv); lia.
  Qed.
End Grid.

Theorem homogeneous_energy_restores solve dom misfit mat ind : valid_domain dom -> length ind = nodes dom -> snd (homogeneous_energy solve dom misfit mat ind) = ind.
Proof. intros Hv L. unfold homogeneous_energy. cbn [snd]. apply (gt_left _ _ (fftw_good dom Hv)), L. Qed.

(** ** The first step *)
Theorem new_term_zero solve dom mat misfit field : valid_domain dom -> length field = nodes dom ->
  el_construct (el_new solve dom mat misfit) field = repeat C0 (nodes dom).
Proof.
  intros Hv L. set (n := nodes dom). set (ft := fftw_transform dom). pose proof (fftw_unitary dom Hv) as U. pose proof (fftw_good dom Hv) as G.
  assert (Pn : (0 < n)%nat) by (unfold n, nodes; pose proof (num_nodes_pos dom (proj2 Hv)); lia).
  assert (Z : fft ft (repeat C0 n) = repeat C0 n).
  { apply (nth_ext _ _ C0 C0); [rewrite (gt_fft_len _ _ G) by apply repeat_length; symmetry; apply repeat_length|]. rewrite (gt_fft_len _ _ G) by apply repeat_length. intros i Hi. rewrite nth_repeat.
    transitivity (mode n ft (fun _ => 0) i); [|exact (mode_zero n ft U Pn i Hi)]. unfold mode. do 2 f_equal. change (RtoC 0) with C0. generalize (seq_length n 0). generalize (seq 0 n).
    intros l <-. clear. induction l; [reflexivity|]. cbn [length repeat map]. f_equal. exact IHl. }
  set (e := el_new solve dom mat misfit).
  assert (Fd : forall g : R -> R, g 0 = 0 -> map (fun y => RtoC (g y)) (el_field e) = repeat C0 n).
  { intros g Hg0. unfold e. cbn [el_new el_field]. rewrite grid_nodes_eq. fold n. generalize n as k. induction k; [reflexivity|]. cbn [repeat map]. rewrite IHk, Hg0. reflexivity. }
  assert (W : forall a b, el_weighted e a b = repeat C0 n).
  { intros a b. unfold el_weighted. rewrite (Fd blend_deriv) by (unfold blend_deriv; ring).
    assert (Ls : length (el_strain e a b) = n).
    { unfold el_strain, to_real, div_real. rewrite map_length. replace (el_nodes e) with n by (unfold e; cbn [el_new el_nodes]; rewrite grid_nodes_eq; reflexivity).
      apply (gt_ifft_len _ _ G). rewrite map_length, seq_length. reflexivity. }
    replace (map2 Cmul (el_strain e a b) (repeat C0 n)) with (repeat C0 n); [exact Z|].
    rewrite <- Ls. clear. induction (el_strain e a b); [reflexivity|]. cbn [length repeat map2]. f_equal; [csolve|exact IHl]. }
  assert (M0 : map (fun _ : C => C0) field = repeat C0 n) by (unfold n; rewrite <- L; clear; induction field; [reflexivity|cbn [length repeat map]; f_equal; assumption]).
  unfold el_construct. rewrite M0.
  assert (P0 : forall ps, fold_left (el_pass e) ps (repeat C0 n) = repeat C0 n).
  { induction ps as [|[a b] ps IH]; [reflexivity|]. cbn [fold_left]. unfold el_pass at 2. rewrite W.
    set (w := RtoC _). replace (map2 _ (repeat C0 n) (repeat C0 n)) with (repeat C0 n); [exact IH|]. clear. induction n; [reflexivity|]. cbn [repeat map2]. f_equal; [csolve|exact IHn]. }
  rewrite P0, (Fd (fun y => blend y * blend_deriv y)) by (unfold blend, blend_deriv; ring). change (el_ft e) with ft. rewrite Z.
  set (w := RtoC _). clear. induction n; [reflexivity|]. cbn [repeat map2]. f_equal; [csolve|exact IHn].
Qed.
