(** Motions on nodes and on amplitudes. *)
From Verif Require Import SymmetrySpec SymmetryProofs DftProofs IndexProofs RealProofs StepProofs EnergyProofs3 Vec CVec Complex.
From Coq Require Import Lra Lia Qreals.
Open Scope R_scope.

Definition node_map (dom : list Z) (g : list Z -> list Z) (j : nat) : nat :=
  match IndexModel.pos dom (Z.of_nat j) with
  | Some p => match node_idx dom (reduce dom (g p)) with Some i => Z.to_nat i | None => 0%nat end
  | None => 0%nat
  end.
Definition freq_map (dom : list Z) (h : list Z -> list Z) (k : nat) : nat :=
  match IndexModel.pos dom (Z.of_nat k) with
  | Some q => match node_idx dom (h q) with Some i => Z.to_nat i | None => 0%nat end
  | None => 0%nat
  end.
Definition freq_phase (dom : list Z) (w : list Z -> R) (k : nat) : R :=
  match IndexModel.pos dom (Z.of_nat k) with Some q => w q | None => 0 end.

Record node_symmetry (dom : list Z) (s tau : nat -> nat) (w : nat -> R) : Prop := {
  sy_range : forall j, (j < nodes dom)%nat -> (s j < nodes dom)%nat;
  sy_inj : forall i j, (i < nodes dom)%nat -> (j < nodes dom)%nat -> s i = s j -> i = j;
  sy_frange : forall j, (j < nodes dom)%nat -> (tau j < nodes dom)%nat;
  sy_finj : forall i j, (i < nodes dom)%nat -> (j < nodes dom)%nat -> tau i = tau j -> i = j;
  sy_phase : forall k j, (k < nodes dom)%nat -> (j < nodes dom)%nat ->
    exists z, phase (fftw_dims dom) k (s j) = phase (fftw_dims dom) (tau k) j + w k + IZR z;
  sy_norm : forall k, (k < nodes dom)%nat -> norm_sq (tfreq (fftw_transform dom) (tau k)) = norm_sq (tfreq (fftw_transform dom) k)
}.

Section Nodes.
  Variables (dom : list Z).
  Hypothesis Hv : valid_domain dom.

  Lemma node_of_pos p : in_box dom p -> exists i, node_idx dom p = Some (Z.of_nat i) /\ (i < nodes dom)%nat /\ IndexModel.pos dom (Z.of_nat i) = Some p.
  Proof.
    intros B. destruct (node_idx_defined dom p Hv B) as (i & Hi). destruct (pos_node_idx dom p i Hv B Hi) as (R & Hp).
    exists (Z.to_nat i). rewrite Z2Nat.id by lia. split; [exact Hi|]. split; [unfold nodes; lia|exact Hp].
  Qed.
  Lemma pos_of_node j : (j < nodes dom)%nat -> exists p, IndexModel.pos dom (Z.of_nat j) = Some p /\ in_box dom p /\ node_idx dom p = Some (Z.of_nat j).
  Proof. intros Hj. exact (node_idx_pos dom (Z.of_nat j) Hv (nodes_lt dom j (proj2 Hv) Hj)). Qed.
  Lemma tfreq_pos k q : (k < nodes dom)%nat -> IndexModel.pos dom (Z.of_nat k) = Some q ->
    tfreq (fftw_transform dom) k = map Q2R (map (fun t => freq1 (fst t) (snd t)) (combine q dom)).
  Proof.
    intros Hk Hq. destruct (freq_pos dom (Z.of_nat k) Hv (nodes_lt dom k (proj2 Hv) Hk)) as (q' & f & E1 & _ & E2 & Ef).
    rewrite Hq in E1. injection E1 as <-. cbn [tfreq fftw_transform]. rewrite E2, Ef. reflexivity.
  Qed.

  Lemma node_map_spec g j p : motion dom g -> (j < nodes dom)%nat -> IndexModel.pos dom (Z.of_nat j) = Some p -> in_box dom p ->
    (node_map dom g j < nodes dom)%nat /\ IndexModel.pos dom (Z.of_nat (node_map dom g j)) = Some (reduce dom (g p)) /\
    node_idx dom (reduce dom (g p)) = Some (Z.of_nat (node_map dom g j)).
  Proof.
    intros M Hj Hp B. destruct (node_of_pos (reduce dom (g p))) as (i & E1 & E2 & E3).
    - apply reduce_in_box; [apply Hv|]. rewrite (motion_length dom g p M). apply in_box_length, B.
    - unfold node_map. rewrite Hp, E1, Nat2Z.id. repeat split; assumption.
  Qed.
  Lemma freq_map_spec h k q : (k < nodes dom)%nat -> IndexModel.pos dom (Z.of_nat k) = Some q -> in_box dom (h q) ->
    (freq_map dom h k < nodes dom)%nat /\ IndexModel.pos dom (Z.of_nat (freq_map dom h k)) = Some (h q).
  Proof.
    intros Hk Hq B. destruct (node_of_pos (h q) B) as (i & E1 & E2 & E3). unfold freq_map. rewrite Hq, E1, Nat2Z.id. split; assumption.
  Qed.

  Theorem motion_symmetry_by g h w : square_layout dom -> motion dom g -> tau_pos dom g h w -> node_symmetry dom (node_map dom g) (freq_map dom h) (freq_phase dom w).
  Proof.
    intros Hs M (HF & HN & HI). constructor.
    - intros j Hj. destruct (pos_of_node j Hj) as (p & Hp & B & _). apply (node_map_spec g j p M Hj Hp B).
    - intros i j Hi Hj E. destruct (pos_of_node i Hi) as (p & Hp & B & Np). destruct (pos_of_node j Hj) as (p' & Hp' & B' & Np').
      destruct (node_map_spec g i p M Hi Hp B) as (_ & E1 & _). destruct (node_map_spec g j p' M Hj Hp' B') as (_ & E2 & _).
      rewrite E in E1. rewrite E1 in E2. assert (R : reduce dom (g p) = reduce dom (g p')) by congruence.
      apply (motion_inj dom g Hv M p p' B B') in R. subst p'. rewrite Np in Np'. apply Nat2Z.inj. congruence.
    - intros k Hk. destruct (pos_of_node k Hk) as (q & Hq & B & _). apply (freq_map_spec h k q Hk Hq), (HN q B).
    - intros i j Hi Hj E. destruct (pos_of_node i Hi) as (p & Hp & B & Np). destruct (pos_of_node j Hj) as (p' & Hp' & B' & Np').
      destruct (freq_map_spec h i p Hi Hp (proj1 (HN p B))) as (_ & E1). destruct (freq_map_spec h j p' Hj Hp' (proj1 (HN p' B'))) as (_ & E2).
      rewrite E in E1. rewrite E1 in E2. assert (R : h p = h p') by congruence. apply (HI p p' B B') in R. subst p'. rewrite Np in Np'. apply Nat2Z.inj. congruence.
    - intros k j Hk Hj. destruct (pos_of_node k Hk) as (q & Hq & B & _). destruct (pos_of_node j Hj) as (p & Hp & Bp & _).
      destruct (node_map_spec g j p M Hj Hp Bp) as (R1 & E1 & _). destruct (freq_map_spec h k q Hk Hq (proj1 (HN q B))) as (R2 & E2).
      destruct (phase_pdot dom k _ q _ Hv Hs Hk R1 Hq E1) as (z1 & Z1). destruct (phase_pdot dom _ j _ p Hv Hs R2 Hj E2 Hp) as (z2 & Z2).
      destruct (pdot_reduce dom (proj2 Hv) q (g p)) as (z3 & Z3). destruct (HF q p B Bp) as (z4 & Z4).
      exists (z1 - z2 + z3 + z4)%Z. rewrite Z1, Z2, Z3, Z4. unfold freq_phase. rewrite Hq, !plus_IZR, minus_IZR. ring.
    - intros k Hk. destruct (pos_of_node k Hk) as (q & Hq & B & _). destruct (HN q B) as [B' E]. destruct (freq_map_spec h k q Hk Hq B') as (R2 & E2).
      rewrite (tfreq_pos k q Hk Hq), (tfreq_pos _ _ R2 E2). exact E.
  Qed.
  Theorem motion_symmetry g : square_layout dom -> motion dom g -> exists tau w, node_symmetry dom (node_map dom g) tau w.
  Proof. intros Hs M. destruct (motion_frequencies dom g Hv M) as (h & w & H). eexists _, _. apply motion_symmetry_by; eassumption. Qed.

  Lemma moved_iff g x y : motion dom g -> length x = nodes dom -> length y = nodes dom ->
    (moved dom g x y <-> forall j, (j < nodes dom)%nat -> nth (node_map dom g j) y C0 = nth j x C0).
  Proof.
    intros M Lx Ly. split.
    - intros (_ & _ & H) j Hj. destruct (pos_of_node j Hj) as (p & Hp & B & Np). destruct (node_map_spec g j p M Hj Hp B) as (_ & _ & E).
      specialize (H p B). unfold at_pos in H. rewrite E, Np, !Nat2Z.id in H. exact H.
    - intros H. split; [exact Lx|]. split; [exact Ly|]. intros p B. destruct (node_of_pos p B) as (j & Np & Hj & Hp).
      destruct (node_map_spec g j p M Hj Hp B) as (_ & _ & E). unfold at_pos. rewrite E, Np, !Nat2Z.id. apply H, Hj.
  Qed.
End Nodes.

(** ** Amplitudes of moved fields *)
Section Amplitudes.
  Variables (dom : list Z) (s tau : nat -> nat) (w : nat -> R).
  Hypothesis Hv : valid_domain dom.
  Hypothesis S : node_symmetry dom s tau w.
  Let n := nodes dom.
  Let ft := fftw_transform dom.
  Let G : good_transform n ft := fftw_good dom Hv.

  Definition rmov (x y : data) : Prop := length x = n /\ length y = n /\ forall j, (j < n)%nat -> nth (s j) y C0 = nth j x C0.
  Definition smov (X Y : data) : Prop := length X = n /\ length Y = n /\ forall k, (k < n)%nat -> nth k Y C0 = Cmul (cis (- w k)) (nth (tau k) X C0).
  Definition cmov (a b : data) : Prop := length a = n /\ length b = n /\ forall k, (k < n)%nat -> nth k b C0 = nth (tau k) a C0.

  Lemma smov_fft x y : rmov x y -> smov (fft ft x) (fft ft y).
  Proof.
    intros (Lx & Ly & H). split; [apply (gt_fft_len _ _ G), Lx|]. split; [apply (gt_fft_len _ _ G), Ly|]. intros k Hk.
    unfold ft. cbn [fft fftw_transform]. pose proof (nprod_nodes dom (proj2 Hv)) as HN.
    rewrite !dft_nth by (rewrite HN; first [exact Hk|apply (sy_frange _ _ _ _ S), Hk]). rewrite HN. fold n.
    rewrite <- (csum_reindex n s (fun j => Cmul (nth j y C0) (cis (-1 * phase (fftw_dims dom) k j))) (sy_range _ _ _ _ S) (sy_inj _ _ _ _ S)).
    rewrite <- csum_mul_l. apply csum_ext. intros j Hj. rewrite (H j Hj).
    destruct (sy_phase _ _ _ _ S k j Hk Hj) as (z & Hz).
    rewrite (cis_cong (-1 * phase (fftw_dims dom) k (s j)) (- w k + -1 * phase (fftw_dims dom) (tau k) j) (- z)) by (rewrite Hz, opp_IZR; ring).
    rewrite cis_add. ring.
  Qed.
  Lemma rmov_to_real X Y : smov X Y -> rmov (to_real ft X) (to_real ft Y).
  Proof.
    intros (LX & LY & H). assert (LR : forall Z, length Z = n -> length (to_real ft Z) = n).
    { intros Z LZ. unfold to_real, div_real. rewrite map_length. apply (gt_ifft_len _ _ G), LZ. }
    split; [apply LR, LX|]. split; [apply LR, LY|]. intros j Hj. unfold to_real. rewrite LX, LY, !div_real_nth. f_equal.
    unfold ft. cbn [ifft fftw_transform]. pose proof (nprod_nodes dom (proj2 Hv)) as HN.
    rewrite !dft_nth by (rewrite HN; first [exact Hj|apply (sy_range _ _ _ _ S), Hj]). rewrite HN. fold n.
    rewrite <- (csum_reindex n tau (fun k => Cmul (nth k X C0) (cis (1 * phase (fftw_dims dom) j k))) (sy_frange _ _ _ _ S) (sy_finj _ _ _ _ S)).
    apply csum_ext. intros k Hk. rewrite (H k Hk). destruct (sy_phase _ _ _ _ S k j Hk Hj) as (z & Hz).
    rewrite (phase_sym _ (s j) k), (phase_sym _ j (tau k)).
    rewrite (cis_cong (1 * phase (fftw_dims dom) k (s j)) (w k + 1 * phase (fftw_dims dom) (tau k) j) z) by (rewrite Hz; ring).
    rewrite cis_add. replace (Cmul (Cmul (cis (- w k)) (nth (tau k) X C0)) (Cmul (cis (w k)) (cis (1 * phase (fftw_dims dom) (tau k) j))))
      with (Cmul (Cmul (cis (- w k)) (cis (w k))) (Cmul (nth (tau k) X C0) (cis (1 * phase (fftw_dims dom) (tau k) j)))) by ring.
    rewrite <- cis_add. replace (- w k + w k) with 0 by ring. rewrite cis_0. ring.
  Qed.
  Lemma smov_iff X Y : length X = n -> length Y = n -> (smov X Y <-> rmov (to_real ft X) (to_real ft Y)).
  Proof.
    intros LX LY. split; [apply rmov_to_real|]. intros H. apply smov_fft in H. rewrite !(gt_inverse _ _ G) in H by assumption. exact H.
  Qed.
End Amplitudes.
