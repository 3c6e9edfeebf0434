(** The phase field term and HomogeneousModulusEnergy. *)
From Verif Require Import StrainSpec StrainProofs StrainProofs2 ElasticProofs RealProofs RealProofs3 GradProofs GradProofs2 EnergyProofs EnergyProofs3 DftProofs IndexProofs StepProofs Vec CVec.
From Verif Require Import Complex.
From Coq Require Import Lra Lia FunctionalExtensionality.
Open Scope R_scope.

Lemma fold_mul l : forall a, fold_left Z.mul l a = (a * fold_right Z.mul 1 l)%Z.
Proof. induction l as [|x l IH]; intros a; cbn [fold_left fold_right]; [ring|]. rewrite IH. ring. Qed.
Lemma grid_nodes_eq dom : grid_nodes dom = nodes dom.
Proof. unfold grid_nodes, nodes, num_nodes. rewrite fold_mul. f_equal. ring. Qed.

Section Grid.
  Variable dom : list Z.
  Hypothesis Hg : regular_grid dom.
  Let ft := fftw_transform dom.
  Let n := nodes dom.
  Let Hv : valid_domain dom := proj1 Hg.
  Let U : unitary_transform n ft := fftw_unitary dom Hv.
  Let G : good_transform n ft := fftw_good dom Hv.
  Let Pn : (0 < n)%nat := grid_pos dom Hg.
  Variables (solve : matrix -> matrix -> matrix) (mat : rank4) (misfit : matrix).
  Let c := rat mat.
  Hypothesis Hsol : solves solve.
  Hypothesis St : stiff c.
  Hypothesis Sm : symmetric3 misfit.

  Lemma tail_wave k d : (k < n)%nat -> (length dom <= d)%nat -> wave ft k d = 0.
  Proof. intros Hk Hd. unfold wave. apply nth_overflow. unfold ft. rewrite (tfreq_length dom Hv k Hk). exact Hd. Qed.

  Section Term.
    Hypothesis Hdim : length dom = 3%nat \/ in_plane mat misfit.
    Variable x : data.
    Let e := el_finished (el_new solve dom mat misfit) x.

    Lemma el_field_eq : el_field e = map (fun i => value x i) (seq 0 n).
    Proof. unfold e, el_finished, el_new. cbn [el_field]. rewrite repeat_length, grid_nodes_eq. reflexivity. Qed.
    Lemma el_freq_wave k : (k < n)%nat -> el_freq e k = wave ft k.
    Proof.
      intros Hk. apply functional_extensionality. intros d. unfold el_freq, e. cbn [el_finished el_new el_dim el_ft]. fold ft.
      destruct (Nat.eqb_spec (length dom) 3); [reflexivity|]. destruct (Nat.ltb_spec d (length dom)) as [L|L]; [reflexivity|].
      symmetry. apply tail_wave; assumption.
    Qed.
    Definition hx (i : nat) : R := blend (value x i).
    Definition el_work : data := fft ft (map (fun y => RtoC (blend y)) (el_field e)).
    Lemma el_work_mode k : nth k el_work C0 = mode n ft hx k.
    Proof. unfold el_work, mode, hx. rewrite el_field_eq, map_map. reflexivity. Qed.
    Lemma el_force_eq k comp : (k < n)%nat -> (comp < 3)%nat -> el_force e el_work k comp = effective_force mat misfit 3 comp (wave ft k) (mode n ft hx k).
    Proof.
      intros Hk Hc. unfold el_force. rewrite el_freq_wave, el_work_mode by exact Hk. unfold e at 1. cbn [el_finished el_new el_dim el_mat el_misfit].
      destruct (Nat.ltb_spec comp (length dom)) as [L|L]; [reflexivity|].
      destruct (proj1 Hv) as [D|D]; [|lia]. destruct Hdim as [D3|[I0 I1]]; [congruence|].
      assert (comp = 2%nat) by lia. subst comp.
      assert (Z : wave ft k 2 = 0) by (apply tail_wave; [exact Hk|lia]).
      unfold effective_force. cbv zeta. unfold csum. rewrite I0, I1, Z. csolve.
    Qed.
    Let eps : nat -> matrix := sol_strain dom solve mat (el_force e el_work).
    Lemma el_equilibrium : equilibrium_strain n ft c misfit hx eps.
    Proof. exact (sol_equilibrium dom Hg solve mat misfit hx (el_force e el_work) Hsol St el_force_eq). Qed.
    Lemma el_strain_eq a b : el_strain e a b = to_real ft (sol_modes dom solve mat (el_force e el_work) a b).
    Proof.
      unfold el_strain, sol_modes. f_equal. replace (el_nodes e) with n by (unfold e; cbn [el_finished el_new el_nodes]; rewrite grid_nodes_eq; reflexivity).
      apply map_ext_in. intros k Hk. apply in_seq in Hk. unfold el_disp, sol_disp. fold el_work. rewrite el_freq_wave by lia. reflexivity.
    Qed.
    Lemma el_strain_real a b : (a < 3)%nat -> (b < 3)%nat -> el_strain e a b = map (fun i => RtoC (eps i a b)) (seq 0 n).
    Proof. intros Ha Hb. rewrite el_strain_eq. symmetry. exact (sol_strain_modes dom Hg solve mat misfit hx (el_force e el_work) Hsol St el_force_eq a b Ha Hb). Qed.

    (** real space *)
    Notation RL g := (map (fun i : nat => RtoC (g i)) (seq 0 n)).
    Lemma RL_len g : length (RL g) = n. Proof. rewrite map_length, seq_length. reflexivity. Qed.
    Lemma RL_nth g i : (i < n)%nat -> nth i (RL g) C0 = RtoC (g i). Proof. exact (EnergyProofs3.nth_map_seq (fun i => RtoC (g i)) C0 n i). Qed.
    Lemma RL_map2 (f : C -> C -> C) (r : R -> R -> R) g g' : (forall a b, f (RtoC a) (RtoC b) = RtoC (r a b)) -> map2 f (RL g) (RL g') = RL (fun i => r (g i) (g' i)).
    Proof.
      intros H. apply (nth_ext _ _ C0 C0).
      - rewrite RL_len. apply StepProofs.map2_length; apply RL_len.
      - intros i Hi. rewrite (StepProofs.map2_length f _ _ n) in Hi by apply RL_len. rewrite nth_map2 by (rewrite ?RL_len; solve [exact Hi|reflexivity]).
        rewrite !RL_nth by exact Hi. apply H.
    Qed.
    Lemma el_weighted_eq a b : (a < 3)%nat -> (b < 3)%nat -> el_weighted e a b = fft ft (RL (fun i => eps i a b * blend_deriv (value x i))).
    Proof.
      intros Ha Hb. unfold el_weighted. rewrite el_strain_real, el_field_eq, map_map by assumption. f_equal.
      apply (RL_map2 Cmul Rmult (fun i => eps i a b) (fun i => blend_deriv (value x i))). intros. csolve.
    Qed.
    Definition pair_weight (a b : nat) : R := (if Nat.eqb a b then 1 else 2) * contract_last mat misfit a b.
    Lemma el_pass_eq g a b : (a < 3)%nat -> (b < 3)%nat ->
      el_pass e (fft ft (RL g)) (a, b) = fft ft (RL (fun i => g i + pair_weight a b * (eps i a b * blend_deriv (value x i)))).
    Proof.
      intros Ha Hb. unfold el_pass. rewrite el_weighted_eq by assumption.
      replace ((if Nat.eqb a b then 1 else 1 * 2) * contract_last (el_mat e) (el_misfit e) a b) with (pair_weight a b)
        by (unfold pair_weight, e; cbn [el_finished el_new el_mat el_misfit]; destruct (Nat.eqb a b); ring).
      rewrite <- (ut_fft_add _ _ U) by apply RL_len. f_equal. 
      apply (RL_map2 (fun u v => Cadd u (Cmul (RtoC (pair_weight a b)) v)) (fun u v => u + pair_weight a b * v)). intros. csolve.
    Qed.
    Lemma zeroed (field : data) : length field = n -> map (fun _ : C => C0) field = fft ft (RL (fun _ => 0)).
    Proof.
      intros L. apply (nth_ext _ _ C0 C0).
      - rewrite map_length, (gt_fft_len _ _ G) by apply RL_len. exact L.
      - intros i Hi. rewrite map_length in Hi. rewrite (nth_map_data (fun _ => C0) C0 field i Hi). symmetry.
        exact (mode_zero n ft U Pn i ltac:(lia)).
    Qed.

    Definition bulk_force (i : nat) : R := blend_deriv (value x i) * (bil c misfit (eps i) - hx i * bil c misfit misfit).
    Lemma contract_bil f : rsum 3 (fun i => rsum 3 (fun j => contract_last mat misfit i j * f i j)) = bil c misfit f.
    Proof.
      destruct St as (_ & _ & S3 & _). rewrite (bil_sym c misfit f S3). unfold bil, contract_last. fold c.
      apply rsum_ext; intros i _. apply rsum_ext; intros j _. rewrite <- rsum_mul_r. apply rsum_ext; intros p _. rewrite <- rsum_mul_r. apply rsum_ext; intros q _. ring.
    Qed.
    Lemma contract_sym a b : (a < 3)%nat -> (b < 3)%nat -> contract_last mat misfit a b = contract_last mat misfit b a.
    Proof. intros Ha Hb. destruct St as (S1 & _). unfold contract_last. fold c. apply rsum_ext; intros p Hp. apply rsum_ext; intros q Hq. rewrite (S1 a b p q) by assumption. reflexivity. Qed.
    Lemma eps_sym i : (i < n)%nat -> symmetric3 (eps i).
    Proof. exact (equilibrium_symmetric n ft U Pn c misfit hx eps el_equilibrium i). Qed.
    Lemma eps_flat i : length dom = 2%nat -> (i < n)%nat -> eps i 2%nat 2%nat = 0.
    Proof.
      intros D Hi. apply (mode_inj n ft U Pn (fun i => eps i 2%nat 2%nat)); [|exact Hi]. intros k Hk.
      transitivity (strain (wave ft k) (sol_disp dom solve mat (el_force e el_work) k) 2 2).
      { exact (sol_mode dom Hg solve mat misfit hx (el_force e el_work) Hsol St el_force_eq 2 2 k Hk ltac:(lia) ltac:(lia)). }
      unfold strain. rewrite (tail_wave k 2 Hk) by lia. rewrite drop_zero. csolve.
    Qed.

    Theorem construct_eq field : length field = n -> el_construct e field = fft ft (RL bulk_force).
    Proof.
      intros L. unfold el_construct. rewrite (zeroed field L).
      set (h := fun i => blend_deriv (value x i)).
      assert (A : fold_left (el_pass e) (pairs_upto (el_dim e)) (fft ft (RL (fun _ => 0))) = fft ft (RL (fun i => h i * bil c misfit (eps i)))).
      { unfold e at 2. cbn [el_finished el_new el_dim].
        assert (Fin : forall g, (forall i, (i < n)%nat -> g i = h i * bil c misfit (eps i)) -> fft ft (RL g) = fft ft (RL (fun i => h i * bil c misfit (eps i)))).
        { intros g Hgi. f_equal. apply map_ext_in. intros i Hi. apply in_seq in Hi. rewrite Hgi by lia. reflexivity. }
        destruct (proj1 Hv) as [D|D]; rewrite D.
        - change (pairs_upto 2) with [(0, 0); (0, 1); (1, 1)]%nat. cbn [fold_left].
          rewrite (el_pass_eq _ 0 0), (el_pass_eq _ 0 1), (el_pass_eq _ 1 1) by lia. apply Fin. intros i Hi.
          destruct Hdim as [D3|[I0 I1]]; [congruence|]. pose proof (eps_sym i Hi) as Sy. pose proof (eps_flat i D Hi) as F22.
          rewrite <- contract_bil. unfold pair_weight. cbn [rsum Nat.eqb].
          rewrite (contract_sym 0 2), (contract_sym 1 2), (contract_sym 1 0), I0, I1, F22, (Sy 1%nat 0%nat) by lia. unfold h. ring.
        - change (pairs_upto 3) with [(0, 0); (0, 1); (0, 2); (1, 1); (1, 2); (2, 2)]%nat. cbn [fold_left].
          rewrite (el_pass_eq _ 0 0), (el_pass_eq _ 0 1), (el_pass_eq _ 0 2), (el_pass_eq _ 1 1), (el_pass_eq _ 1 2), (el_pass_eq _ 2 2) by lia. apply Fin. intros i Hi.
          pose proof (eps_sym i Hi) as Sy.
          rewrite <- contract_bil. unfold pair_weight. cbn [rsum Nat.eqb].
          rewrite (contract_sym 2 0), (contract_sym 2 1), (contract_sym 1 0), (Sy 1%nat 0%nat), (Sy 2%nat 0%nat), (Sy 2%nat 1%nat) by lia. unfold h. ring. }
      rewrite A, el_field_eq, map_map.
      replace (energy_density (rat (el_mat e)) (el_misfit e)) with (/ 2 * bil c misfit misfit) by (rewrite <- bil_energy; reflexivity).
      change (map (fun y : nat => RtoC (blend (value x y) * blend_deriv (value x y))) (seq 0 n)) with (RL (fun i => hx i * h i)).
      set (q := bil c misfit misfit).
      assert (Sub : forall f w : C, Csub f (Cmul (RtoC (2 * (/ 2 * q))) w) = Cadd f (Cmul (RtoC (- q)) w)) by (intros; apply C_eq; cbn [Re Im Csub Cadd Cmul RtoC fst snd]; field).
      rewrite (functional_extensionality (fun f => _) (fun f w => Cadd f (Cmul (RtoC (- q)) w)) (fun f => functional_extensionality _ _ (Sub f))).
      rewrite <- (ut_fft_add _ _ U) by apply RL_len. f_equal.
      rewrite (RL_map2 (fun u v => Cadd u (Cmul (RtoC (- q)) v)) (fun u v => u + (- q) * v)) by (intros; csolve).
      apply map_ext. intros i. f_equal. unfold bulk_force. fold (h i) q. ring.
    Qed.
    Theorem construct_real field : length field = n -> to_real ft (el_construct e field) = RL bulk_force.
    Proof. intros L. rewrite (construct_eq field L). apply (gt_left _ _ G), RL_len. Qed.
  End Term.

  (** ** The derivative *)
  Theorem term_is_derivative x v field : (length dom = 3%nat \/ in_plane mat misfit) ->
    length x = n -> length v = n -> real_field x -> real_field v -> length field = n ->
    exists En, (forall t, exists eps, equilibrium_strain n ft c misfit (fun i => blend (value (perturb x v t) i)) eps /\
                   En t = total_energy n c misfit (fun i => blend (value (perturb x v t) i)) eps) /\
      derivable_pt_lim En 0 (- pairing n (to_real ft (el_construct (el_finished (el_new solve dom mat misfit) x) field)) v).
  Proof.
    intros Hdim Lx Lv Rx Rv Lf.
    pose (sol := fun h => sol_strain dom solve mat (fun k comp => effective_force mat misfit 3 comp (wave ft k) (mode n ft h k))).
    assert (Sol : forall h, equilibrium_strain n ft c misfit h (sol h)).
    { intros h. apply (sol_equilibrium dom Hg solve mat misfit h); [exact Hsol|exact St|reflexivity]. }
    pose (h1 := fun i => blend_deriv (value x i) * value v i). pose (h2 := fun i => (3 - 6 * value x i) * value v i ^ 2). pose (h3 := fun i => - 2 * value v i ^ 3).
    set (e := el_finished (el_new solve dom mat misfit) x).
    set (e0 := sol_strain dom solve mat (el_force e (el_work x))).
    assert (E0 : equilibrium_strain n ft c misfit (hx x) e0) by exact (el_equilibrium Hdim x).
    exists (fun t => total_energy n c misfit (path_h (hx x) h1 h2 h3 t) (path_e e0 (sol h1) (sol h2) (sol h3) t)). split.
    - intros t. exists (path_e e0 (sol h1) (sol h2) (sol h3) t).
      assert (P : forall i, (i < n)%nat -> path_h (hx x) h1 h2 h3 t i = blend (value (perturb x v t) i)).
      { intros i Hi. unfold path_h, hx, h1, h2, h3. unfold value at 7. rewrite perturb_nth by congruence. 
        replace (Re (Cadd (nth i x C0) (Cmul (RtoC t) (nth i v C0)))) with (value x i + t * value v i) by (unfold value; cbn; ring).
        unfold blend, blend_deriv. ring. }
      split.
      + refine (equilibrium_ext n ft Pn c misfit _ _ _ _ P (fun i a b _ _ _ => eq_refl) _).
        apply path_equilibrium; [exact U|exact Pn|exact E0|apply Sol|apply Sol|apply Sol].
      + unfold total_energy. apply rsum_ext. intros i Hi. rewrite (P i Hi). reflexivity.
    - destruct St as (S1 & S2 & S3 & _).
      refine (dlim_ext _ _ _ _ _ (fun y => eq_refl) _ (path_derivative n ft U Pn c misfit S1 S3 (hx x) h1 h2 h3 e0 (sol h1) (sol h2) (sol h3) E0 (Sol h1) (Sol h2) (Sol h3))).
      assert (Cr := construct_real Hdim x field Lf). fold e in Cr. rewrite Cr. unfold pairing. rewrite <- rsum_opp. apply rsum_ext. intros i Hi.
      rewrite RL_nth by exact Hi. unfold bulk_force, h1. fold e. fold e0. cbn [Re RtoC fst]. unfold value. ring.
  Qed.
End Grid.
