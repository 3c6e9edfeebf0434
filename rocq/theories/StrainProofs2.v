(** The displacements computed by the code give the strain of mechanical
    equilibrium. *)
From Verif Require Import StrainSpec StrainProofs ElasticProofs RealProofs RealProofs3 GradProofs GradProofs2 EnergyProofs3 DftProofs IndexProofs StepProofs Vec CVec.
From Verif Require Import Complex.
From Coq Require Import Lra Lia Qreals FunctionalExtensionality.
Open Scope R_scope.

(** ** Displacements *)
Lemma displacement_rows solve c f force : solves solve -> (exists i, (i < 3)%nat /\ / 10 ^ 10 <= Rabs (f i)) -> det3 (displacement_matrix c f) <> 0 ->
  forall i, (i < 3)%nat -> rsum 3 (fun j => displacement_matrix c f i j * Re (displacement solve c f force j)) = Re (force i) /\
                           rsum 3 (fun j => displacement_matrix c f i j * Im (displacement solve c f force j)) = Im (force i).
Proof.
  intros Hs Hf Hd i Hi. unfold displacement. rewrite regular_not_tiny by exact Hf.
  set (b := fun (i col : nat) => match col with O => Re (force i) | S _ => Im (force i) end).
  split; [exact (Hs _ b Hd i 0%nat Hi)|exact (Hs _ b Hd i 1%nat Hi)].
Qed.
Lemma displacement_ext solve c f F F' : solves solve -> (exists i, (i < 3)%nat /\ / 10 ^ 10 <= Rabs (f i)) -> det3 (displacement_matrix c f) <> 0 ->
  (forall i, (i < 3)%nat -> F i = F' i) -> forall i, (i < 3)%nat -> displacement solve c f F i = displacement solve c f F' i.
Proof.
  intros Hs Hf Hd E i Hi.
  apply C_eq; [apply (regular_unique _ (fun j => Re (displacement solve c f F j)) (fun j => Re (displacement solve c f F' j)) Hd); [|exact Hi]
              |apply (regular_unique _ (fun j => Im (displacement solve c f F j)) (fun j => Im (displacement solve c f F' j)) Hd); [|exact Hi]];
  intros q Hq; destruct (displacement_rows solve c f F Hs Hf Hd q Hq) as [A B]; destruct (displacement_rows solve c f F' Hs Hf Hd q Hq) as [A' B'];
  rewrite (E q Hq) in A, B; congruence.
Qed.
Lemma matrix_even c f g : (forall d, (d < 3)%nat -> g d = - f d) -> forall i j, displacement_matrix c g i j = displacement_matrix c f i j.
Proof.
  intros E i j. unfold displacement_matrix. f_equal. apply rsum_ext; intros a Ha. apply rsum_ext; intros b Hb. rewrite !E by assumption. ring.
Qed.
Lemma displacement_conj solve c f g F F' : solves solve -> (exists i, (i < 3)%nat /\ / 10 ^ 10 <= Rabs (f i)) -> det3 (displacement_matrix c f) <> 0 ->
  (forall d, (d < 3)%nat -> g d = - f d) -> (forall i, (i < 3)%nat -> F' i = Cconj (F i)) ->
  forall i, (i < 3)%nat -> displacement solve c g F' i = Cconj (displacement solve c f F i).
Proof.
  intros Hs Hf Hd Eg E i Hi.
  assert (Hf' : exists i, (i < 3)%nat /\ / 10 ^ 10 <= Rabs (g i)).
  { destruct Hf as (d & Hd' & L). exists d. split; [exact Hd'|]. rewrite Eg, Rabs_Ropp by exact Hd'. exact L. }
  assert (Hd' : det3 (displacement_matrix c g) <> 0) by (unfold det3, ent in *; rewrite !(matrix_even c f g Eg); exact Hd).
  apply C_eq; [apply (regular_unique _ (fun j => Re (displacement solve c g F' j)) (fun j => Re (Cconj (displacement solve c f F j))) Hd); [|exact Hi]
              |apply (regular_unique _ (fun j => Im (displacement solve c g F' j)) (fun j => Im (Cconj (displacement solve c f F j))) Hd); [|exact Hi]];
  intros q Hq; destruct (displacement_rows solve c f F Hs Hf Hd q Hq) as [A B]; destruct (displacement_rows solve c g F' Hs Hf' Hd' q Hq) as [A' B'].
  - rewrite E in A' by exact Hq. cbn [Cconj Re fst] in *. rewrite (rsum_ext 3 _ (fun j => displacement_matrix c g q j * Re (displacement solve c g F' j))) by (intros; rewrite (matrix_even c f g Eg); reflexivity).
    rewrite A'. symmetry. exact A.
  - rewrite E in B' by exact Hq. rewrite (rsum_ext 3 _ (fun j => displacement_matrix c g q j * Im (displacement solve c g F' j))) by (intros; rewrite (matrix_even c f g Eg); reflexivity).
    rewrite B'. rewrite (rsum_ext 3 _ (fun j => - (displacement_matrix c f q j * Im (displacement solve c f F j)))) by (intros; cbn; ring). rewrite rsum_opp, B. reflexivity.
Qed.

Lemma drop_zero : drop_nyquist 0 = 0.
Proof. apply drop_nyquist_id. rewrite Rabs_R0. unfold Rminus. rewrite Rplus_0_l, Rabs_Ropp, Rabs_right by lra. lra. Qed.

Section Grid.
  Variable dom : list Z.
  Hypothesis Hg : regular_grid dom.
  Let ft := fftw_transform dom.
  Let n := nodes dom.
  Let Hv : valid_domain dom := proj1 Hg.
  Let Hs : square_layout dom := proj1 (proj2 Hg).
  Let Hm : moderate dom := proj1 (proj2 (proj2 Hg)).
  Let Ho : odd_domain dom := proj2 (proj2 (proj2 Hg)).
  Let U : unitary_transform n ft := fftw_unitary dom Hv.
  Let G : good_transform n ft := fftw_good dom Hv.
  Lemma grid_pos : (0 < n)%nat.
  Proof. unfold n, nodes. pose proof (num_nodes_pos dom (proj2 Hv)). lia. Qed.

  (** ** Frequencies *)
  Lemma wave_off_nyquist k d : (k < n)%nat -> / 10 ^ 10 <= Rabs (Rabs (wave ft k d) - 0.5).
  Proof.
    intros Hk. destruct (Rle_dec (/ 10 ^ 10) (Rabs (Rabs (wave ft k d) - 0.5))) as [L|L]; [exact L|exfalso].
    apply (odd_no_nyquist dom Hv k d Ho Hk). unfold wave, ft in L.
    destruct (lt_dec d (length dom)) as [Hd|Hd].
    - destruct (tfreq_fraction dom Hv k d Hk Hd) as (c & m & M & Hc & Hin & E). rewrite E in L |- *.
      apply near_half_real; [apply (moderate_in dom Hv Hm), Hin|exact Hc|]. replace (1 / 2) with 0.5 by lra. lra.
    - rewrite nth_overflow in L by (rewrite (tfreq_length dom Hv k Hk); lia). exfalso. apply L.
      rewrite Rabs_R0. unfold Rminus. rewrite Rplus_0_l, Rabs_Ropp, Rabs_right by lra. lra.
  Qed.
  Lemma wave_large k d : (k < n)%nat -> wave ft k d = 0 \/ / 10 ^ 10 <= Rabs (wave ft k d).
  Proof.
    intros Hk. unfold wave, ft. destruct (lt_dec d (length dom)) as [Hd|Hd].
    - destruct (tfreq_fraction dom Hv k d Hk Hd) as (c & m & M & Hc & Hin & E). rewrite E.
      pose proof (freq1_princ c m ltac:(lia) Hc) as Q. apply Qeq_eqR in Q.
      rewrite Q2R_div, !Q2R_inject in Q by (unfold Qeq; cbn; lia). rewrite Q.
      destruct (Z.eq_dec (princ c m) 0) as [Z|Z]; [left; rewrite Z; unfold Rdiv; ring|right].
      destruct (moderate_in dom Hv Hm m Hin) as [M1 M2].
      assert (B : 1 <= Rabs (IZR (princ c m))) by (rewrite <- abs_IZR; apply IZR_le; lia).
      apply IZR_le in M2. apply IZR_lt in M1.
      unfold Rdiv. rewrite Rabs_mult, (Rabs_right (/ IZR m)) by (apply Rle_ge, Rlt_le, Rinv_0_lt_compat, M1).
      apply Rle_trans with (1 * / IZR m).
      + rewrite Rmult_1_l. apply Rinv_le_contravar; [exact M1|]. apply Rle_trans with 5000000000; [exact M2|lra].
      + apply Rmult_le_compat_r; [apply Rlt_le, Rinv_0_lt_compat, M1|exact B].
    - left. apply nth_overflow. rewrite (tfreq_length dom Hv k Hk). lia.
  Qed.
  Lemma wave_cases k : (k < n)%nat -> (forall d, (d < 3)%nat -> wave ft k d = 0) \/ regular_frequency (wave ft k).
  Proof.
    intros Hk. 
    assert (R : (exists i, (i < 3)%nat /\ / 10 ^ 10 <= Rabs (wave ft k i)) -> regular_frequency (wave ft k)).
    { intros H. split; [exact H|]. intros i _. apply wave_off_nyquist, Hk. }
    destruct (wave_large k 0 Hk) as [Z0|N]; [|right; apply R; exists 0%nat; split; [lia|exact N]].
    destruct (wave_large k 1 Hk) as [Z1|N]; [|right; apply R; exists 1%nat; split; [lia|exact N]].
    destruct (wave_large k 2 Hk) as [Z2|N]; [|right; apply R; exists 2%nat; split; [lia|exact N]].
    left. intros [|[|[|d]]] Hd; try lia; assumption.
  Qed.
  Lemma wave_drop k d : (k < n)%nat -> drop_nyquist (wave ft k d) = wave ft k d.
  Proof. intros Hk. apply drop_nyquist_id, wave_off_nyquist, Hk. Qed.
  Lemma wave_conj k m d : (k < n)%nat -> (m < n)%nat -> conjugate_node dom (Z.of_nat k) = Some (Z.of_nat m) -> wave ft m d = - wave ft k d.
  Proof.
    intros Hk Hm' Hc. destruct (conj_nth _ _ d (conj_tfreq dom k m Hv Hk Hm' Hc)) as [E|[_ E2]]; [exact E|].
    exfalso. exact (odd_no_nyquist dom Hv k d Ho Hk E2).
  Qed.
  Lemma regular_nonzero f : regular_frequency f -> exists i, (i < 3)%nat /\ f i <> 0.
  Proof. intros [(i & Hi & L) _]. exists i. split; [exact Hi|]. intros E. rewrite E, Rabs_R0 in L. lra. Qed.

  (** ** Solving *)
  Section Solved.
    Variables (solve : matrix -> matrix -> matrix) (mat : rank4) (misfit : matrix) (h : nat -> R) (F : nat -> nat -> C).
    Let c := rat mat.
    Hypothesis Hsol : solves solve.
    Hypothesis St : stiff c.
    Hypothesis HF : forall k comp, (k < n)%nat -> (comp < 3)%nat -> F k comp = effective_force mat misfit 3 comp (wave ft k) (mode n ft h k).
    Definition sol_disp (k : nat) : nat -> C := displacement solve c (wave ft k) (F k).
    Definition sol_modes (a b : nat) : data := map (fun k => strain (wave ft k) (sol_disp k) a b) (seq 0 n).
    Definition sol_strain (i : nat) : matrix := fun a b => Re (nth i (to_real ft (sol_modes a b)) C0).

    Lemma sol_len a b : length (sol_modes a b) = n.
    Proof. unfold sol_modes. rewrite map_length, seq_length. reflexivity. Qed.
    Lemma sol_nth a b k : (k < n)%nat -> nth k (sol_modes a b) C0 = strain (wave ft k) (sol_disp k) a b.
    Proof. intros Hk. exact (EnergyProofs3.nth_map_seq (fun k => strain (wave ft k) (sol_disp k) a b) C0 n k Hk). Qed.

    Lemma mode_conj k m : (k < n)%nat -> (m < n)%nat -> conjugate_node dom (Z.of_nat k) = Some (Z.of_nat m) -> mode n ft h m = Cconj (mode n ft h k).
    Proof.
      intros Hk Hm' Hc. unfold mode.
      assert (Hr : real_field (map (fun i => RtoC (h i)) (seq 0 n))) by (apply Forall_forall; intros z Hz; apply in_map_iff in Hz; destruct Hz as (i & <- & _); reflexivity).
      pose proof (hermitian_of_real dom _ Hv Hs Hr k _ Hk Hc) as E. rewrite Nat2Z.id in E. exact E.
    Qed.
    Lemma sol_disp_conj k m i : (k < n)%nat -> (m < n)%nat -> conjugate_node dom (Z.of_nat k) = Some (Z.of_nat m) -> (i < 3)%nat ->
      sol_disp m i = Cconj (sol_disp k i).
    Proof.
      intros Hk Hm' Hc Hi. unfold sol_disp. destruct (wave_cases k Hk) as [Z|Rg].
      - rewrite !displacement_zero; [csolve|exact Z|]. intros d Hd. rewrite (wave_conj k m d Hk Hm' Hc), (Z d Hd). ring.
      - apply displacement_conj; [exact Hsol|exact (proj1 Rg)|exact (stiff_elliptic c _ St (regular_nonzero _ Rg))|intros d _; exact (wave_conj k m d Hk Hm' Hc)| |exact Hi].
        intros q Hq. rewrite !HF by assumption. unfold effective_force. rewrite csum_conj. apply csum_ext. intros j _.
        rewrite (mode_conj k m Hk Hm' Hc), (wave_conj k m j Hk Hm' Hc). csolve.
    Qed.
    Lemma sol_real a b : (a < 3)%nat -> (b < 3)%nat -> real_field (to_real ft (sol_modes a b)).
    Proof.
      intros Ha Hb. apply (real_of_hermitian dom); [exact Hv|exact Hs|apply sol_len|].
      apply (herm_ext dom _ (fun k => strain (wave ft k) (sol_disp k) a b) Hv); [intros j Hj; apply sol_nth; exact Hj|].
      intros k m Hk Hm' Hc. unfold strain. rewrite !wave_drop by assumption. rewrite !(wave_conj k m _ Hk Hm' Hc).
      rewrite !(sol_disp_conj k m _ Hk Hm' Hc) by assumption. csolve.
    Qed.
    Lemma sol_strain_modes a b : (a < 3)%nat -> (b < 3)%nat -> map (fun i => RtoC (sol_strain i a b)) (seq 0 n) = to_real ft (sol_modes a b).
    Proof.
      intros Ha Hb. assert (L : length (to_real ft (sol_modes a b)) = n).
      { unfold to_real, div_real. rewrite map_length. apply (gt_ifft_len _ _ G), sol_len. }
      apply (nth_ext _ _ C0 C0).
      - rewrite map_length, seq_length. symmetry. exact L.
      - intros i Hi. rewrite map_length, seq_length in Hi. rewrite (EnergyProofs3.nth_map_seq (fun i => RtoC (sol_strain i a b)) C0 n i Hi).
        unfold sol_strain. pose proof (proj1 (real_field_nth _) (sol_real a b Ha Hb) i ltac:(rewrite L; exact Hi)) as I.
        apply C_eq; [reflexivity|]. rewrite I. reflexivity.
    Qed.
    Lemma sol_mode a b k : (k < n)%nat -> (a < 3)%nat -> (b < 3)%nat -> mode n ft (fun i => sol_strain i a b) k = strain (wave ft k) (sol_disp k) a b.
    Proof.
      intros Hk Ha Hb. unfold mode. rewrite (sol_strain_modes a b Ha Hb), (gt_inverse _ _ G) by apply sol_len. apply sol_nth, Hk.
    Qed.
    Lemma sol_mode_stress a b k : (k < n)%nat -> (a < 3)%nat -> (b < 3)%nat ->
      mode n ft (fun i => node_stress c misfit (sol_strain i) (h i) a b) k = stress_mode c (strain (wave ft k) (sol_disp k)) misfit (mode n ft h k) a b.
    Proof.
      intros Hk Ha Hb. unfold node_stress, stress_mode.
      assert (MR : forall g : nat -> nat -> R, mode n ft (fun i => rsum 3 (fun p => g p i)) k = csum 3 (fun p => mode n ft (g p) k)).
      { intros g. cbn [csum]. 
        rewrite (mode_ext n ft grid_pos _ (fun i => (rsum 2 (fun p => g p i)) + 1 * g 2%nat i) k) by (intros; cbn [rsum]; ring).
        rewrite (mode_lin n ft U grid_pos (fun i => rsum 2 (fun p => g p i)) (g 2%nat) 1 k Hk).
        rewrite (mode_ext n ft grid_pos _ (fun i => (rsum 1 (fun p => g p i)) + 1 * g 1%nat i) k) by (intros; cbn [rsum]; ring).
        rewrite (mode_lin n ft U grid_pos (fun i => rsum 1 (fun p => g p i)) (g 1%nat) 1 k Hk).
        rewrite (mode_ext n ft grid_pos _ (fun i => 0 + 1 * g 0%nat i) k) by (intros; cbn [rsum]; ring).
        rewrite (mode_lin n ft U grid_pos (fun i => 0) (g 0%nat) 1 k Hk), (mode_zero n ft U grid_pos k Hk). csolve. }
      rewrite (MR (fun p i => rsum 3 (fun l => c a b p l * (sol_strain i p l - misfit p l * h i)))). apply csum_ext. intros p Hp.
      rewrite (MR (fun l i => c a b p l * (sol_strain i p l - misfit p l * h i))). apply csum_ext. intros l Hl.
      rewrite (mode_ext n ft grid_pos _ (fun i => 0 + c a b p l * (sol_strain i p l + (- misfit p l) * h i)) k) by (intros; ring).
      rewrite (mode_lin n ft U grid_pos (fun i => 0) (fun i => sol_strain i p l + (- misfit p l) * h i) _ k Hk), (mode_zero n ft U grid_pos k Hk).
      rewrite (mode_lin n ft U grid_pos (fun i => sol_strain i p l) h _ k Hk), (sol_mode p l k Hk Hp Hl). csolve.
    Qed.

    Theorem sol_equilibrium : equilibrium_strain n ft c misfit h sol_strain.
    Proof.
      exists sol_disp. split.
      - intros k a b Hk Ha Hb. rewrite sol_mode by assumption. unfold strain. rewrite !wave_drop by exact Hk.
        apply C_eq; cbn [Re Im Cadd Cmul RtoC fst snd]; field.
      - intros k m Hk Hm'. destruct (wave_cases k Hk) as [Z|Rg].
        + unfold divergence_mode. rewrite (csum_ext 3 _ (fun _ => C0)), csum_zero; [reflexivity|]. intros j Hj. rewrite (Z j Hj). csolve.
        + assert (De := stiff_elliptic c _ St (regular_nonzero _ Rg)). destruct St as (_ & S2 & _).
          rewrite <- (equilibrium solve mat misfit (wave ft k) (mode n ft h k) m Hsol S2 Rg De Hm').
          unfold divergence_mode. apply csum_ext. intros j Hj. f_equal. rewrite sol_mode_stress by assumption.
          unfold stress_mode. apply csum_ext. intros p Hp. apply csum_ext. intros q Hq. f_equal. f_equal. unfold strain, sol_disp.
          assert (E := fun i Hi => displacement_ext solve c (wave ft k) (F k) (fun a => effective_force mat misfit 3 a (wave ft k) (mode n ft h k)) Hsol (proj1 Rg) De (fun q Hq => HF k q Hk Hq) i Hi).
          rewrite (E p Hp), (E q Hq). reflexivity.
    Qed.
  End Solved.
End Grid.
