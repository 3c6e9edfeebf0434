(** The saddle search of a linear model with one field. *)
From Verif Require Import ListAux FileModel StepProofs SddProofs DftProofs RealSpec RealProofs SimProofs2 SimProofs5 LinearProofs LinearProofs2 SaddleSpec SaddleProofs SaddleProofs2 SaddleProofs3 Vec CVec Complex.
From Coq Require Import Lia Lra.
Open Scope R_scope.

Lemma len_ge n (o D : nat -> R) c : rsum n (fun j => o j * o j) = 1 ->
  1 <= sqrt (rsum n (fun j => (o j - c * (D j - rsum n (fun i => D i * o i) * o j)) ^ 2)).
Proof.
  intros Hu. set (mu := rsum n (fun i => D i * o i)). set (T := fun j => D j - mu * o j).
  assert (TO : rsum n (fun j => T j * o j) = 0).
  { unfold T. rewrite (rsum_ext n _ (fun j => D j * o j - mu * (o j * o j))) by (intros; ring). rewrite rsum_minus, rsum_mul_l, Hu. unfold mu. ring. }
  rewrite (rsum_ext n _ (fun j => o j * o j + (- (2 * c) * (T j * o j) + c * c * (T j * T j)))) by (intros; unfold T; ring).
  rewrite !rsum_plus, !rsum_mul_l, Hu, TO. rewrite <- sqrt_1 at 1. apply sqrt_le_1_alt.
  assert (0 <= c * c * rsum n (fun j => T j * T j)) by (apply Rmult_le_pos; [apply Rle_0_sqr|apply rsum_nonneg; intros; apply Rle_0_sqr]). lra.
Qed.

Lemma symbol_lap L lib f g q : norm_sq f = norm_sq g -> symbol L lib f q = symbol L lib g q.
Proof.
  intros H. unfold symbol. f_equal. apply map_ext. intros [it sgn]. cbn [fst snd]. f_equal. destruct it; cbn [item_symbol]; [|reflexivity]. unfold lap_symbol. rewrite H. reflexivity.
Qed.

Section LinearSearch.
  Variables (L : lang) (cs : list call) (q : eqtext) (m : mstate) (dom : list Z) (lib : library) (sg : nat -> R).
  Hypothesis LM : linear_model L cs [q].
  Hypothesis Em : run_calls new_mstate (cs ++ [CInit]) = Ok m.
  Hypothesis Hv : valid_domain dom.
  Hypothesis Hsq : square_layout dom.
  Let n := nodes dom.
  Let ft := fftw_transform dom.
  Hypothesis GL : good_library L n lib.
  Hypothesis RS : real_symbols L lib n ft q sg.
  Let p := simulation n ft lib m.
  Let U : unitary_transform n ft := fftw_unitary dom Hv.
  Let G := ut_good n ft U.
  Let HD := lm_declared _ _ _ LM.
  Let HL : l_fields L = [q_field q] := eq_sym (lm_order _ _ _ LM).
  Let FI := linear_independent L cs [q] LM lib.
  Let KL : keeps_length n p := sim_keeps_length L m n ft lib GL.
  Let CD : constant_denum p := sim_denum L cs [q] m HD Em n ft lib FI.

  Lemma one_field e : fits L n m e -> exists y, e_fields e = [y] /\ length y = n.
  Proof.
    intros (H1 & H2 & _). rewrite HL in H1. destruct (e_fields e) as [|y [|? ?]]; try discriminate. exists y. split; [reflexivity|]. inversion H2; assumption.
  Qed.

  Section Step.
    Variables (s : sdd) (e : env).
    Hypothesis Hs : searching n s e.
    Hypothesis Hf : fits L n m e.
    Let l := dimer_length s (sdd_time s).
    Let o := s_orient s.
    Let fo := fft ft (map RtoC o).
    Definition mean : R := rsum n (fun k => sg k * share n ft s k).

    Lemma n_pos : (0 < n)%nat. Proof. exact (dr_pos _ _ _ _ (se_ready _ _ _ Hs)). Qed.
    Lemma INR_pos : 0 < INR n. Proof. apply lt_0_INR, n_pos. Qed.
    Lemma lo : length o = n. Proof. exact (len_o n s e Hs). Qed.
    Lemma lm : length (map RtoC o) = n. Proof. rewrite map_length. exact lo. Qed.
    Lemma lfo : length fo = n. Proof. apply (gt_fft_len _ _ G), lm. Qed.
    Lemma shares_one : rsum n (share n ft s) = 1.
    Proof.
      assert (H := orient_norm n ft U s e Hs). apply (f_equal Re) in H. unfold inner in H. rewrite csum_re in H. cbn [RtoC Re fst] in H.
      unfold share. rewrite (rsum_ext n _ (fun k => / INR n * Re (Cmul (nth k (fft ft (map RtoC (s_orient s))) C0) (Cconj (nth k (fft ft (map RtoC (s_orient s))) C0))))).
      - rewrite rsum_mul_l, H. field. apply Rgt_not_eq, INR_pos.
      - intros k Hk. unfold orient_mode. destruct (nth k (fft ft (map RtoC (s_orient s))) C0) as [a b]. unfold Cnorm2, Cmul, Cconj, Rdiv. cbn [Re Im fst snd]. ring.
    Qed.
    Lemma share_pos k : 0 <= share n ft s k.
    Proof. unfold share, Rdiv. apply Rmult_le_pos; [apply Cnorm2_nonneg|]. apply Rlt_le, Rinv_0_lt_compat, INR_pos. Qed.

    (** The pull on the dimer is real. *)
    Lemma pull_mode a : length a = n -> (forall k, (k < n)%nat -> nth k a C0 = symbol L lib (tfreq ft k) q) -> forall k, (k < n)%nat ->
      nth k (pull ft l o (repeat C0 n) (repeat C0 n) a) C0 = Cmul (RtoC (- (l * sg k))) (nth k fo C0).
    Proof.
      intros La Ha k Hk. unfold pull. rewrite (map3_nth' _ _ _ _ k n) by (try apply StepProofs.map2_length; try apply repeat_length; try exact lfo; assumption).
      rewrite (map2_nth' _ _ _ k n) by (try apply repeat_length; assumption). rewrite nth_repeat, (Ha k Hk), (RS k Hk). fold fo. rewrite RtoC_opp, RtoC_mul. ring.
    Qed.
    Lemma pull_length a : length a = n -> length (pull ft l o (repeat C0 n) (repeat C0 n) a) = n.
    Proof. intros La. unfold pull. apply map3_length; [apply StepProofs.map2_length; apply repeat_length|exact La|exact lfo]. Qed.
    Lemma pull_real a : length a = n -> (forall k, (k < n)%nat -> nth k a C0 = symbol L lib (tfreq ft k) q) ->
      forall j, (j < n)%nat -> Im (nth j (to_real ft (pull ft l o (repeat C0 n) (repeat C0 n) a)) C0) = 0.
    Proof.
      intros La Ha j Hj. assert (R : real_field (to_real ft (pull ft l o (repeat C0 n) (repeat C0 n) a))).
      { apply real_of_hermitian; [exact Hv|exact Hsq|exact (pull_length a La)|]. apply (herm_ext dom _ (fun k => Cmul (RtoC (- (l * sg k))) (nth k fo C0)) Hv (pull_mode a La Ha)).
        intros k k' Hk Hk' Hc. assert (HO : hermitian dom fo).
        { apply hermitian_of_real; [exact Hv|exact Hsq|]. unfold real_field. apply Forall_map. apply Forall_forall. intros; reflexivity. }
        apply herm_iff in HO; [|exact Hv]. cbv beta in HO. rewrite (HO k k' Hk Hk' Hc), Cconj_mul, Cconj_RtoC. f_equal. f_equal. f_equal. f_equal.
        apply RtoC_inj. rewrite <- (RS k Hk), <- (RS k' Hk'). apply symbol_lap. exact (conj_norm_sq _ _ (conj_tfreq dom k k' Hv Hk Hk' Hc)). }
      unfold real_field in R. rewrite Forall_forall in R. apply R, nth_In. unfold to_real. rewrite div_real_length, (gt_ifft_len _ _ G _ (pull_length a La)). exact Hj.
    Qed.

    Lemma search_step : exists s' e' y y' a, sdd_step p ft s e = Some (s', e') /\ searching n s' e' /\ fits L n m e'
      /\ s_dt s' = s_dt s /\ s_tau_orient s' = s_tau_orient s
      /\ (exists len, 1 <= len /\ forall k, (k < n)%nat -> orient_mode ft s' k = Cmul (RtoC ((1 + s_dt s / s_tau_orient s * (sg k - mean)) / len)) (orient_mode ft s k))
      /\ e_fields e = [y] /\ e_fields e' = [y'] /\ length y = n /\ length y' = n /\ length a = n /\ (forall k, (k < n)%nat -> nth k a C0 = RtoC (sg k))
      /\ (regular_step n (s_dt s) fo a -> dimer_equation n (s_dt s) fo a (repeat C0 n) (fft ft y) (fft ft y')).
    Proof.
      destruct (one_field e Hf) as (y & Ey & Ly).
      destruct (linear_denum L cs [q] LM m Em n ft lib GL G (at_centre p ft l o e) 0%nat q (sdd_time s) eq_refl) as (a & E3 & La & Ha). fold p in E3.
      assert (E1 := linear_rhs L cs [q] LM m Em n ft lib (at_start p ft l o e) 0%nat (sdd_time s) (le_n 1)). fold p in E1.
      assert (E2 := linear_rhs L cs [q] LM m Em n ft lib (at_end p ft l o e) 0%nat (sdd_time s) (le_n 1)). fold p in E2.
      destruct (one_step n ft p U KL s e y (repeat C0 n) (repeat C0 n) a Hs Ey CD E1 E2 E3) as (y' & e' & E5 & Ey' & Ly' & Ed & HQ). fold l o in E5, Ed, HQ.
      assert (Hs' := Hs). destruct Hs' as [Rd Hi Hdt]. destruct (sdd_step_ready n 1 p ft s e _ _ U KL Rd E5) as (RD' & _).
      eexists. exists e', y, y', a. split; [exact E5|]. split; [split; [exact RD'|reflexivity|exact Hdt]|].
      assert (SS : forall e, length (e_derived (spectrum p ft e)) = length (e_derived e)) by exact (spectrum_slots m n ft lib).
      split. { assert (Hf' := Hf). destruct Hf' as (H3 & H4 & H5). split; [rewrite Ey', HL; reflexivity|]. split; [rewrite Ey'; constructor; [exact Ly'|constructor]|].
        rewrite Ed. unfold at_centre. rewrite model_fft_spectrum, SS. cbn [shift_model model_ifft e_derived].
        unfold at_end. rewrite model_fft_spectrum, SS. cbn [shift_model model_ifft e_derived]. unfold at_start. rewrite model_fft_spectrum, SS. exact H5. }
      split; [reflexivity|]. split; [reflexivity|].
      split; [|split; [exact Ey|]; split; [exact Ey'|]; split; [exact Ly|]; split; [exact Ly'|]; split; [exact La|]; split; [intros k Hk; rewrite (Ha k Hk); apply RS, Hk|]].
      2: { intros Reg. specialize (HQ Reg). intros i Hi'. refine (eq_trans (HQ i Hi') _). fold fo. f_equal. f_equal. apply reflect_ext; [|exact Hi']. intros j Hj. unfold weighted.
           rewrite (map2_nth' _ _ _ j n) by (try apply repeat_length; assumption). rewrite nth_repeat. ring. }
      set (P := pull ft l o (repeat C0 n) (repeat C0 n) a). assert (LP : length P = n) by exact (pull_length a La).
      destruct (turn_value n ft U s P n_pos lo LP (pull_real a La Ha)) as (len & EL & HT). cbv zeta in EL, HT. fold o in EL, HT.
      assert (Hu : rsum n (fun j => nth j o 0 * nth j o 0) = 1). { assert (H := dr_unit _ _ _ _ Rd). unfold unit_vector in H. fold o in H. rewrite lo in H. exact H. }
      assert (Hlen : 1 <= len). { rewrite EL. apply (len_ge n (fun j => nth j o 0) (fun j => Re (nth j (to_real ft P) C0))). exact Hu. }
      exists len. split; [exact Hlen|]. intros k Hk.
      set (c := s_dt s / (dimer_length s (sdd_time s) * s_tau_orient s)) in *. set (mu := rsum n (fun i => Re (nth i (to_real ft P) C0) * nth i o 0)) in *.
      assert (Hl : 0 < l) by (apply dimer_length_pos, (dr_len _ _ _ _ Rd)). assert (Ht := dr_tau _ _ _ _ Rd).
      assert (LR : length (to_real ft P) = n) by (unfold to_real; rewrite div_real_length; apply (gt_ifft_len _ _ G), LP).
      assert (Emu : mu = - (l * mean)).
      { assert (H := fft_inner n ft P (map RtoC o) U LP lm n_pos). apply (f_equal Re) in H.
        assert (A : Re (inner n (to_real ft P) (map RtoC o)) = mu).
        { unfold inner. rewrite csum_re. unfold mu. apply rsum_ext. intros i Hi'. rewrite map_RtoC_nth. destruct (nth i (to_real ft P) C0). unfold Cmul, Cconj, RtoC. cbn [Re Im fst snd]. ring. }
        rewrite A in H. rewrite H. unfold Cdiv. rewrite <- RtoC_inv by (apply Rgt_not_eq, INR_pos).
        transitivity (rsum n (fun i => Re (Cmul (nth i P C0) (Cconj (nth i fo C0)))) * / INR n).
        - rewrite <- csum_re. fold fo. unfold inner. destruct (csum n (fun i => Cmul (nth i P C0) (Cconj (nth i fo C0)))) as [u v]. unfold Cmul, RtoC. cbn [Re Im fst snd]. ring.
        - unfold mean. rewrite Ropp_mult_distr_l, <- rsum_mul_l, <- rsum_mul_r. apply rsum_ext. intros i Hi'. unfold P. rewrite (pull_mode a La Ha i Hi'). unfold share, orient_mode. fold o fo.
          destruct (nth i fo C0) as [u v]. unfold Cnorm2, Cmul, Cconj, RtoC, Rdiv. cbn [Re Im fst snd]. ring. }
      assert (Ecl : c * l = s_dt s / s_tau_orient s) by (unfold c; fold l; field; split; [exact Ht|lra]).
      unfold orient_mode at 1. cbn [s_orient]. unfold torque1. fold o P fo.
      set (be := RtoC ((1 + c * mu) / len)). set (ga := RtoC (- c / len)).
      assert (EO : map RtoC (turn s (to_real ft (householder P fo 1 n))) = map2 (fun u v => Cadd u (Cmul ga v)) (map2 (fun u v => Cadd u (Cmul (Csub be C1) v)) (map RtoC o) (map RtoC o)) (to_real ft P)).
      { assert (L1 : length (map2 (fun u v => Cadd u (Cmul (Csub be C1) v)) (map RtoC o) (map RtoC o)) = n) by (apply StepProofs.map2_length; exact lm).
        apply (list_eq_nth _ _ n).
        - rewrite map_length. unfold turn. rewrite map_length. apply StepProofs.map2_length; [exact lo|]. unfold to_real. rewrite div_real_length. apply (gt_ifft_len _ _ G), householder_length; [exact LP|exact lfo].
        - apply StepProofs.map2_length; assumption.
        - intros j Hj. rewrite map_RtoC_nth. unfold fo. rewrite (HT j Hj), (map2_nth' _ _ _ j n L1 LR Hj), (map2_nth' _ _ _ j n lm lm Hj), !map_RtoC_nth.
          assert (HI := pull_real a La Ha j Hj). fold P in HI. destruct (nth j (to_real ft P) C0) as [u v]. cbn [Re Im fst snd] in *. subst v. unfold be, ga, C1, Csub, Cadd, Cmul, RtoC. cbn [Re Im fst snd].
          f_equal; [field; lra|ring]. }
      rewrite EO. rewrite (ut_fft_add n ft U ga _ _) by (try apply StepProofs.map2_length; try exact lm; exact LR).
      rewrite (ut_fft_add n ft U _ _ _ lm lm), (gt_inverse _ _ G P LP). fold fo.
      rewrite (map2_nth' _ _ _ k n) by (try apply StepProofs.map2_length; try exact lfo; assumption). rewrite (map2_nth' _ _ _ k n lfo lfo Hk).
      unfold P. rewrite (pull_mode a La Ha k Hk). unfold orient_mode. fold o fo.
      replace (1 + s_dt s / s_tau_orient s * (sg k - mean)) with (1 + c * mu + c * l * sg k) by (rewrite Emu, <- Ecl; ring).
      replace ((1 + c * mu + c * l * sg k) / len) with ((1 + c * mu) / len + (- c / len) * (- (l * sg k))) by (field; lra).
      rewrite RtoC_add, RtoC_mul. fold be ga. ring.
    Qed.
  End Step.
End LinearSearch.
