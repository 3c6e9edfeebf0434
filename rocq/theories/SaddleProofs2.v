(** The saddle search of a declared model with one field: when a step changes
    nothing. *)
From Verif Require Import ListAux FileModel StepProofs SddProofs DftProofs SimProofs2 SimProofs5 SaddleSpec SaddleProofs Vec CVec Complex.
From Coq Require Import Lia Lra.
Open Scope R_scope.

Lemma dimer_length_pos s t : 0 < s_init_len s -> 0 < dimer_length s t.
Proof.
  intros H. unfold dimer_length. assert (0 < s_init_len s * exp (- t / s_tau_dimer s)) by (apply Rmult_lt_0_compat; [exact H|apply exp_pos]).
  destruct (Rlt_dec _ _); lra.
Qed.
Lemma model_fft_spectrum p ft e : model_fft p ft e = spectrum p ft e.
Proof. unfold model_fft, spectrum. cbv zeta. rewrite sync_fields. reflexivity. Qed.

Section OneField.
  Variables (L : lang) (cs : list call) (q : eqtext) (m : mstate).
  Hypothesis HD : declared L cs [q].
  Hypothesis HL : l_fields L = [q_field q].
  Hypothesis Em : run_calls new_mstate (cs ++ [CInit]) = Ok m.
  Variables (n : nat) (ft : transform) (lib : library).
  Hypothesis GL : good_library L n lib.
  Hypothesis FI : field_independent cs lib.
  Hypothesis U : unitary_transform n ft.
  Let p := simulation n ft lib m.
  Let G := ut_good n ft U.
  Let KL : keeps_length n p := sim_keeps_length L m n ft lib GL.
  Let CD : constant_denum p := sim_denum L cs [q] m HD Em n ft lib FI.

  Lemma sync_slots e : length (e_derived (sync p e)) = length (e_derived e).
  Proof. unfold sync. apply sync_from_count. Qed.
  Lemma spectrum_slots e : length (e_derived (spectrum p ft e)) = length (e_derived e).
  Proof. unfold spectrum. cbn [e_derived]. rewrite map_length. apply sync_slots. Qed.

  Lemma point_fields s c e y : e_fields e = [y] -> length y = length (s_orient s) ->
    e_fields (dimer_point s c e) = shift_fields (c * dimer_length s (sdd_time s)) (s_orient s) (e_fields e).
  Proof. intros H Hl. unfold dimer_point. cbn [e_fields]. rewrite H. cbn [map shift_fields]. rewrite shift_data_map2 by exact Hl. reflexivity. Qed.

  Section At.
    Variables (s : sdd) (e : env) (y : data).
    Hypothesis Hs : searching n s e.
    Hypothesis Hf : fits L n m e.
    Hypothesis Ey : e_fields e = [y].
    Let l := dimer_length s (sdd_time s).
    Let o := s_orient s.

    Lemma len_o : length o = n.
    Proof. destruct Hs as [[_ _ _ H _ _ _] _ _]. rewrite Nat.mul_1_l in H. exact H. Qed.
    Lemma len_y : length y = n.
    Proof. destruct Hf as (_ & H & _). rewrite Ey in H. inversion H; assumption. Qed.
    Lemma slots_calc : length (e_derived e) = length (p_calc p).
    Proof. destruct Hf as (_ & _ & H). rewrite H. unfold p, simulation. cbn [p_calc]. rewrite map_length. reflexivity. Qed.

    Lemma start_point : at_start p ft l o e = spectrum p ft (dimer_point s (- / 2) e).
    Proof.
      unfold at_start. rewrite model_fft_spectrum. f_equal. unfold shift_model, dimer_point. cbn [e_fields e_derived]. rewrite Ey. cbn [map shift_fields]. f_equal. f_equal.
      rewrite shift_data_map2 by (rewrite len_y; symmetry; exact len_o). fold o l. replace (- 0.5 * l) with (- / 2 * l) by lra. reflexivity.
    Qed.
    Lemma end_point : at_end p ft l o e = spectrum p ft (dimer_point s (/ 2) e).
    Proof.
      unfold at_end. rewrite model_fft_spectrum. apply (sim_spectrum m n ft lib).
      - cbn [shift_model model_ifft e_fields]. rewrite at_start_fields. rewrite (map_round n ft G) by (apply shift_fields_all; rewrite Ey; constructor; [exact len_y|constructor]).
        rewrite shift_add, (point_fields s (/ 2) e y Ey) by (rewrite len_y; symmetry; exact len_o). fold o l. replace (l + - l / 2) with (/ 2 * l) by lra. reflexivity.
      - cbn [shift_model model_ifft e_derived]. rewrite start_point, spectrum_slots. exact slots_calc.
      - exact slots_calc.
    Qed.
    Lemma point_fits c : fits L n m (dimer_point s c e).
    Proof.
      destruct Hf as (H1 & H2 & H3). split; [unfold dimer_point; cbn [e_fields]; rewrite map_length; exact H1|]. split; [|exact H3].
      unfold dimer_point. cbn [e_fields]. rewrite Ey. constructor; [|constructor]. apply StepProofs.map2_length; [exact len_y|exact len_o].
    Qed.
    Lemma point_mode c k : (k < n)%nat -> nth k (nth 0 (e_fields (spectrum p ft (dimer_point s c e))) []) C0
      = Cadd (nth k (fft ft y) C0) (Cmul (RtoC (c * l)) (orient_mode ft s k)).
    Proof.
      intros Hk. unfold spectrum, dimer_point. cbn [e_fields]. rewrite Ey. cbn [map nth]. fold l o. unfold orient_mode. fold o.
      assert (Lm : length (map RtoC o) = n) by (rewrite map_length; exact len_o).
      replace (map2 (fun z x => Cadd z (RtoC (c * l * x))) y o) with (map2 (fun u v => Cadd u (Cmul (RtoC (c * l)) v)) y (map RtoC o)).
      - rewrite (ut_fft_add n ft U (RtoC (c * l)) y _ len_y Lm). rewrite (map2_nth' _ _ _ k n) by (try apply (gt_fft_len _ _ G); try exact len_y; assumption). reflexivity.
      - clear Lm. generalize y. induction o as [|x o' IH]; intros [|z d]; cbn [map map2]; try reflexivity. rewrite IH, (RtoC_mul (c * l) x). reflexivity.
    Qed.

    (** The forces at both ends and the coefficients. *)
    Lemma ends F1 F2 : total_rhs L cs n ft lib p (sdd_time s) q (dimer_point s (- / 2) e) F1 -> total_rhs L cs n ft lib p (sdd_time s) q (dimer_point s (/ 2) e) F2 ->
      exists fs fe a, get_rhs p (at_start p ft l o e) 0 (sdd_time s) n = Some fs /\ get_rhs p (at_end p ft l o e) 0 (sdd_time s) n = Some fe
      /\ get_denum p (at_centre p ft l o e) 0 (sdd_time s) n = Some a /\ get_denum p (spectrum p ft e) 0 (sdd_time s) n = Some a
      /\ length fs = n /\ length fe = n /\ length a = n
      /\ forall k, (k < n)%nat ->
         Cadd (nth k fs C0) (Cmul (nth k a C0) (Cadd (nth k (fft ft y) C0) (Cmul (RtoC (- / 2 * l)) (orient_mode ft s k)))) = F1 k
         /\ Cadd (nth k fe C0) (Cmul (nth k a C0) (Cadd (nth k (fft ft y) C0) (Cmul (RtoC (/ 2 * l)) (orient_mode ft s k)))) = F2 k.
    Proof.
      intros H1 H2. destruct (declared_rhs L cs [q] HD) as (m' & Em' & _ & HR). rewrite Em in Em'. injection Em' as <-.
      destruct (HR n ft lib (dimer_point s (- / 2) e) (sdd_time s) 0%nat q GL (point_fits _) eq_refl) as (fs & a & y1 & A1 & A2 & A3 & A4 & A5 & A6); [rewrite HL; reflexivity|].
      destruct (HR n ft lib (dimer_point s (/ 2) e) (sdd_time s) 0%nat q GL (point_fits _) eq_refl) as (fe & a' & y2 & B1 & B2 & B3 & B4 & B5 & B6); [rewrite HL; reflexivity|].
      fold p in A1, A2, A3, A6, B1, B2, B3, B6.
      rewrite (CD _ (spectrum p ft e)) in A2. rewrite (CD _ (spectrum p ft e)) in B2. rewrite A2 in B2. injection B2 as <-.
      exists fs, fe, a. rewrite start_point, end_point. split; [exact A1|]. split; [exact B1|]. split; [rewrite (CD _ (spectrum p ft e)); exact A2|]. split; [exact A2|].
      split; [exact A4|]. split; [exact B4|]. split; [exact A5|]. intros k Hk. rewrite <- !point_mode by exact Hk.
      rewrite (nth_error_nth _ _ [] A3), (nth_error_nth _ _ [] B3). destruct (H1 k Hk) as (M1 & W1 & ->). destruct (H2 k Hk) as (M2 & W2 & ->).
      split; [apply (A6 k Hk M1 W1)|apply (B6 k Hk M2 W2)].
    Qed.

    Lemma orient_norm : inner n (fft ft (map RtoC o)) (fft ft (map RtoC o)) = RtoC (INR n).
    Proof.
      assert (Lm : length (map RtoC o) = n) by (rewrite map_length; exact len_o).
      rewrite (ut_parseval n ft U _ _ Lm Lm). destruct Hs as [[_ _ _ _ Hu _ _] _ _]. unfold unit_vector in Hu. fold o in Hu. rewrite len_o in Hu. unfold inner.
      rewrite (csum_ext n _ (fun i => RtoC (nth i o 0 * nth i o 0))) by (intros i Hi; rewrite !map_RtoC_nth; csolve). rewrite csum_RtoC, Hu. change (RtoC 1) with C1. ring.
    Qed.

    (** One step: it exists, and when it leaves the field and the orientation. *)
    Theorem rests F1 F2 : s_alpha s = / 2 ->
      (forall a, get_denum p (spectrum p ft e) 0 (sdd_time s) n = Some a -> regular_step n (s_dt s) (fft ft (map RtoC o)) a) ->
      total_rhs L cs n ft lib p (sdd_time s) q (dimer_point s (- / 2) e) F1 -> total_rhs L cs n ft lib p (sdd_time s) q (dimer_point s (/ 2) e) F2 ->
      exists s' e', sdd_step p ft s e = Some (s', e') /\ searching n s' e' /\ fits L n m e' /\ s_alpha s' = / 2
      /\ (e_fields e' = e_fields e <-> forall k, (k < n)%nat -> Cadd (F1 k) (F2 k) = C0)
      /\ ((forall j, (j < n)%nat -> Im (nth j (to_real ft (map (fun k => Csub (F1 k) (F2 k)) (seq 0 n))) C0) = 0) ->
          (s_orient s' = s_orient s <-> exists lam, forall j, (j < n)%nat -> nth j (to_real ft (map (fun k => Csub (F1 k) (F2 k)) (seq 0 n))) C0 = RtoC (lam * nth j (s_orient s) 0))).
    Proof.
      intros Ha Hreg H1 H2. destruct (ends F1 F2 H1 H2) as (fs & fe & a & E1 & E2 & E3 & E4 & Lfs & Lfe & La & EF).
      destruct (one_step n ft p U KL s e y fs fe a Hs Ey CD E1 E2 E3) as (y' & e' & E5 & Ey' & Ly' & Ed & HQ). specialize (HQ (Hreg a E4)). fold l o in E5, Ed, HQ.
      destruct Hs as [Rd Hi Hdt]. assert (Rd' := Rd). destruct Rd as [Hn _ _ Ho Hu Hl Ht]. destruct (sdd_step_ready n 1 p ft s e _ _ U KL Rd' E5) as (RD' & _).
      assert (Hdt' : 0 < s_dt s). { assert (0 < / 10 ^ 16) by (apply Rinv_0_lt_compat; lra). lra. }
      eexists. exists e'. split; [exact E5|]. split; [split; [exact RD'|reflexivity|exact Hdt]|].
      split. { destruct Hf as (H3 & H4 & H5). split; [rewrite Ey', HL; reflexivity|]. split; [rewrite Ey'; constructor; [exact Ly'|constructor]|].
        rewrite Ed. unfold at_centre. rewrite model_fft_spectrum, spectrum_slots. cbn [shift_model model_ifft e_derived]. rewrite end_point, spectrum_slots. exact H5. }
      split; [exact Ha|]. cbn [s_orient]. split.
      - rewrite Ey, Ey'. assert (ES : forall k, (k < n)%nat -> Cadd (Cmul (nth k a C0) (nth k (fft ft y) C0)) (nth k (weighted (s_alpha s) fs fe) C0) = Cmul (RtoC (/ 2)) (Cadd (F1 k) (F2 k))).
        { intros k Hk. destruct (EF k Hk) as [<- <-]. rewrite Ha. unfold weighted. rewrite (map2_nth' _ _ _ k n Lfs Lfe Hk).
          replace (1 - / 2) with (/ 2) by lra. replace (- / 2 * l) with (- (/ 2 * l)) by ring. rewrite RtoC_opp.
          assert (EH : Cadd (RtoC (/ 2)) (RtoC (/ 2)) = C1) by (unfold C1; csolve; lra). set (h := RtoC (/ 2)) in *. set (A := Cmul (nth k a C0) (nth k (fft ft y) C0)).
          transitivity (Cadd (Cmul (Cadd h h) A) (Cadd (Cmul h (nth k fs C0)) (Cmul h (nth k fe C0)))); [rewrite EH; ring|]. unfold A. ring. }
        split.
        + intros E. injection E as E. rewrite E in HQ. 
          assert (HZ := proj1 (dimer_fixed n (s_dt s) (fft ft (map RtoC o)) a (weighted (s_alpha s) fs fe) (fft ft y) Hn (Rgt_not_eq _ _ Hdt') orient_norm) HQ).
          intros k Hk. specialize (HZ k Hk). rewrite (ES k Hk) in HZ. apply Cmul_eq0 in HZ. destruct HZ as [HZ|HZ]; [exfalso; revert HZ; apply RtoC_neq0; lra|exact HZ].
        + intros HZ. assert (HF : dimer_equation n (s_dt s) (fft ft (map RtoC o)) a (weighted (s_alpha s) fs fe) (fft ft y) (fft ft y)).
          { apply (dimer_fixed n (s_dt s) (fft ft (map RtoC o)) a _ (fft ft y) Hn (Rgt_not_eq _ _ Hdt') orient_norm). intros k Hk. rewrite (ES k Hk), (HZ k Hk). ring. }
          assert (Lo : length (fft ft (map RtoC o)) = n) by (apply (gt_fft_len _ _ G); rewrite map_length; exact len_o).
          assert (EQ := dimer_unique n (s_dt s) _ a _ _ _ _ Hn La Lo (Hreg a E4) HQ HF). f_equal.
          rewrite <- (gt_left _ _ G y' Ly'), <- (gt_left _ _ G y len_y). f_equal. apply (list_eq_nth _ _ n); [apply (gt_fft_len _ _ G), Ly'|apply (gt_fft_len _ _ G), len_y|exact EQ].
      - intros HR. assert (Lo : length (fft ft (map RtoC o)) = n) by (apply (gt_fft_len _ _ G); rewrite map_length; exact len_o).
        assert (EP : pull ft l o fs fe a = map (fun k => Csub (F1 k) (F2 k)) (seq 0 n)).
        { apply (list_eq_nth _ _ n); [unfold pull; apply map3_length; [apply StepProofs.map2_length; assumption| |]; assumption|rewrite map_length; apply seq_length|].
          intros k Hk. rewrite (DftProofs.nth_map_seq (fun k => Csub (F1 k) (F2 k)) n k C0 Hk). destruct (EF k Hk) as [<- <-]. unfold pull.
          rewrite (map3_nth' _ _ _ _ k n) by (try apply StepProofs.map2_length; assumption). rewrite (map2_nth' _ _ _ k n Lfs Lfe Hk). unfold orient_mode. fold o.
          assert (EL : RtoC l = Cadd (RtoC (/ 2 * l)) (RtoC (/ 2 * l))) by (rewrite <- RtoC_add; f_equal; lra). rewrite EL.
          replace (- / 2 * l) with (- (/ 2 * l)) by ring. rewrite RtoC_opp. ring. }
        unfold torque1. fold l o in EP. rewrite EP. rewrite <- EP in HR. rewrite <- EP. fold o.
        apply (turn_rests n ft U s (pull ft l o fs fe a) Hn len_o); try assumption.
        + rewrite EP, map_length. apply seq_length.
        + apply dimer_length_pos, Hl.
    Qed.
  End At.
End OneField.
