(** One step of the saddle search for a model with one field. *)
From Verif Require Import ListAux FileModel StepProofs SddProofs SddSpec DftProofs SaddleSpec Vec CVec Complex.
From Coq Require Import Lia Lra.
Open Scope R_scope.

Lemma chunk_all {A} n (l : list A) : length l = n -> chunk n 0 l = l.
Proof. intros H. unfold chunk. cbn [Nat.mul skipn]. rewrite <- H. apply firstn_all. Qed.
Lemma chunks_one {A} n (l : list A) : length l = n -> chunks n 1 l = [l].
Proof. intros H. unfold chunks. cbn [seq map]. rewrite chunk_all by exact H. reflexivity. Qed.
Lemma fto_one ft n o : length o = n -> ft_orientation ft n 1 o = fft ft (map RtoC o).
Proof. intros H. unfold ft_orientation. rewrite chunks_one by (rewrite map_length; exact H). cbn [map concat]. apply app_nil_r. Qed.
Lemma shift_data_map2 c : forall d o, length d = length o -> shift_data c o d = map2 (fun z x => Cadd z (RtoC (c * x))) d o.
Proof. induction d as [|z d IH]; intros [|x o] H; cbn [shift_data map2]; try reflexivity; try discriminate H. rewrite IH by (injection H as H; exact H). reflexivity. Qed.
Lemma nth_map2R {B D} (f : R -> B -> D) (dR : R) (dB : B) (dD : D) x : forall y i, length x = length y -> (i < length x)%nat -> nth i (map2 f x y) dD = f (nth i x dR) (nth i y dB).
Proof. induction x as [|a x IH]; intros [|b y] i H Hi; cbn [length] in *; try lia. destruct i; [reflexivity|]. cbn [map2 nth]. apply IH; lia. Qed.

Section One.
  Variables (n : nat) (ft : transform) (p : pde).
  Hypothesis U : unitary_transform n ft.
  Hypothesis KL : keeps_length n p.
  Let G := ut_good n ft U.

  (** The projected difference of the forces at both ends. *)
  Definition pull (l : R) (o : list R) (fs fe a : data) : data :=
    map3 (fun t a o => Csub t (Cmul (Cmul a o) (RtoC l))) (map2 Csub fs fe) a (fft ft (map RtoC o)).
  Definition torque1 (l : R) (o : list R) (fs fe a : data) : data := to_real ft (householder (pull l o fs fe a) (fft ft (map RtoC o)) 1 n).

  Lemma one_step s e y fs fe a : searching n s e -> e_fields e = [y] -> constant_denum p ->
    let l := dimer_length s (sdd_time s) in
    get_rhs p (at_start p ft l (s_orient s) e) 0 (sdd_time s) n = Some fs ->
    get_rhs p (at_end p ft l (s_orient s) e) 0 (sdd_time s) n = Some fe ->
    get_denum p (at_centre p ft l (s_orient s) e) 0 (sdd_time s) n = Some a ->
    exists y' e', sdd_step p ft s e = Some ({| s_dt := s_dt s; s_tau_orient := s_tau_orient s; s_tau_dimer := s_tau_dimer s;
          s_alpha := s_alpha s; s_step := S (s_step s); s_min_len := s_min_len s; s_init_len := s_init_len s;
          s_orient := turn s (torque1 l (s_orient s) fs fe a); s_ready := true |}, e')
    /\ e_fields e' = [y'] /\ length y' = n /\ e_derived e' = e_derived (at_centre p ft l (s_orient s) e)
    /\ (regular_step n (s_dt s) (fft ft (map RtoC (s_orient s))) a ->
        dimer_equation n (s_dt s) (fft ft (map RtoC (s_orient s))) a (weighted (s_alpha s) fs fe) (fft ft y) (fft ft y')).
  Proof.
    intros [Rd Hi Hdt] Ey CD l Hfs Hfe Ha. assert (Rd' := Rd). destruct Rd as [Hn Hk Hall Ho Hu Hl Ht].
    rewrite Nat.mul_1_l in Ho. assert (Ly : length y = n) by (rewrite Ey in Hall; inversion Hall; assumption).
    assert (Lfs := get_rhs_length _ _ _ _ _ _ KL Hfs). assert (Lfe := get_rhs_length _ _ _ _ _ _ KL Hfe). assert (La := get_denum_length _ _ _ _ _ _ KL Ha).
    assert (Lo : length (fft ft (map RtoC (s_orient s))) = n) by (apply (gt_fft_len _ _ G); rewrite map_length; exact Ho).
    assert (Ec : e_fields (at_centre p ft l (s_orient s) e) = [fft ft y]) by (rewrite (at_centre_fields n ft G) by exact Hall; rewrite Ey; reflexivity).
    set (d1 := map2 (fun z w => Cadd z (Cmul (RtoC (s_dt s)) w)) (fft ft y) (householder (sdd_force (s_alpha s) n 0 fs fe) (fft ft (map RtoC (s_orient s))) 2 n)).
    set (d2 := dsm_dot (householder_denum (s_dt s) a (fft ft (map RtoC (s_orient s))) 2) d1).
    assert (Lf : length (sdd_force (s_alpha s) n 0 fs fe) = n) by (apply (sdd_force_length _ n 0 fs fe 1); lia).
    assert (L1 : length d1 = n) by (apply StepProofs.map2_length; [apply (gt_fft_len _ _ G), Ly|apply householder_length; assumption]).
    assert (L2 : length d2 = n) by (apply dsm_dot_length; cbn [m_inv m_u householder_denum]; [rewrite map_length; exact La|exact Lo|exact L1]).
    assert (E : sdd_step p ft s e = Some ({| s_dt := s_dt s; s_tau_orient := s_tau_orient s; s_tau_dimer := s_tau_dimer s;
          s_alpha := s_alpha s; s_step := S (s_step s); s_min_len := s_min_len s; s_init_len := s_init_len s;
          s_orient := turn s (torque1 l (s_orient s) fs fe a); s_ready := true |}, model_ifft ft (set_field (at_centre p ft l (s_orient s) e) 0 d2))).
    { unfold sdd_step. rewrite Hi. cbn [negb]. destruct (Rlt_dec (s_dt s) (/ 10 ^ 16)) as [H|_]; [lra|]. rewrite Ey. cbn [length]. rewrite Ly. cbv zeta. fold l.
      unfold extract_rhs. cbn [extract]. rewrite Hfs, Hfe, !app_nil_r. cbn [sdd_fields]. rewrite Ec. cbn [nth_error].
      rewrite (fto_one ft n _ Ho), (chunk_all n _ Lo). fold d1. rewrite (CD _ (at_centre p ft l (s_orient s) e)), Ha. fold d2.
      unfold extract_denum. cbn [extract]. rewrite (CD _ (at_centre p ft l (s_orient s) e)), Ha, app_nil_r. do 2 f_equal. unfold sdd_torque, torque1, pull. fold (pull l (s_orient s) fs fe a).
      assert (LP : length (pull l (s_orient s) fs fe a) = n) by (apply map3_length; [apply StepProofs.map2_length; assumption| |]; assumption).
      rewrite chunks_one by (apply householder_length; assumption). cbn [map concat]. rewrite app_nil_r. f_equal.
      unfold to_real. rewrite (householder_length _ _ 1 n n LP Lo). reflexivity. }
    exists (to_real ft d2), (model_ifft ft (set_field (at_centre p ft l (s_orient s) e) 0 d2)). split; [exact E|].
    split; [cbn [model_ifft set_field e_fields]; rewrite Ec; reflexivity|].
    split; [unfold to_real; rewrite div_real_length; apply (gt_ifft_len _ _ G), L2|]. split; [reflexivity|]. intros Reg.
    assert (EC : chunk n 0 (map RtoC (s_orient s)) = map RtoC (s_orient s)) by (apply chunk_all; rewrite map_length; exact Ho). rewrite <- EC.
    refine (first_field_own_force n 1 p ft s e _ _ U KL CD Rd' E fs fe a y (to_real ft d2) Hfs Hfe Ha _ _ _).
    - rewrite Ey. reflexivity.
    - cbn [model_ifft set_field e_fields]. rewrite Ec. reflexivity.
    - rewrite EC. exact Reg.
  Qed.

  (** ** When the field rests *)
  Lemma reflect_add o x z i : Cadd (SddSpec.reflect n o x i) (SddSpec.reflect n o z i) = SddSpec.reflect n o (fun j => Cadd (x j) (z j)) i.
  Proof.
    unfold SddSpec.reflect. rewrite (csum_ext n (fun j => Cmul (Cadd (x j) (z j)) (Cconj (nth j o C0))) (fun j => Cadd (Cmul (x j) (Cconj (nth j o C0))) (Cmul (z j) (Cconj (nth j o C0))))) by (intros; ring).
    rewrite csum_plus. unfold Cdiv. ring.
  Qed.
  Lemma reflect_zero o x : (0 < n)%nat -> inner n o o = RtoC (INR n) -> (forall i, (i < n)%nat -> SddSpec.reflect n o x i = C0) -> forall i, (i < n)%nat -> x i = C0.
  Proof.
    intros Hn Ho H. assert (Nn : RtoC (INR n) <> C0) by (apply RtoC_neq0, not_0_INR; lia). set (c := Cdiv (csum n (fun j => Cmul (x j) (Cconj (nth j o C0)))) (RtoC (INR n))).
    assert (E : forall i, (i < n)%nat -> x i = Cmul (RtoC 2) (Cmul (nth i o C0) c)).
    { intros i Hi. specialize (H i Hi). unfold SddSpec.reflect in H. fold c in H. set (X := Cmul (RtoC 2) (Cmul (nth i o C0) c)) in *. transitivity (Cadd (Csub (x i) X) X); [ring|]. rewrite H. ring. }
    assert (Ec : c = Cmul (RtoC 2) c).
    { unfold c at 1. rewrite (csum_ext n (fun j => Cmul (x j) (Cconj (nth j o C0))) (fun j => Cmul (Cmul (nth j o C0) (Cconj (nth j o C0))) (Cmul (RtoC 2) c))) by (intros j Hj; rewrite (E j Hj); ring).
      rewrite csum_mul_r. change (csum n (fun j => Cmul (nth j o C0) (Cconj (nth j o C0)))) with (inner n o o). rewrite Ho. field. exact Nn. }
    assert (Zc : c = C0). { assert (E2 : Cadd c c = c) by (rewrite Ec at 3; csolve). transitivity (Csub (Cadd c c) c); [ring|]. rewrite E2. ring. }
    intros i Hi. rewrite (E i Hi), Zc. ring.
  Qed.
  Lemma reflect_ext o x z i : (forall j, (j < n)%nat -> x j = z j) -> (i < n)%nat -> SddSpec.reflect n o x i = SddSpec.reflect n o z i.
  Proof. intros H Hi. unfold SddSpec.reflect. rewrite (H i Hi), (csum_ext n _ (fun j => Cmul (z j) (Cconj (nth j o C0)))) by (intros j Hj; rewrite (H j Hj); reflexivity). reflexivity. Qed.

  Lemma dimer_unique dt o a f y x x' : (0 < n)%nat -> length a = n -> length o = n -> regular_step n dt o a ->
    dimer_equation n dt o a f y x -> dimer_equation n dt o a f y x' -> forall i, (i < n)%nat -> nth i x C0 = nth i x' C0.
  Proof.
    intros Hn La Lo [R1 R2] Hx Hx'. assert (Nn : RtoC (INR n) <> C0) by (apply RtoC_neq0, not_0_INR; lia).
    set (D := map (fun z => Csub C1 (Cmul (RtoC dt) z)) a).
    set (v := map2 (fun a0 o0 => Cdiv (Cmul (Cmul (Cmul (RtoC 2) a0) (RtoC dt)) (Cconj o0)) (RtoC (INR n))) a o).
    set (b := map (fun i => Cadd (nth i y C0) (Cmul (RtoC dt) (SddSpec.reflect n o (fun j => nth j f C0) i))) (seq 0 n)).
    assert (ND : forall j, (j < n)%nat -> nth j D C0 = Csub C1 (Cmul (RtoC dt) (nth j a C0))).
    { intros j Hj. unfold D. apply (map_nth_C (fun z => Csub C1 (Cmul (RtoC dt) z))). lia. }
    assert (NV : forall j, (j < n)%nat -> nth j v C0 = Cdiv (Cmul (Cmul (Cmul (RtoC 2) (nth j a C0)) (RtoC dt)) (Cconj (nth j o C0))) (RtoC (INR n))).
    { intros j Hj. unfold v. exact (map2_nth' (fun a0 o0 => Cdiv (Cmul (Cmul (Cmul (RtoC 2) a0) (RtoC dt)) (Cconj o0)) (RtoC (INR n))) a o j n La Lo Hj). }
    assert (SR : forall w, dimer_equation n dt o a f y w -> solves_rank_one n D o v w b).
    { intros w Hw i Hi. unfold b. rewrite (DftProofs.nth_map_seq (fun i => Cadd (nth i y C0) (Cmul (RtoC dt) (SddSpec.reflect n o (fun j => nth j f C0) i))) n i C0 Hi), <- (Hw i Hi), (ND i Hi). unfold SddSpec.reflect.
      rewrite (csum_ext n (fun j => Cmul (nth j v C0) (nth j w C0)) (fun j => Cmul (Cmul (Cmul (nth j a C0) (nth j w C0)) (Cconj (nth j o C0))) (Cdiv (Cmul (RtoC 2) (RtoC dt)) (RtoC (INR n))))).
      - rewrite csum_mul_r. unfold Cdiv. ring.
      - intros j Hj. rewrite (NV j Hj). unfold Cdiv. ring. }
    apply (sherman_morrison_unique n D o v b x x').
    - intros i Hi. rewrite (ND i Hi). apply R1, Hi.
    - intros E. apply R2. refine (eq_trans _ E). f_equal. apply csum_ext. intros j Hj. rewrite ND, NV by exact Hj.
      replace (RtoC (2 * dt / INR n)) with (Cdiv (Cmul (RtoC 2) (RtoC dt)) (RtoC (INR n))).
      + unfold Cdiv. ring.
      + unfold Rdiv, Cdiv. rewrite !RtoC_mul, RtoC_inv by (apply not_0_INR; lia). reflexivity.
    - apply SR, Hx.
    - apply SR, Hx'.
  Qed.
  Lemma dimer_fixed dt o a f y : (0 < n)%nat -> dt <> 0 -> inner n o o = RtoC (INR n) ->
    (dimer_equation n dt o a f y y <-> forall i, (i < n)%nat -> Cadd (Cmul (nth i a C0) (nth i y C0)) (nth i f C0) = C0).
  Proof.
    intros Hn Hdt Ho. split.
    - intros H. apply (reflect_zero o _ Hn Ho). intros i Hi. rewrite <- reflect_add. specialize (H i Hi).
      set (A := SddSpec.reflect n o (fun j => Cmul (nth j a C0) (nth j y C0)) i) in *. set (B := SddSpec.reflect n o (fun j => nth j f C0) i) in *.
      assert (E : Cmul (RtoC dt) (Cadd A B) = C0). { transitivity (Csub (Cadd (nth i y C0) (Cmul (RtoC dt) B)) (Csub (nth i y C0) (Cmul (RtoC dt) A))); [ring|]. rewrite H. ring. }
      apply Cmul_eq0 in E. destruct E as [E|E]; [|exact E]. exfalso. apply (RtoC_neq0 dt Hdt E).
    - intros H i Hi. assert (E : Cadd (SddSpec.reflect n o (fun j => Cmul (nth j a C0) (nth j y C0)) i) (SddSpec.reflect n o (fun j => nth j f C0) i) = C0).
      { rewrite reflect_add, (reflect_ext o _ (fun _ => C0) i H Hi). unfold SddSpec.reflect. rewrite (csum_ext n _ (fun _ => C0)) by (intros; ring). rewrite csum_zero. unfold Cdiv. ring. }
      set (A := SddSpec.reflect n o (fun j => Cmul (nth j a C0) (nth j y C0)) i) in *. set (B := SddSpec.reflect n o (fun j => nth j f C0) i) in *.
      transitivity (Csub (Cadd (nth i y C0) (Cmul (RtoC dt) B)) (Cmul (RtoC dt) (Cadd A B))); [ring|]. rewrite E. ring.
  Qed.

  (** ** When the orientation rests *)
  Lemma torque_value P o : (0 < n)%nat -> length o = n -> length P = n -> (forall j, (j < n)%nat -> Im (nth j (to_real ft P) C0) = 0) ->
    forall j, (j < n)%nat -> nth j (to_real ft (householder P (fft ft (map RtoC o)) 1 n)) C0
      = RtoC (Re (nth j (to_real ft P) C0) - rsum n (fun i => Re (nth i (to_real ft P) C0) * nth i o 0) * nth j o 0).
  Proof.
    intros Hn Lo LP HR j Hj. assert (Lm : length (map RtoC o) = n) by (rewrite map_length; exact Lo).
    assert (Lf : length (fft ft (map RtoC o)) = n) by (apply (gt_fft_len _ _ G), Lm).
    assert (Nn : RtoC (INR n) <> C0) by (apply RtoC_neq0, not_0_INR; lia).
    set (c := Cdiv (inner n P (fft ft (map RtoC o))) (RtoC (INR n))).
    assert (EH : householder P (fft ft (map RtoC o)) 1 n = map2 (fun u v => Cadd u (Cmul (Copp c) v)) P (fft ft (map RtoC o))).
    { apply (list_eq_nth _ _ n); [apply householder_length; assumption|apply StepProofs.map2_length; assumption|]. intros i Hi.
      rewrite (householder_nth _ _ 1 n n i LP Lf Hi), (map2_nth' (fun u v => Cadd u (Cmul (Copp c) v)) _ _ i n LP Lf Hi). fold c. change (RtoC 1) with C1. ring. }
    assert (LR : forall x, length x = n -> length (to_real ft x) = n) by (intros x Hx; unfold to_real; rewrite div_real_length; apply (gt_ifft_len _ _ G), Hx).
    assert (ET : nth j (to_real ft (householder P (fft ft (map RtoC o)) 1 n)) C0 = Cadd (nth j (to_real ft P) C0) (Cmul (Copp c) (RtoC (nth j o 0)))).
    { rewrite <- map_RtoC_nth. rewrite <- (gt_left _ _ G (map RtoC o) Lm) at 2. rewrite EH. unfold to_real.
      assert (L2 : length (map2 (fun u v => Cadd u (Cmul (Copp c) v)) P (fft ft (map RtoC o))) = n) by (apply StepProofs.map2_length; assumption).
      rewrite (ut_ifft_add n ft U (Copp c) P _ LP Lf), L2, LP, Lf. rewrite !div_real_nth.
      rewrite (map2_nth' (fun u v => Cadd u (Cmul (Copp c) v)) _ _ j n) by (try apply (gt_ifft_len _ _ G); assumption). unfold Cdiv. ring. }
    assert (Ec : c = RtoC (rsum n (fun i => Re (nth i (to_real ft P) C0) * nth i o 0))).
    { unfold c. rewrite <- (gt_inverse _ _ G P LP) at 1. rewrite (ut_parseval n ft U _ _ (LR P LP) Lm). unfold inner.
      rewrite (csum_ext n _ (fun i => RtoC (Re (nth i (to_real ft P) C0) * nth i o 0))).
      - assert (CR : forall f, csum n (fun i => RtoC (f i)) = RtoC (rsum n f)) by (intros f; apply C_eq; [rewrite csum_re; apply rsum_ext; reflexivity|rewrite csum_im; cbn [Im RtoC snd]; apply rsum_0]).
        rewrite CR. field. exact Nn.
      - intros i Hi. rewrite map_RtoC_nth. specialize (HR i Hi). destruct (nth i (to_real ft P) C0) as [u w]. cbn [Re Im fst snd] in *. subst w. csolve. }
    rewrite ET, Ec. specialize (HR j Hj). destruct (nth j (to_real ft P) C0) as [u w]. cbn [Re Im fst snd] in *. subst w. csolve.
  Qed.
  (** The new orientation, for a real difference [D] of the forces. *)
  Lemma turn_value s P : (0 < n)%nat -> length (s_orient s) = n -> length P = n -> (forall j, (j < n)%nat -> Im (nth j (to_real ft P) C0) = 0) ->
    let D j := Re (nth j (to_real ft P) C0) in let mu := rsum n (fun i => D i * nth i (s_orient s) 0) in
    let c := s_dt s / (dimer_length s (sdd_time s) * s_tau_orient s) in
    exists len, len = sqrt (rsum n (fun j => (nth j (s_orient s) 0 - c * (D j - mu * nth j (s_orient s) 0)) ^ 2))
    /\ forall j, (j < n)%nat -> nth j (turn s (to_real ft (householder P (fft ft (map RtoC (s_orient s))) 1 n))) 0
       = (nth j (s_orient s) 0 - c * (D j - mu * nth j (s_orient s) 0)) / len.
  Proof.
    intros Hn Lo LP HR D mu c. set (T := to_real ft (householder P (fft ft (map RtoC (s_orient s))) 1 n)).
    assert (Lf : length (fft ft (map RtoC (s_orient s))) = n) by (apply (gt_fft_len _ _ G); rewrite map_length; exact Lo).
    assert (LT : length T = n) by (unfold T, to_real; rewrite div_real_length; apply (gt_ifft_len _ _ G), householder_length; assumption).
    unfold turn. set (o1 := map2 _ (s_orient s) T).
    assert (L1 : length o1 = n) by (apply StepProofs.map2_length; assumption).
    assert (N1 : forall j, (j < n)%nat -> nth j o1 0 = nth j (s_orient s) 0 - c * (D j - mu * nth j (s_orient s) 0)).
    { intros j Hj. unfold o1. rewrite (nth_map2R _ 0 C0 0) by lia. unfold T. rewrite (torque_value P (s_orient s) Hn Lo LP HR j Hj). cbn [RtoC Re fst]. fold (D j). change (rsum n (fun i => Re (nth i (to_real ft P) C0) * nth i (s_orient s) 0)) with mu.
      unfold c, Rdiv. ring. }
    exists (sqrt (rdot o1 o1)). split.
    - f_equal. rewrite rdot_rsum by reflexivity. rewrite L1. apply rsum_ext. intros j Hj. rewrite (N1 j Hj). ring.
    - intros j Hj. rewrite <- (N1 j Hj). transitivity (nth j (map (fun x => x / sqrt (rdot o1 o1)) o1) (0 / sqrt (rdot o1 o1))).
      + apply nth_indep. rewrite map_length. lia.
      + apply (map_nth (fun x => x / sqrt (rdot o1 o1))).
  Qed.
  Lemma turn_rests s P : (0 < n)%nat -> length (s_orient s) = n -> length P = n -> unit_vector (s_orient s) -> (forall j, (j < n)%nat -> Im (nth j (to_real ft P) C0) = 0) ->
    0 < s_dt s -> 0 < dimer_length s (sdd_time s) -> s_tau_orient s <> 0 ->
    (turn s (to_real ft (householder P (fft ft (map RtoC (s_orient s))) 1 n)) = s_orient s <-> exists lam, forall j, (j < n)%nat -> nth j (to_real ft P) C0 = RtoC (lam * nth j (s_orient s) 0)).
  Proof.
    intros Hn Lo LP Hu HR Hdt Hl Ht. destruct (turn_value s P Hn Lo LP HR) as (len & El & Hv). cbv zeta in El, Hv.
    set (D := fun j => Re (nth j (to_real ft P) C0)) in *. set (mu := rsum n (fun i => Re (nth i (to_real ft P) C0) * nth i (s_orient s) 0)) in *.
    set (c := s_dt s / (dimer_length s (sdd_time s) * s_tau_orient s)) in *. set (o := fun j => nth j (s_orient s) 0).
    assert (Hu' : rsum n (fun j => o j * o j) = 1) by (unfold unit_vector in Hu; rewrite Lo in Hu; exact Hu).
    assert (Cc : c <> 0). { unfold c, Rdiv. apply Rmult_integral_contrapositive_currified; [lra|]. apply Rinv_neq_0_compat, Rmult_integral_contrapositive_currified; lra. }
    set (T := fun j => D j - mu * o j).
    assert (TO : rsum n (fun j => T j * o j) = 0).
    { unfold T. rewrite (rsum_ext n _ (fun j => D j * o j - mu * (o j * o j))) by (intros; ring). rewrite rsum_minus, rsum_mul_l, Hu'. unfold mu, D, o. ring. }
    assert (EL : len = sqrt (1 + c * c * rsum n (fun j => T j * T j))).
    { rewrite El. f_equal. rewrite (rsum_ext n _ (fun j => o j * o j + (- (2 * c) * (T j * o j) + c * c * (T j * T j)))) by (intros; unfold T, D, o; ring).
      rewrite !rsum_plus, !rsum_mul_l, Hu', TO. ring. }
    assert (TT : 0 <= rsum n (fun j => T j * T j)) by (apply rsum_nonneg; intros; apply Rle_0_sqr).
    assert (Lp : 1 <= len).
    { rewrite EL, <- sqrt_1 at 1. apply sqrt_le_1_alt. assert (0 <= c * c * rsum n (fun j => T j * T j)) by (apply Rmult_le_pos; [apply Rle_0_sqr|exact TT]). lra. }
    split.
    - intros E. assert (HT : forall j, (j < n)%nat -> (len - 1) * o j = - c * T j).
      { intros j Hj. assert (Hj' := Hv j Hj). rewrite E in Hj'. fold (D j) in Hj'. fold (o j) in Hj'. fold (T j) in Hj'.
        assert (H2 : o j * len = o j - c * T j) by (rewrite Hj' at 1; field; lra). lra. }
      assert (Z : rsum n (fun j => T j * T j) = 0).
      { assert (S1 : rsum n (fun j => (len - 1) * (T j * o j)) = rsum n (fun j => - c * (T j * T j))).
        { apply rsum_ext. intros j Hj. transitivity (T j * ((len - 1) * o j)); [ring|]. rewrite (HT j Hj). ring. }
        rewrite !rsum_mul_l, TO in S1. apply (Rmult_eq_reg_l (- c)); [lra|lra]. }
      exists mu. intros j Hj. assert (Tj : T j = 0).
      { exact (rsum_sq_zero n T Z j Hj). }
      specialize (HR j Hj). unfold T, D, o in Tj. destruct (nth j (to_real ft P) C0) as [u w]. cbn [Re Im fst snd] in *. subst w. unfold RtoC. f_equal. lra.
    - intros [lam HP]. assert (ED : forall j, (j < n)%nat -> D j = lam * o j) by (intros j Hj; unfold D; rewrite (HP j Hj); reflexivity).
      assert (Emu : mu = lam).
      { unfold mu. rewrite (rsum_ext n _ (fun j => lam * (o j * o j))) by (intros j Hj; fold (D j); rewrite (ED j Hj); unfold o; ring). rewrite rsum_mul_l, Hu'. ring. }
      assert (Z : forall j, (j < n)%nat -> T j = 0) by (intros j Hj; unfold T; rewrite (ED j Hj), Emu; ring).
      assert (L1 : len = 1). { rewrite EL, (rsum_ext n _ (fun _ => 0)) by (intros j Hj; rewrite (Z j Hj); ring). rewrite rsum_0. replace (1 + c * c * 0) with 1 by ring. apply sqrt_1. }
      assert (LT : length (turn s (to_real ft (householder P (fft ft (map RtoC (s_orient s))) 1 n))) = n).
      { unfold turn. rewrite map_length. apply StepProofs.map2_length; [exact Lo|]. unfold to_real. rewrite div_real_length. apply (gt_ifft_len _ _ G), householder_length; [exact LP|].
        apply (gt_fft_len _ _ G). rewrite map_length. exact Lo. }
      apply (nth_ext _ _ 0 0); [rewrite LT, Lo; reflexivity|]. intros j Hj. rewrite LT in Hj. rewrite (Hv j Hj), L1. fold (D j). fold (o j). fold (T j). rewrite (Z j Hj). field.
  Qed.
End One.
