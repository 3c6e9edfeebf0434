From Verif Require Import GradSpec RealProofs GradProofs GradProofs2 GradProofs3 GradProofs4 GradProofs5 DftProofs IndexProofs StepProofs EnergyProofs3 Vec CVec Complex.
From Coq Require Import Lra Lia Qreals.
Open Scope R_scope.

Section Terms.
  Variables (dom : list Z) (nf nd : nat).
  Hypothesis Hv : valid_domain dom.
  Hypothesis Hs : square_layout dom.
  Hypothesis Hm : moderate dom.
  Let ft := fftw_transform dom.
  Let n := nodes dom.
  Let U : unitary_transform n ft := fftw_unitary dom Hv.
  Let G : good_transform n ft := fftw_good dom Hv.
  Notation herm := (herm dom).
  Notation realf := (realf dom).

  Lemma herm_of_real X : length X = n -> realf (to_real ft X) -> herm X.
  Proof. intros L R. rewrite <- (gt_inverse _ _ G X L). apply (herm_fft dom Hv Hs), R. Qed.

  Theorem field_brick_real i : (i < nf)%nat -> real_brick dom nf nd (field_brick i).
  Proof.
    intros Hi e [S1 _] H _. unfold field_brick. apply (Forall_nth_error _ i _ _ H). apply nth_error_nth'. lia.
  Qed.
  Theorem derived_brick_real i : (i < nd)%nat -> real_brick dom nf nd (derived_brick i).
  Proof.
    intros Hi e [_ S2] _ H. unfold derived_brick. apply (Forall_nth_error _ i _ _ H). apply nth_error_nth'. lia.
  Qed.

  Lemma lap_herm c k : herm_fun dom (fun j => RtoC (lap_symbol (tfreq ft j) ^ k * c)).
  Proof. exact (isotropic_herm dom Hv (fun s => (- (4 * PI * PI * s)) ^ k * c)). Qed.
  Theorem brick_term_real c k u : real_brick dom nf nd u -> real_term dom nf nd (brick_term ft c k u).
  Proof.
    intros Hu e t tmp S H1 H2 _ _. unfold brick_term. rewrite (mapi_ext _ (fun j z => Cmul (RtoC (lap_symbol (tfreq ft j) ^ k * c)) z)).
    - apply (herm_mapi dom Hv); [apply lap_herm|exact (Hu e S H1 H2)].
    - intros j z. rewrite lap_eval_symbol. apply C_eq; cbn; ring.
  Qed.
  Theorem coeff_term_real c k e t tmp : length tmp = nodes dom -> length (coeff_term ft c k e t tmp) = nodes dom /\ hermitian dom (coeff_term ft c k e t tmp).
  Proof.
    intros L. unfold coeff_term. split; [rewrite mapi_from_length; exact L|].
    apply (herm_ext dom _ (fun j => RtoC (lap_symbol (tfreq ft j) ^ k * c)) Hv); [|apply lap_herm].
    intros j Hj. rewrite nth_mapi by (rewrite L; exact Hj). cbn [Nat.add]. rewrite lap_eval_symbol. apply C_eq; cbn; ring.
  Qed.
  Theorem laplacian_term_real k f : real_term dom nf nd f -> real_term dom nf nd (laplacian_term ft k f).
  Proof.
    intros Hf e t tmp S H1 H2 L H3. unfold laplacian_term. rewrite (mapi_ext _ (fun j z => Cmul (RtoC (lap_symbol (tfreq ft j) ^ k * 1)) z)).
    - apply (herm_mapi dom Hv); [apply lap_herm|exact (Hf e t tmp S H1 H2 L H3)].
    - intros j z. rewrite lap_eval_symbol. apply C_eq; cbn; ring.
  Qed.

  (** ** Fluxes *)
  Lemma flux_real g dim flux : (forall d, (d < dim)%nat -> herm_fun dom (fun j => (0, g (nth d (tfreq ft j) 0)))) ->
    (forall d t, (d < dim)%nat -> real_brick dom nf nd (fun e => flux e t d)) -> real_term dom nf nd (flux_term g ft dim flux).
  Proof.
    intros Hg HF e t tmp S H1 H2 L _. split; [rewrite flux_length; exact L|].
    apply (herm_ext dom _ (fun j => csum dim (fun d => Cmul (0, g (nth d (tfreq ft j) 0)) (nth j (flux e t d) C0))) Hv).
    - intros j Hj. apply flux_nth. rewrite L. exact Hj.
    - intros u w Hu Hw Hc. rewrite csum_conj. apply csum_ext. intros d Hd. rewrite Cconj_mul, (Hg d Hd u w Hu Hw Hc).
      destruct (HF d t Hd e S H1 H2) as [_ HB]. apply (herm_iff dom _ Hv) in HB. rewrite (HB u w Hu Hw Hc). reflexivity.
  Qed.
  Lemma charge_mult_odd d : herm_fun dom (fun j => (0, charge_mult (nth d (tfreq ft j) 0))).
  Proof.
    apply (odd_herm_all dom Hv).
    - unfold charge_mult. rewrite (Rabs_right (1 / 2)) by lra. rewrite Rminus_diag_eq, Rabs_R0 by reflexivity. destruct (Rlt_dec _ 0); [lra|reflexivity].
    - intros f. unfold charge_mult. rewrite Rabs_Ropp. destruct (Rlt_dec _ _); ring.
  Qed.
  Lemma noise_mult_odd d : herm_fun dom (fun j => (0, noise_mult (nth d (tfreq ft j) 0))).
  Proof.
    apply (odd_herm_all dom Hv).
    - unfold noise_mult. rewrite (Rabs_right (1 / 2)) by lra. rewrite Rminus_diag_eq, Rabs_R0 by reflexivity. destruct (Rlt_dec _ 0); [lra|reflexivity].
    - intros f. unfold noise_mult. rewrite Rabs_Ropp. destruct (Rlt_dec _ _); [|ring]. replace (PI * - f) with (- (PI * f)) by ring. rewrite sin_neg. ring.
  Qed.
  Theorem noise_term_real dim flux : (forall d t, (d < dim)%nat -> real_brick dom nf nd (fun e => flux e t d)) -> real_term dom nf nd (flux_term noise_mult ft dim flux).
  Proof. apply flux_real. intros d _. apply noise_mult_odd. Qed.

  (** without a Nyquist frequency *)
  Lemma odd_no_nyquist k d : odd_domain dom -> (k < n)%nat -> nth d (tfreq ft k) 0 <> 1 / 2.
  Proof.
    intros Ho Hk E. destruct (lt_dec d (length dom)) as [Hd|Hd].
    - destruct (tfreq_fraction dom Hv k d Hk Hd) as (c & m & M & Hc & Hin & E'). unfold ft in E. rewrite E in E'.
      pose proof (freq1_princ c m ltac:(lia) Hc) as Q. apply Qeq_eqR in Q.
      rewrite Q2R_div, !Q2R_inject in Q by (unfold Qeq; cbn; lia). rewrite Q in E'.
      assert (M0 : IZR m <> 0) by (apply not_0_IZR; lia).
      assert (E2 : IZR m = IZR (2 * princ c m)). { rewrite mult_IZR. apply (Rmult_eq_reg_r (/ (2 * IZR m))); [|apply Rinv_neq_0_compat; lra]. replace (IZR m * / (2 * IZR m)) with (1 / 2) by (field; exact M0). rewrite E'. field. exact M0. }
      apply eq_IZR in E2. pose proof (proj1 (Forall_forall _ _) Ho m Hin) as O. rewrite E2, Z.odd_mul in O. discriminate.
    - unfold ft in E. rewrite nth_overflow in E by (rewrite (tfreq_length dom Hv k Hk); lia). lra.
  Qed.
  Lemma divgrad_mult_odd d : odd_domain dom -> herm_fun dom (fun j => (0, divgrad_mult (nth d (tfreq ft j) 0))).
  Proof.
    intros Ho u w Hu Hw Hc. destruct (conj_nth _ _ d (conj_tfreq dom u w Hv Hu Hw Hc)) as [E|[_ E2]].
    - unfold ft. rewrite E. unfold divgrad_mult. apply C_eq; cbn; ring.
    - exfalso. exact (odd_no_nyquist u d Ho Hu E2).
  Qed.
  Theorem divgrad_term_real base dim : odd_domain dom -> (base + 2 * dim <= nd)%nat -> real_term dom nf nd (divgrad_term ft base dim).
  Proof.
    intros Ho Hb. apply flux_real; [intros d _; apply divgrad_mult_odd, Ho|]. intros d t Hd. apply derived_brick_real. lia.
  Qed.

  (** ** Terms that leave and re-enter Fourier space *)
  Lemma real_to_real u e : real_brick dom nf nd u -> sized nf nd e -> hermitian_fields dom (e_fields e) -> hermitian_fields dom (e_derived e) ->
    realf (to_real ft (u e)) /\ u e = fft ft (to_real ft (u e)).
  Proof.
    intros Hu S H1 H2. pose proof (Hu e S H1 H2) as H. split; [apply (realf_to_real dom Hv Hs), H|]. symmetry. apply (gt_inverse _ _ G), (proj1 H).
  Qed.
  Lemma real_nth_im x j : realf x -> (j < n)%nat -> Im (nth j x C0) = 0.
  Proof. intros [L R] Hj. apply real_field_nth; [exact R|rewrite L; exact Hj]. Qed.
  Lemma realf_intro x : length x = n -> (forall j, (j < n)%nat -> Im (nth j x C0) = 0) -> realf x.
  Proof. intros L H. split; [exact L|]. apply real_field_nth. rewrite L. exact H. Qed.
  Lemma csum_im_zero m (f : nat -> C) : (forall i, (i < m)%nat -> Im (f i) = 0) -> Im (csum m f) = 0.
  Proof. intros H. rewrite csum_im. rewrite (rsum_ext m _ (fun _ => 0)) by exact H. apply rsum_0. Qed.
  Lemma im_mul a b : Im a = 0 -> Im b = 0 -> Im (Cmul a b) = 0.
  Proof. destruct a as [a a'], b as [b b']. cbn. intros -> ->. ring. Qed.
  Lemma realf_times a b : realf a -> realf b -> realf (times a b).
  Proof.
    intros A B. apply realf_intro; [unfold times; apply StepProofs.map2_length; [apply A|apply B]|].
    intros j Hj. unfold times. rewrite nth_map2 by (rewrite ?(proj1 A), ?(proj1 B); fold n; lia). apply im_mul; apply real_nth_im; assumption.
  Qed.
  Lemma realf_sum dim v : (forall d, (d < dim)%nat -> realf (v d)) -> realf (sum_over dim n v).
  Proof.
    intros H. apply realf_intro; [apply sum_over_length|]. intros j Hj. rewrite sum_over_nth by exact Hj.
    apply csum_im_zero. intros d Hd. apply real_nth_im; [apply H, Hd|exact Hj].
  Qed.
  Lemma realf_scale c x : realf x -> realf (map (Cmul (RtoC c)) x).
  Proof.
    intros H. apply realf_intro; [rewrite map_length; apply H|]. intros j Hj. rewrite nth_map_data by (rewrite (proj1 H); exact Hj).
    apply im_mul; [reflexivity|apply real_nth_im; assumption].
  Qed.
  Lemma realf_opp x : realf x -> realf (map Copp x).
  Proof. intros H. rewrite (map_ext Copp (Cmul (RtoC (-1)))) by (intros; apply C_eq; cbn; ring). apply realf_scale, H. Qed.

  Theorem weighted_laplacian_real u F : real_brick dom nf nd u -> real_brick dom nf nd F -> real_term dom nf nd (weighted_laplacian_term ft u F).
  Proof.
    intros Hu HF e t tmp S H1 H2 L _. destruct (real_to_real u e Hu S H1 H2) as [Ru Eu]. destruct (real_to_real F e HF S H1 H2) as [RF EF].
    assert (LT : length (weighted_laplacian_term ft u F e t tmp) = n).
    { unfold weighted_laplacian_term. apply (gt_fft_len _ _ G), StepProofs.map2_length; apply (tr_length n ft U); [rewrite mapi_from_length|]; [apply (Hu e S H1 H2)|apply (HF e S H1 H2)]. }
    apply herm_of_real; [exact LT|]. rewrite (weighted_laplacian_value n ft U u F e t tmp _ _ (proj1 Ru) (proj1 RF) Eu EF).
    apply realf_times; [exact RF|]. exact (laplacian_real dom Hv Hs _ Ru).
  Qed.
  Theorem sqgrad_real factor dim u : real_brick dom nf nd u -> real_term dom nf nd (sqgrad_term ft factor dim u).
  Proof.
    intros Hu e t tmp S H1 H2 L _. destruct (real_to_real u e Hu S H1 H2) as [Ru Eu].
    assert (LT : length (sqgrad_term ft factor dim u e t tmp) = n).
    { unfold sqgrad_term. rewrite L. assert (H : forall dim d field, length field = n -> length (sqgrad_from ft factor (u e) d dim field) = n).
      { intros dm. induction dm as [|dm IH]; intros d field Lf; cbn [sqgrad_from]; [exact Lf|]. apply IH.
        apply StepProofs.map2_length; [exact Lf|]. apply (gt_fft_len _ _ G). rewrite map_length. apply (tr_length n ft U). rewrite grad_amp_len. apply (Hu e S H1 H2). }
      apply H, repeat_length. }
    apply herm_of_real; [exact LT|]. rewrite (sqgrad_value n ft U factor dim u e t tmp _ (proj1 Ru) Eu L).
    apply realf_sum. intros d _. apply realf_scale, realf_times; apply (gradient_real dom Hv Hs Hm), Ru.
  Qed.
  Theorem charge_term_real ext sigma rho : real_brick dom nf nd rho -> real_term dom nf nd (charge_term ft ext sigma (length dom) rho).
  Proof.
    intros Hr e t tmp S H1 H2 L _. destruct (real_to_real rho e Hr S H1 H2) as [Rr Er].
    assert (LT : length (charge_term ft ext sigma (length dom) rho e t tmp) = n) by (unfold charge_term; rewrite flux_length; exact L).
    apply herm_of_real; [exact LT|].
    pose proof (charge_transport dom Hv Hm ext sigma rho _ e t tmp (proj1 Rr) Er L) as E. fold ft in E. rewrite E.
    apply realf_opp, realf_sum. intros d Hd. apply (gradient_real dom Hv Hs Hm).
    pose proof (phi_real dom Hv Hs _ Rr) as RP. fold ft in RP.
    apply realf_intro; [apply ohm_length|]. intros j Hj. unfold ohm_current.
    rewrite (EnergyProofs3.nth_map_seq (fun i => csum (length dom) (fun d0 => Cmul (RtoC (tensor_of (length dom) (sigma i) d0 d)) (Csub (RtoC (nth d0 ext 0)) (nth i (gradient ft d0 false (phi dom (to_real ft (rho e)))) C0)))) C0 (nodes dom) j Hj).
    apply csum_im_zero. intros d0 _. apply im_mul; [reflexivity|].
    pose proof (real_nth_im _ j (gradient_real dom Hv Hs Hm d0 _ RP) Hj) as I0. fold ft in I0.
    destruct (nth j (gradient ft d0 false (phi dom (to_real ft (rho e)))) C0) as [a b]. cbn in I0 |- *. rewrite I0. ring.
  Qed.
  Theorem advection_term_real base dim : (base + dim < nd)%nat -> real_term dom nf nd (advection_term base dim).
  Proof.
    intros Hb e t tmp S H1 H2 L _. unfold advection_term. destruct (derived_brick_real (base + dim) Hb e S H1 H2) as [LB HB].
    split; [rewrite map_length; exact LB|]. apply (herm_ext dom _ (fun j => Copp (nth j (derived_brick (base + dim) e) C0)) Hv).
    - intros j Hj. apply nth_map_data. rewrite LB. exact Hj.
    - intros a b Ha Hb' Hc. apply (herm_iff dom _ Hv) in HB. rewrite (HB a b Ha Hb' Hc). csolve.
  Qed.

  (** ** Hessian and source *)
  Lemma herm_real_fun (g : nat -> R) : (forall a b, (a < n)%nat -> (b < n)%nat -> conj_freqs (tfreq ft a) (tfreq ft b) -> g b = g a) -> herm_fun dom (fun j => RtoC (g j)).
  Proof. intros H a b Ha Hb Hc. rewrite Cconj_RtoC. f_equal. apply H; try assumption. apply (conj_tfreq dom); assumption. Qed.
  Lemma hess_term_herm K e t tmp : length tmp = nodes dom -> (forall a b, (a < n)%nat -> (b < n)%nat -> conj_freqs (tfreq ft a) (tfreq ft b) -> hess_value K (tfreq ft b) = hess_value K (tfreq ft a)) ->
    length (hessian_term ft K e t tmp) = nodes dom /\ hermitian dom (hessian_term ft K e t tmp).
  Proof.
    intros L H. unfold hessian_term. split; [rewrite mapi_from_length; exact L|].
    apply (herm_ext dom _ (fun j => RtoC (hess_value K (tfreq ft j))) Hv); [|exact (herm_real_fun _ H)].
    intros j Hj. rewrite nth_mapi by (rewrite L; exact Hj). reflexivity.
  Qed.
  Theorem hessian_diagonal_real K e t tmp : length tmp = nodes dom ->
    (forall i j, (i < j)%nat -> (j < length dom)%nat -> hess_coeff K i j = 0) ->
    length (hessian_term ft K e t tmp) = nodes dom /\ hermitian dom (hessian_term ft K e t tmp).
  Proof.
    intros L HK. apply hess_term_herm; [exact L|]. intros a b Ha Hb C. unfold hess_value.
    pose proof (tfreq_length dom Hv a Ha) as La. pose proof (tfreq_length dom Hv b Hb) as Lb. fold ft in La, Lb. rewrite La, Lb. f_equal.
    - apply rsum_ext. intros i Hi. destruct (conj_nth _ _ i C) as [->|[-> ->]]; ring.
    - apply rsum_ext. intros i Hi. apply rsum_ext. intros j Hj. destruct (Nat.ltb_spec i j); [|reflexivity]. rewrite HK by assumption. ring.
  Qed.
  Theorem hessian_odd_real K e t tmp : length tmp = nodes dom -> odd_domain dom ->
    length (hessian_term ft K e t tmp) = nodes dom /\ hermitian dom (hessian_term ft K e t tmp).
  Proof.
    intros L Ho. apply hess_term_herm; [exact L|]. intros a b Ha Hb C. unfold hess_value.
    pose proof (tfreq_length dom Hv a Ha) as La. pose proof (tfreq_length dom Hv b Hb) as Lb. fold ft in La, Lb. rewrite La, Lb.
    assert (E : forall i, nth i (tfreq ft b) 0 = - nth i (tfreq ft a) 0).
    { intros i. destruct (conj_nth _ _ i C) as [E|[_ E]]; [exact E|]. exfalso. exact (odd_no_nyquist a i Ho Ha E). }
    f_equal.
    - apply rsum_ext. intros i Hi. rewrite E. ring.
    - apply rsum_ext. intros i Hi. apply rsum_ext. intros j Hj. destruct (Nat.ltb i j); [|reflexivity]. rewrite !E. ring.
  Qed.
  Theorem source_node_real f t tmp j : length tmp = nodes dom -> (j < nodes dom)%nat ->
    length (source_eval ft (node_point dom j) f t tmp) = nodes dom /\ hermitian dom (source_eval ft (node_point dom j) f t tmp).
  Proof.
    intros L Hj. assert (LS : length (source_eval ft (node_point dom j) f t tmp) = n) by (rewrite source_length; exact L).
    apply herm_of_real; [exact LS|]. pose proof (source_at_node dom f t tmp j Hv Hs L Hj) as E. fold ft in E. rewrite E.
    apply realf_scale. split; [unfold unit_at; rewrite map_length, seq_length; reflexivity|].
    apply real_field_nth. unfold unit_at. rewrite map_length, seq_length. intros i Hi. fold (unit_at (nodes dom) j). rewrite unit_at_nth by exact Hi.
    destruct (Nat.eqb i j); reflexivity.
  Qed.

  (** ** Derived fields *)
  Theorem gradient_calc_real d i e : (i < length (e_fields e))%nat -> real_fields dom (e_fields e) ->
    length (gradient_calc ft d (field_brick i) e) = nodes dom /\ real_field (gradient_calc ft d (field_brick i) e).
  Proof.
    intros Hi H. unfold gradient_calc. apply (gradient_real dom Hv Hs Hm). unfold field_brick. apply (Forall_nth_error _ i _ _ H), nth_error_nth'. exact Hi.
  Qed.
End Terms.

(** ** DivGrad on an even domain *)
Lemma valid41 : valid_domain [4; 1]%Z. Proof. split; [left; reflexivity|repeat constructor; lia]. Qed.
Lemma freq41 : tfreq (fftw_transform [4; 1]%Z) 0 = [0; 0] /\ tfreq (fftw_transform [4; 1]%Z) 1 = [1 / 4; 0] /\
  tfreq (fftw_transform [4; 1]%Z) 2 = [1 / 2; 0] /\ tfreq (fftw_transform [4; 1]%Z) 3 = [- (1 / 4); 0].
Proof. cbn. unfold Q2R. cbn. split; [|split; [|split]]; apply f_equal2; try lra; apply f_equal2; try lra; reflexivity. Qed.
Lemma node41 : node_point [4; 1]%Z 0 = [0; 0] /\ node_point [4; 1]%Z 1 = [1; 0].
Proof. split; reflexivity. Qed.
Lemma moderate41 : moderate [4; 1]%Z. Proof. repeat constructor; lia. Qed.
Lemma nodes41 : nodes [4; 1]%Z = 4%nat. Proof. reflexivity. Qed.
Lemma cis_q1 : cis (1 / 4) = Ci.
Proof. unfold cis, Ci. replace (2 * PI * (1 / 4)) with (PI / 2) by field. rewrite cos_PI2, sin_PI2. reflexivity. Qed.
Lemma cis_h : cis (1 / 2) = Copp C1.
Proof. unfold cis. replace (2 * PI * (1 / 2)) with PI by field. rewrite cos_PI, sin_PI. apply C_eq; cbn; ring. Qed.

Lemma grad41 d keep x j : length x = 4%nat -> (j < 4)%nat ->
  nth j (gradient (fftw_transform [4; 1]%Z) d keep x) C0 =
  Cdiv (csum 4 (fun k => Cmul (Cmul (nth k (fft (fftw_transform [4; 1]%Z) x) C0) (0, 2 * PI * grad_freq keep (nth d (tfreq (fftw_transform [4; 1]%Z) k) 0)))
     (cis (rdot (tfreq (fftw_transform [4; 1]%Z) k) (node_point [4; 1]%Z j))))) (RtoC 4).
Proof.
  intros L Hj. pose proof (gt_fft_len _ _ (fftw_good _ valid41) x L) as LF. rewrite nodes41 in LF. unfold gradient.
  rewrite (to_real_nth [4; 1]%Z valid41 I) by (rewrite ?grad_amp_len, ?nodes41; assumption). rewrite nodes41.
  replace (INR 4) with 4 by (cbn; ring). f_equal.
Qed.

Definition bump_function (i : nat) (e : env) : C := if Nat.eqb i 1 then C1 else C0.
Definition divgrad_model : pde :=
  {| p_calc := divgrad_calcs (fftw_transform [4; 1]%Z) (field_brick 0) bump_function 0 0 2; p_eqns := []; p_mods := [] |}.
Theorem divgrad_even_not_real :
  ~ real_field (to_real (fftw_transform [4; 1]%Z) (divgrad_term (fftw_transform [4; 1]%Z) 0 2
      (spectrum divgrad_model (fftw_transform [4; 1]%Z) {| e_fields := [unit_at 4 0]; e_derived := [[]; []; []; []] |}) 0 (repeat C0 4))).
Proof.
  set (ft := fftw_transform [4; 1]%Z). set (e := {| e_fields := [unit_at 4 0]; e_derived := [[]; []; []; []] |}).
  pose proof (divgrad_value 4 ft (fftw_unitary _ valid41) divgrad_model [] [] (field_brick 0) bump_function 2 e 0 (repeat C0 4)) as DV.
  cbn [app length] in DV. rewrite DV; [|rewrite app_nil_r; reflexivity|reflexivity|intros ? ? E; unfold field_brick; rewrite E; reflexivity|intros i ? ? _; reflexivity|reflexivity|apply repeat_length]. clear DV.
  change (field_brick 0 e) with (unit_at 4 0).
  set (w := fun d => times (values 4 bump_function e) (gradient ft d false (unit_at 4 0))).
  assert (Lg : forall d k x, length x = 4%nat -> length (gradient ft d k x) = 4%nat) by (intros; apply (gradient_len 4 ft (fftw_unitary _ valid41)); assumption).
  assert (Lw : forall d, length (w d) = 4%nat) by (intros d; unfold w, times; apply StepProofs.map2_length; [reflexivity|apply Lg; reflexivity]).
  destruct freq41 as (F0 & F1 & F2 & F3). fold ft in F0, F1, F2, F3. destruct node41 as [N0 N1].
  assert (GF : forall k, (k < 4)%nat -> grad_freq false (nth 0 (tfreq ft k) 0) = if Req_EM_T (nth 0 (tfreq ft k) 0) (1 / 2) then 0 else nth 0 (tfreq ft k) 0).
  { intros k Hk. apply (grad_freq_exact [4; 1]%Z valid41 moderate41 k 0). exact Hk. }
  assert (A : forall k, (k < 4)%nat -> nth k (fft ft (unit_at 4 0)) C0 = C1).
  { intros k Hk. unfold ft. cbn [fft fftw_transform]. change 4%nat with (nprod (fftw_dims [4; 1]%Z)). rewrite dft_unit by (change (nprod (fftw_dims [4; 1]%Z)) with 4%nat; lia).
    rewrite phase_sym. assert (P : phase (fftw_dims [4; 1]%Z) 0 k = 0) by (unfold phase, fftw_dims; cbn [map nprod Z.to_nat Pos.to_nat Pos.iter_op Nat.add Nat.mul]; rewrite !Nat.mod_0_l, !Nat.div_0_l by lia; cbn [INR]; unfold Rdiv; ring).
    rewrite P, Rmult_0_r. apply cis_0. }
  assert (g1 : nth 1 (gradient ft 0 false (unit_at 4 0)) C0 = RtoC (- (PI / 4))).
  { unfold ft. rewrite grad41 by (try lia; reflexivity). fold ft. cbn [csum]. rewrite !A, !GF by lia. rewrite F0, F1, F2, F3, N1. cbn [nth rdot].
    destruct (Req_EM_T 0 (1 / 2)) as [X|_]; [lra|]. destruct (Req_EM_T (1 / 4) (1 / 2)) as [X|_]; [lra|]. destruct (Req_EM_T (1 / 2) (1 / 2)) as [_|X]; [|lra]. destruct (Req_EM_T (- (1 / 4)) (1 / 2)) as [X|_]; [lra|].
    replace (1 / 4 * 1 + (0 * 0 + 0)) with (1 / 4) by ring. replace (- (1 / 4) * 1 + (0 * 0 + 0)) with (- (1 / 4)) by ring. rewrite cis_opp, cis_q1.
    unfold Cdiv. rewrite <- RtoC_inv by lra. apply C_eq; cbn; field. }
  assert (W : w 0%nat = map (Cmul (RtoC (- (PI / 4)))) (unit_at 4 1)).
  { apply (list_eq_nth _ _ 4); [apply Lw|reflexivity|]. intros j Hj. unfold w, times. rewrite nth_map2 by (rewrite ?(Lg 0%nat false (unit_at 4 0) eq_refl); cbn; lia).
    rewrite nth_map_data by (cbn; lia). rewrite unit_at_nth by exact Hj. unfold values.
    rewrite (EnergyProofs3.nth_map_seq (fun i => bump_function i e) C0 4 j Hj). unfold bump_function. destruct (Nat.eqb_spec j 1) as [->|_]; [|ring].
    rewrite g1. ring. }
  assert (FW : forall k, (k < 4)%nat -> nth k (fft ft (w 0%nat)) C0 = Cmul (RtoC (- (PI / 4))) (cis (- (INR k / 4)))).
  { intros k Hk. unfold ft. cbn [fft fftw_transform]. rewrite dft_nth by (cbn; lia). change (nprod (fftw_dims [4; 1]%Z)) with 4%nat.
    rewrite (csum_single _ 1%nat); [|lia|].
    2:{ intros i Hi Hn. rewrite W, nth_map_data by (cbn; lia). rewrite unit_at_nth by exact Hi. destruct (Nat.eqb_spec i 1); [contradiction|]. ring. }
    rewrite W, nth_map_data by (cbn; lia). rewrite unit_at_nth by lia. cbn [Nat.eqb].
    replace (-1 * phase (fftw_dims [4; 1]%Z) k 1) with (- (INR k / 4)); [ring|].
    change (fftw_dims [4; 1]%Z) with [4; 1]%nat. destruct k as [|[|[|[|k]]]]; try lia; cbn; field. }
  intros R. pose proof (proj1 (real_field_nth _) R 0%nat ltac:(rewrite sum_over_length; lia)) as I0. revert I0.
  rewrite sum_over_nth by lia. cbn [csum]. fold (w 0%nat) (w 1%nat). unfold ft at 1 2. rewrite !grad41 by (try lia; apply Lw). fold ft. cbn [csum].
  rewrite !FW by lia. rewrite !grad_freq_keep, F0, F1, F2, F3, N0. cbn [nth rdot INR].
  replace (0 * 0 + (0 * 0 + 0)) with 0 by ring. replace (1 / 4 * 0 + (0 * 0 + 0)) with 0 by ring. replace (1 / 2 * 0 + (0 * 0 + 0)) with 0 by ring. replace (- (1 / 4) * 0 + (0 * 0 + 0)) with 0 by ring.
  rewrite !cis_opp. replace (0 / 4) with 0 by field. replace ((1 + 1) / 4) with (1 / 2) by field. replace ((1 + 1 + 1) / 4) with (1 / 2 + 1 / 4) by field.
  rewrite cis_add, cis_h, cis_q1, cis_0.
  unfold Cdiv. rewrite <- !RtoC_inv by lra. intros I0. cbn in I0. pose proof PI_RGT_0 as P.
  ring_simplify in I0. assert (PI * PI > 0) by nra. nra.
Qed.
