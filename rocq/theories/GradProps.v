(** Properties C62 to C66: gradients, charge transport, sources, Hessians and
    the penalty for negative values. *)
From Verif Require Import GradSpec RealProofs GradProofs GradProofs2 GradProofs3 GradProofs4 GradProofs5 GradProofs6 DftProofs StepProofs EnergyProofs3 Vec CVec Complex.
From Coq Require Import Lra Lia Qreals.
Open Scope R_scope.

(** C62. The trigonometric interpolant passes through the field values. *)
Theorem C62_interpolant_at_nodes : forall dom x j, valid_domain dom -> square_layout dom -> length x = nodes dom -> (j < nodes dom)%nat ->
  interp dom x (node_point dom j) = nth j x C0.
Proof. intros dom x j Hv Hs. exact (interp_at_node dom Hv Hs x j). Qed.
Print Assumptions C62_interpolant_at_nodes.

(** The gradient of a real field is real and is the derivative of the
    interpolant along the axis. *)
Theorem C62_gradient_is_derivative : forall dom x d j, valid_domain dom -> square_layout dom -> moderate dom ->
  length x = nodes dom -> real_field x -> (j < nodes dom)%nat ->
  Im (nth j (gradient (fftw_transform dom) d false x) C0) = 0 /\
  derivable_pt_lim (fun h => Re (interp dom x (along d h (node_point dom j)))) 0 (Re (nth j (gradient (fftw_transform dom) d false x) C0)).
Proof. intros dom x d j Hv Hs Hm. exact (gradient_derivative dom Hv Hs Hm x d j). Qed.
Print Assumptions C62_gradient_is_derivative.

(** With KeepNyquist only the real part is the derivative. *)
Theorem C62_gradient_keeping_nyquist : forall dom x d j, valid_domain dom -> square_layout dom ->
  length x = nodes dom -> (j < nodes dom)%nat ->
  derivable_pt_lim (fun h => Re (interp dom x (along d h (node_point dom j)))) 0 (Re (nth j (gradient (fftw_transform dom) d true x) C0)).
Proof. intros dom x d j Hv Hs. exact (gradient_keep_derivative dom Hv Hs x d j). Qed.
Print Assumptions C62_gradient_keeping_nyquist.

(** The spectral Laplacian is the sum of the second derivatives of the
    interpolant. *)
Theorem C62_laplacian_is_sum_of_second_derivatives : forall dom x j, valid_domain dom -> square_layout dom ->
  length x = nodes dom -> (j < nodes dom)%nat ->
  exists l, (forall d, (d < length dom)%nat -> second_derivative (fun h => Re (interp dom x (along d h (node_point dom j)))) (l d)) /\
    Re (nth j (laplacian (fftw_transform dom) x) C0) = rsum (length dom) l.
Proof. intros dom x j Hv Hs. exact (laplacian_second dom Hv Hs x j). Qed.
Print Assumptions C62_laplacian_is_sum_of_second_derivatives.

(** DivGrad contributes div (F grad u), wherever its derived fields are
    registered in the model. *)
Theorem C62_divgrad_is_divergence_of_weighted_gradient : forall n ft p pre post u F dim e t tmp, unitary_transform n ft ->
  p_calc p = pre ++ divgrad_calcs ft u F (length pre) 0 dim ++ post ->
  length (e_derived e) = length (p_calc p) -> reads_fields u -> (forall i, reads_fields (F i)) -> length (u e) = n -> length tmp = n ->
  to_real ft (divgrad_term ft (length pre) dim (spectrum p ft e) t tmp) =
  sum_over dim n (fun d => gradient ft d true (times (values n F e) (gradient ft d false (u e)))).
Proof. intros n ft p pre post u F dim e t tmp U. exact (divgrad_value n ft U p pre post u F dim e t tmp). Qed.
Print Assumptions C62_divgrad_is_divergence_of_weighted_gradient.

(** Advection contributes - v . grad u. *)
Theorem C62_advection_is_minus_v_grad : forall n ft p pre post u vs e t tmp, unitary_transform n ft ->
  p_calc p = pre ++ advection_calcs ft u vs n (length pre) ++ post ->
  length (e_derived e) = length (p_calc p) -> reads_fields u -> (forall v, In v vs -> reads_fields v /\ length (v e) = n) -> length (u e) = n ->
  to_real ft (advection_term (length pre) (length vs) (spectrum p ft e) t tmp) =
  map Copp (sum_over (length vs) n (fun d => times (nth d vs (fun _ => []) e) (gradient ft d false (u e)))).
Proof. intros n ft p pre post u vs e t tmp U. exact (advection_value n ft U p pre post u vs e t tmp). Qed.
Print Assumptions C62_advection_is_minus_v_grad.

(** WeightedLaplacian contributes F LAP u. *)
Theorem C62_weighted_laplacian_value : forall n ft u F e t tmp x w, unitary_transform n ft ->
  length x = n -> length w = n -> u e = fft ft x -> F e = fft ft w ->
  to_real ft (weighted_laplacian_term ft u F e t tmp) = times w (laplacian ft x).
Proof. intros n ft u F e t tmp x w U. exact (weighted_laplacian_value n ft U u F e t tmp x w). Qed.
Print Assumptions C62_weighted_laplacian_value.

(** SquaredGradient contributes factor |grad u|^2. *)
Theorem C62_squared_gradient_value : forall n ft factor dim u e t tmp x, unitary_transform n ft ->
  length x = n -> u e = fft ft x -> length tmp = n ->
  to_real ft (sqgrad_term ft factor dim u e t tmp) =
  sum_over dim n (fun d => map (Cmul (RtoC factor)) (times (gradient ft d false x) (gradient ft d false x))).
Proof. intros n ft factor dim u e t tmp x U. exact (sqgrad_value n ft U factor dim u e t tmp x). Qed.
Print Assumptions C62_squared_gradient_value.

Example C62_nonvacuous : valid_domain [4; 6]%Z /\ square_layout [4; 6]%Z /\ moderate [4; 6]%Z /\ unitary_transform 24 (fftw_transform [4; 6]%Z) /\
  length (map RtoC (map INR (seq 0 24))) = nodes [4; 6]%Z /\ real_field (map RtoC (map INR (seq 0 24))) /\
  reads_fields (field_brick 0) /\
  p_calc {| p_calc := [fun e => field_brick 1 e] ++ divgrad_calcs (fftw_transform [4; 6]%Z) (field_brick 0) (fun i e => nth i (field_brick 1 e) C0) 1 0 2 ++ []; p_eqns := []; p_mods := [] |} =
    [fun e => field_brick 1 e] ++ divgrad_calcs (fftw_transform [4; 6]%Z) (field_brick 0) (fun i e => nth i (field_brick 1 e) C0) (length [fun e : env => field_brick 1 e]) 0 2 ++ [].
Proof.
  assert (V : valid_domain [4; 6]%Z) by (split; [left; reflexivity|repeat constructor; lia]).
  split; [exact V|]. split; [exact I|]. split; [repeat constructor; lia|]. split; [exact (fftw_unitary _ V)|]. split; [reflexivity|].
  split; [apply Forall_forall; intros z Hz; apply in_map_iff in Hz; destruct Hz as (r & <- & _); reflexivity|].
  split; [intros e e' E; unfold field_brick; rewrite E; reflexivity|]. reflexivity.
Qed.

(** C63. ChargeTransport contributes - div J and Current returns J, where
    J = sigma (E_ext - grad phi) and phi solves - LAP phi + 2 pi 1e-16 phi = rho
    (the small term keeps the zero frequency finite). *)
Theorem C63_charge_transport_is_ohms_law_partial : forall dom ext sigma rho e t tmp x,
  valid_domain dom -> square_layout dom -> moderate dom ->
  length x = nodes dom -> rho e = fft (fftw_transform dom) x -> length tmp = nodes dom ->
  exists phi, length phi = nodes dom /\ (real_field x -> real_field phi) /\
    (forall j, (j < nodes dom)%nat -> nth j x C0 =
       Cadd (Copp (nth j (laplacian (fftw_transform dom) phi) C0)) (Cmul (RtoC (2 * PI * (1 / 10000000000000000))) (nth j phi C0))) /\
    let J := ohm_current (fftw_transform dom) ext (fun i => tensor_of (length dom) (sigma i)) (length dom) (nodes dom) phi in
    to_real (fftw_transform dom) (charge_term (fftw_transform dom) ext sigma (length dom) rho e t tmp) =
      map Copp (sum_over (length dom) (nodes dom) (fun d => gradient (fftw_transform dom) d false (J d))) /\
    (forall d, (d < length dom)%nat -> current (fftw_transform dom) ext sigma (length dom) x true d = map Re (J d)).
Proof.
  intros dom ext sigma rho e t tmp x Hv Hs Hm L Er LT. exists (phi dom x).
  split; [exact (phi_length dom Hv x L)|]. split; [intros R; exact (proj2 (phi_real dom Hv Hs x (conj L R)))|].
  split; [intros j Hj; exact (poisson dom Hv x j L Hj)|]. cbv zeta.
  split; [exact (charge_transport dom Hv Hm ext sigma rho x e t tmp L Er LT)|].
  intros d Hd. exact (current_ohm dom Hv Hm ext sigma x d L Hd).
Qed.
Print Assumptions C63_charge_transport_is_ohms_law_partial.

(** In a uniform isotropic conductor every amplitude of the charge density is
    driven to zero: the term is - s w_k times the amplitude with 0 <= w_k <= 1,
    whatever the constant external field. *)
Theorem C63_uniform_conductor_relaxes : forall dom, valid_domain dom -> square_layout dom -> moderate dom ->
  exists w, (forall k, (k < nodes dom)%nat -> 0 <= w k <= 1) /\
  forall ext sigma s rho x e t tmp k,
  (forall i d d2, (d < length dom)%nat -> (d2 < length dom)%nat -> tensor_of (length dom) (sigma i) d d2 = if Nat.eqb d d2 then s else 0) ->
  length x = nodes dom -> rho e = fft (fftw_transform dom) x -> length tmp = nodes dom -> (k < nodes dom)%nat ->
  nth k (charge_term (fftw_transform dom) ext sigma (length dom) rho e t tmp) C0 =
  Cmul (RtoC (- (s * w k))) (nth k (fft (fftw_transform dom) x) C0).
Proof.
  intros dom Hv Hs Hm. exists (relax_rate dom). split; [exact (relax_range dom Hv Hm)|].
  intros ext sigma s rho x e t tmp k. exact (relaxation dom Hv Hs Hm ext sigma s rho x e t tmp k).
Qed.
Print Assumptions C63_uniform_conductor_relaxes.

(** The documented order of the conductivities in three dimensions is not the
    one that is used: entry 3 couples y and z, not x and z. *)
Theorem C63_documented_order_refuted : exists s d d2, (d < 3)%nat /\ (d2 < 3)%nat /\ nth (voigt_index 3 d d2) s 0 <> documented_tensor s d d2.
Proof. exists [0; 0; 0; 1; 0; 0], 0%nat, 2%nat. split; [lia|]. split; [lia|]. cbn. lra. Qed.
Print Assumptions C63_documented_order_refuted.

(** The conductivity that is used is a symmetric tensor. *)
Theorem C63_conductivity_is_symmetric : forall dim s d d2, (dim = 2 \/ dim = 3)%nat -> (d < dim)%nat -> (d2 < dim)%nat ->
  nth (voigt_index dim d d2) s 0 = tensor_of dim s d d2 /\ tensor_of dim s d d2 = tensor_of dim s d2 d.
Proof.
  intros dim s d d2 H H1 H2. split; [exact (voigt_tensor dim s d d2 H H1 H2)|].
  destruct H as [-> | ->]; [destruct d as [|[|d]], d2 as [|[|d2]]; try lia; reflexivity|destruct d as [|[|[|d]]], d2 as [|[|[|d2]]]; try lia; reflexivity].
Qed.
Print Assumptions C63_conductivity_is_symmetric.

Example C63_nonvacuous : (forall i d d2 : nat, (d < 3)%nat -> (d2 < 3)%nat -> tensor_of 3 ((fun _ : nat => [2; 2; 2; 0; 0; 0]) i) d d2 = if Nat.eqb d d2 then 2 else 0) /\
  valid_domain [2; 2; 2]%Z /\ square_layout [2; 2; 2]%Z /\ moderate [2; 2; 2]%Z /\
  length (repeat C1 8) = nodes [2; 2; 2]%Z /\
  (let rho := fun e : env => fft (fftw_transform [2; 2; 2]%Z) (repeat C1 8) in forall e, rho e = fft (fftw_transform [2; 2; 2]%Z) (repeat C1 8)).
Proof. split; [intros _ d d2 Hd Hd2; destruct d as [|[|[|d]]], d2 as [|[|[|d2]]]; try lia; reflexivity|]. split; [split; [right; reflexivity|repeat constructor; lia]|]. split; [right; split; reflexivity|]. split; [repeat constructor; lia|]. split; [reflexivity|]. reflexivity. Qed.

(** C64. A source at a node adds f(t) at that node and nothing elsewhere. *)
Theorem C64_source_acts_at_its_node : forall dom f t tmp j, valid_domain dom -> square_layout dom -> length tmp = nodes dom -> (j < nodes dom)%nat ->
  to_real (fftw_transform dom) (source_eval (fftw_transform dom) (node_point dom j) f t tmp) = map (Cmul (RtoC (f t))) (unit_at (nodes dom) j).
Proof. exact source_at_node. Qed.
Print Assumptions C64_source_acts_at_its_node.

(** Wherever the source is placed it adds f(t) in total. *)
Theorem C64_source_total : forall n ft pos f t tmp, good_transform n ft -> (0 < n)%nat -> length tmp = n ->
  Csum (to_real ft (source_eval ft pos f t tmp)) = RtoC (f t).
Proof. exact source_total. Qed.
Print Assumptions C64_source_total.

Example C64_nonvacuous : valid_domain [3; 5]%Z /\ square_layout [3; 5]%Z /\ good_transform 15 (fftw_transform [3; 5]%Z) /\ nodes [3; 5]%Z = 15%nat /\ node_point [3; 5]%Z 7 = [1; 2].
Proof.
  assert (V : valid_domain [3; 5]%Z) by (split; [left; reflexivity|repeat constructor; lia]).
  split; [exact V|]. split; [exact I|]. split; [exact (fftw_good _ V)|]. split; reflexivity.
Qed.

(** C65. For a symmetric K the term is K_ij d2/dx_i dx_j: its value at every
    frequency, and the result of multiplying it with the amplitudes. *)
Theorem C65_symbol_of_symmetric_tensor_partial : forall K f, (length f = 2 \/ length f = 3)%nat ->
  (forall i j, (i < length f)%nat -> (j < length f)%nat -> hess_coeff K i j = hess_coeff K j i) ->
  hess_value K f = hessian_symbol (length f) (hess_coeff K) f.
Proof. exact hess_symmetric. Qed.
Print Assumptions C65_symbol_of_symmetric_tensor_partial.
Theorem C65_operator_of_symmetric_tensor : forall n ft K dim x tmp e t, unitary_transform n ft ->
  (dim = 2 \/ dim = 3)%nat -> (forall k, (k < n)%nat -> length (tfreq ft k) = dim) ->
  (forall i j, (i < dim)%nat -> (j < dim)%nat -> hess_coeff K i j = hess_coeff K j i) ->
  length x = n -> length tmp = n ->
  to_real ft (map2 Cmul (hessian_term ft K e t tmp) (fft ft x)) =
  sum_over dim n (fun i => sum_over dim n (fun j => map (Cmul (RtoC (hess_coeff K i j))) (gradient ft i true (gradient ft j true x)))).
Proof. intros n ft K dim x tmp e t U. exact (hessian_operator n ft U K dim x tmp e t). Qed.
Print Assumptions C65_operator_of_symmetric_tensor.

(** For a tensor that is not symmetric the lower triangle is ignored. *)
Theorem C65_asymmetric_tensor_refuted : exists K f, length K = 4%nat /\ length f = 2%nat /\ hess_value K f <> hessian_symbol 2 (hess_coeff K) f.
Proof. exact hess_asymmetric. Qed.
Print Assumptions C65_asymmetric_tensor_refuted.

(** The identity tensor gives the Laplacian. *)
Theorem C65_identity_is_laplacian : forall f,
  (length f = 2%nat -> hess_value [1; 0; 0; 1] f = lap_symbol f) /\ (length f = 3%nat -> hess_value [1; 0; 0; 0; 1; 0; 0; 0; 1] f = lap_symbol f).
Proof.
  intros f. split; intros L.
  - destruct f as [|a [|b [|c f]]]; try discriminate. unfold hess_value, hess_coeff, lap_symbol. cbn. ring.
  - destruct f as [|a [|b [|c [|d f]]]]; try discriminate. unfold hess_value, hess_coeff, lap_symbol. cbn. ring.
Qed.
Print Assumptions C65_identity_is_laplacian.

Example C65_nonvacuous : exists dom, valid_domain dom /\ unitary_transform (nodes dom) (fftw_transform dom) /\ (forall k, (k < nodes dom)%nat -> length (tfreq (fftw_transform dom) k) = 3%nat) /\
  (forall i j, (i < 3)%nat -> (j < 3)%nat -> hess_coeff [1; 2; 3; 2; 4; 5; 3; 5; 6] i j = hess_coeff [1; 2; 3; 2; 4; 5; 3; 5; 6] j i) /\
  hess_value [1; 2; 3; 2; 4; 5; 3; 5; 6] [1; 1; 0] <> 0.
Proof.
  exists [4; 4; 4]%Z. assert (V : valid_domain [4; 4; 4]%Z) by (split; [right; reflexivity|repeat constructor; lia]).
  split; [exact V|]. split; [exact (fftw_unitary _ V)|]. split; [exact (tfreq_length _ V)|]. split.
  - intros i j Hi Hj. destruct i as [|[|[|i]]], j as [|[|[|j]]]; try lia; reflexivity.
  - unfold hess_value, hess_coeff. cbn. pose proof PI_RGT_0. nra.
Qed.

(** C66. For an odd exponent Penalty is the derivative of P (|x|^p - x^p). *)
Theorem C66_penalty_is_derivative_partial : forall P p x, Nat.odd p = true -> x <> 0 \/ (3 <= p)%nat ->
  derivable_pt_lim (penalty_function P p) x (penalty P p x).
Proof. exact penalty_derivative. Qed.
Print Assumptions C66_penalty_is_derivative_partial.

(** Non-negative values are not penalised. *)
Theorem C66_no_penalty_for_positive_values : forall P p x, 0 < x -> penalty P p x = 0 /\ penalty_function P p x = 0.
Proof.
  intros P p x H. unfold penalty, penalty_function. destruct (Rlt_dec 0 x) as [_|N]; [|contradiction]. rewrite Rabs_right by lra. split; ring.
Qed.
Print Assumptions C66_no_penalty_for_positive_values.

(** For an even exponent the documented function is zero but Penalty is not. *)
Theorem C66_even_exponent_refuted : exists P p x, Nat.even p = true /\ x < 0 /\ derivable_pt_lim (penalty_function P p) x 0 /\ penalty P p x <> 0.
Proof. exact penalty_even. Qed.
Print Assumptions C66_even_exponent_refuted.

Example C66_nonvacuous : Nat.odd 3 = true /\ (3 <= 3)%nat /\ penalty 1500 3 (-1) = -9000.
Proof. split; [reflexivity|]. split; [lia|]. unfold penalty. destruct (Rlt_dec 0 (-1)); [lra|]. cbn. ring. Qed.
