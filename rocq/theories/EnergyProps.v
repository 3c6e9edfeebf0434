(** Properties C43, C44, C47, C48, C49, C59 and C60: energies, filters and multipliers. *)
From Verif Require Import EnergySpec EnergyProofs EnergyProofs2 EnergyProofs3 EnergyProofs4 EnergyProofs5 StepProofs SddProofs Vec CVec Complex.
From Coq Require Import Lra Lia.
Open Scope R_scope.

(** C43. Deriv is the derivative of Eval. *)
Theorem C43_deriv_is_derivative : forall m n, derivable_pt_lim (ideal_eval m) n (ideal_deriv m n).
Proof. exact ideal_deriv_correct. Qed.
Print Assumptions C43_deriv_is_derivative.

(** Eval is n^2/2 - C3 n^3/6 + C4 n^4/12, the documented polynomial. *)
Theorem C43_documented_polynomial : forall m n, ideal_eval m n = n ^ 2 / 2 - im_c3 m * n ^ 3 / 6 + im_c4 m * n ^ 4 / 12.
Proof. exact ideal_eval_doc. Qed.
Print Assumptions C43_documented_polynomial.

(** With C3 = C4 = 1 it approximates the mixing energy to fourth order. *)
Theorem C43_expands_mixing_energy : forall n, 0 <= n ->
  0 <= ideal_eval {| im_c3 := 1; im_c4 := 1 |} n - mixing_energy n <= n ^ 5 / 20.
Proof. exact ideal_expansion_pos. Qed.
Print Assumptions C43_expands_mixing_energy.

(** The linear part times the amplitude plus the nonlinear part is the
    transform of Eval (with the Laplacian if requested), for Prefactor 1. *)
Theorem C43_split_adds_up_partial : forall n it ft u j, unitary_transform n ft -> length u = n -> real_field u -> (j < n)%nat ->
  it_prefactor it = 1 ->
  Cadd (Cmul (nth j (it_linear it ft n) C0) (nth j (fft ft u) C0))
       (nth j (it_nonlinear it ft (fft ft (it_derived it u))) C0) =
  Cmul (symbol (it_laplacian it) ft j) (nth j (fft ft (map (it_eval it) u)) C0).
Proof. exact it_mixed_1. Qed.
Print Assumptions C43_split_adds_up_partial.

(** What the parts add up to for every Prefactor: the Prefactor reaches the
    linear part only. *)
Theorem C43_split_for_every_prefactor : forall n it ft u j, unitary_transform n ft -> length u = n -> real_field u -> (j < n)%nat ->
  Cadd (Cmul (nth j (it_linear it ft n) C0) (nth j (fft ft u) C0))
       (nth j (it_nonlinear it ft (fft ft (it_derived it u))) C0) =
  Cmul (symbol (it_laplacian it) ft j)
       (nth j (fft ft (map (fun z => RtoC (it_prefactor it * Re z + (ideal_deriv (it_mix it) (Re z) - Re z))) u)) C0).
Proof. exact it_mixed. Qed.
Print Assumptions C43_split_for_every_prefactor.

Theorem C43_split_prefactor_refuted : exists n it ft u j, unitary_transform n ft /\ length u = n /\ real_field u /\ (j < n)%nat /\
  Cadd (Cmul (nth j (it_linear it ft n) C0) (nth j (fft ft u) C0))
       (nth j (it_nonlinear it ft (fft ft (it_derived it u))) C0) <>
  Cmul (symbol (it_laplacian it) ft j) (nth j (fft ft (map (it_eval it) u)) C0).
Proof.
  exists 1%nat, bad_ideal, id1, [C1], 0%nat. split; [exact id1_unitary|]. split; [reflexivity|]. split; [repeat constructor|].
  split; [lia|]. exact prefactor_bad.
Qed.
Print Assumptions C43_split_prefactor_refuted.

Example C43_nonvacuous : unitary_transform 1 id1 /\ real_field [RtoC 5] /\ it_prefactor demo_ideal = 1 /\
  ideal_deriv {| im_c3 := 1; im_c4 := 1 |} 2 <> 0.
Proof.
  split; [exact id1_unitary|]. split; [repeat constructor|]. split; [reflexivity|].
  unfold ideal_deriv, quadratic_prefactor, third_prefactor, fourth_prefactor. cbn. lra.
Qed.

(** C44. *)
Theorem C44_between_0_and_1 : forall temp peaks k,
  Forall (fun p => 0 < pk_density p * IZR (pk_planes p)) peaks -> 0 <= pair_eval temp peaks k <= 1.
Proof. exact pair_eval_range. Qed.
Print Assumptions C44_between_0_and_1.

Theorem C44_at_least_every_peak : forall temp peaks k p, In p peaks -> peak_value temp k p <= pair_eval temp peaks k.
Proof. intros temp peaks k p H. exact (pair_loop_upper temp k peaks 0 p H). Qed.
Print Assumptions C44_at_least_every_peak.

Theorem C44_equals_one_peak : forall temp peaks k, peaks <> [] ->
  exists p, In p peaks /\ pair_eval temp peaks k = peak_value temp k p.
Proof. exact pair_eval_attained. Qed.
Print Assumptions C44_equals_one_peak.

(** A higher effective temperature never raises the correlation function; at
    temperature zero it is 1 at every peak position. *)
Theorem C44_temperature_damps : forall t1 t2 peaks k,
  Forall (fun p => 0 < pk_density p * IZR (pk_planes p)) peaks -> 0 <= t1 <= t2 ->
  pair_eval t2 peaks k <= pair_eval t1 peaks k.
Proof. exact pair_eval_temp. Qed.
Print Assumptions C44_temperature_damps.

Theorem C44_one_at_peak_positions : forall peaks p,
  Forall (fun p => 0 < pk_density p * IZR (pk_planes p)) peaks -> In p peaks -> pair_eval 0 peaks (pk_location p) = 1.
Proof. exact pair_eval_top. Qed.
Print Assumptions C44_one_at_peak_positions.

(** The predefined lattices satisfy the hypotheses. *)
Theorem C44_predefined_lattices : forall width a, 0 < a ->
  Forall (fun p => 0 < pk_density p * IZR (pk_planes p)) (square_lattice_2d width a) /\
  Forall (fun p => 0 < pk_density p * IZR (pk_planes p)) (triangular_lattice_2d width a) /\
  pair_eval 0 (square_lattice_2d width a) (2 * PI / a) = 1 /\
  pair_eval 0 (square_lattice_2d width a) (sqrt 2 * (2 * PI / a)) = 1 /\
  pair_eval 0 (triangular_lattice_2d width a) (2 * PI / a) = 1.
Proof.
  intros width a Ha. assert (S : 0 < sqrt 2) by (apply sqrt_lt_R0; lra).
  assert (F1 : Forall (fun p => 0 < pk_density p * IZR (pk_planes p)) (square_lattice_2d width a)).
  { repeat constructor; cbn; [lra|]. apply Rmult_lt_0_compat; [|lra]. apply Rdiv_lt_0_compat; lra. }
  assert (F2 : Forall (fun p => 0 < pk_density p * IZR (pk_planes p)) (triangular_lattice_2d width a)) by (repeat constructor; cbn; lra).
  split; [exact F1|]. split; [exact F2|]. split; [|split].
  - apply (pair_eval_top _ {| pk_density := 1; pk_planes := 4; pk_width := width; pk_location := 2 * PI / a |} F1). left. reflexivity.
  - replace (sqrt 2 * (2 * PI / a)) with (2 * PI / (a / sqrt 2)) by (field; split; lra).
    apply (pair_eval_top _ {| pk_density := 1 / sqrt 2; pk_planes := 4; pk_width := width; pk_location := 2 * PI / (a / sqrt 2) |} F1). right. left. reflexivity.
  - apply (pair_eval_top _ {| pk_density := 2; pk_planes := 3; pk_width := width; pk_location := 2 * PI / a |} F2). left. reflexivity.
Qed.
Print Assumptions C44_predefined_lattices.

Example C44_nonvacuous : square_lattice_2d 1 8 <> [] /\ length (square_lattice_2d 1 8) = 2%nat.
Proof. split; [discriminate|reflexivity]. Qed.

(** C47. *)
Theorem C47_forward_into_interval : forall lo hi x, lo < hi -> lo < bound_forward lo hi x < hi.
Proof. exact bound_forward_range. Qed.
Print Assumptions C47_forward_into_interval.
Theorem C47_backward_inverts_forward : forall lo hi x, lo < hi -> bound_backward lo hi (bound_forward lo hi x) = x.
Proof. exact bound_back_forward. Qed.
Print Assumptions C47_backward_inverts_forward.
Theorem C47_forward_inverts_backward : forall lo hi y, lo < y < hi -> bound_forward lo hi (bound_backward lo hi y) = y.
Proof. exact bound_forward_back. Qed.
Print Assumptions C47_forward_inverts_backward.
Theorem C47_forward_increasing : forall lo hi x y, lo < hi -> x < y -> bound_forward lo hi x < bound_forward lo hi y.
Proof. exact bound_forward_increasing. Qed.
Print Assumptions C47_forward_increasing.
Example C47_nonvacuous : bound_forward 0 1 0 = 1 / 2 /\ bound_forward (-1) 3 0 = 1.
Proof. unfold bound_forward. rewrite atan_0. split; field; exact PI_neq0. Qed.

(** C48. Vandeven filters: 1 at zero, at most 1, non-increasing, for every order. *)
Theorem C48_one_at_zero : forall order, vandeven_eval order 0 = Some 1.
Proof. exact vandeven_eval_zero. Qed.
Print Assumptions C48_one_at_zero.

Theorem C48_non_increasing : forall order x y a b, 0 <= x <= y ->
  vandeven_eval order x = Some a -> vandeven_eval order y = Some b -> b <= a.
Proof. exact vandeven_eval_mono. Qed.
Print Assumptions C48_non_increasing.

(** Between 0 and 1 for orders 1 to 3 (full property: every order). *)
Theorem C48_between_0_and_1_partial : forall order x, (1 <= order <= 3)%nat -> 0 <= x ->
  exists y, vandeven_eval order x = Some y /\ 0 <= y <= 1.
Proof.
  intros order x Ho Hx. destruct (vandeven_eval_total order x Hx) as [y E]. exists y. split; [exact E|].
  pose proof (vandeven_eval_ge_last order x y Hx E). pose proof (last_nonneg order Ho). pose proof (vandeven_eval_le_1 order x y Hx E). lra.
Qed.
Print Assumptions C48_between_0_and_1_partial.

Theorem C48_never_above_1 : forall order x, 0 <= x -> exists y, vandeven_eval order x = Some y /\ y <= 1.
Proof.
  intros order x Hx. destruct (vandeven_eval_total order x Hx) as [y E]. exists y. split; [exact E|].
  exact (vandeven_eval_le_1 order x y Hx E).
Qed.
Print Assumptions C48_never_above_1.

(** The table of order 4 ends below zero. *)
Theorem C48_non_negative_refuted : exists x y, 0 <= x /\ vandeven_eval 4 x = Some y /\ y < 0.
Proof.
  exists 1, (vandeven_data 4 999). split; [lra|]. split; [|exact last_4].
  destruct (vandeven_eval_cases 4 1 ltac:(lra)) as [[_ E]|[i [Hi [Ri _]]]]; [exact E|].
  assert (INR i <= 998) by (replace 998 with (INR 998) by (rewrite INR_IZR_INZ; reflexivity); apply le_INR; lia). lra.
Qed.
Print Assumptions C48_non_negative_refuted.

(** Order one is 1 - x. *)
Theorem C48_order_one_is_linear : forall x, 0 <= x <= 1 -> vandeven_eval 1 x = Some (1 - x).
Proof. exact vandeven_1. Qed.
Print Assumptions C48_order_one_is_linear.

(** A filter that is 1 at zero frequency keeps the mean of the field. *)
Theorem C48_filter_keeps_mean : forall n g ft x, good_transform n ft -> g 0 = 1 -> length x = n ->
  mean (to_real ft (apply_filter (Some g) ft (fft ft x))) = mean x.
Proof. exact filter_keeps_mean. Qed.
Print Assumptions C48_filter_keeps_mean.

(** The argument handed to the filter never reaches the end of its range, so no
    mode is removed: with order one every mode keeps more than 2/5. *)
Theorem C48_argument_stays_below : forall f, (length f <= 3)%nat -> Forall (fun x => Rabs x <= 1 / 2) f ->
  0 <= filter_argument f < 3 / 5.
Proof. intros f Hl Hf. split; [apply filter_argument_nonneg|exact (filter_argument_bound f Hl Hf)]. Qed.
Print Assumptions C48_argument_stays_below.

Theorem C48_highest_mode_removed_refuted : forall f, (length f <= 3)%nat -> Forall (fun x => Rabs x <= 1 / 2) f ->
  exists y, vandeven_eval 1 (filter_argument f) = Some y /\ 2 / 5 < y.
Proof.
  intros f Hl Hf. pose proof (filter_argument_bound f Hl Hf). pose proof (filter_argument_nonneg f).
  exists (1 - filter_argument f). split; [apply vandeven_1; lra|lra].
Qed.
Print Assumptions C48_highest_mode_removed_refuted.

Example C48_nonvacuous : vandeven_eval 1 (1 / 4) = Some (3 / 4) /\ Forall (fun x => Rabs x <= 1 / 2) [1 / 2; 1 / 2; 1 / 2].
Proof.
  split; [rewrite vandeven_1 by lra; apply f_equal; lra|]. repeat constructor; rewrite Rabs_right; lra.
Qed.

(** C49.  Full property: the total of the field is conserved.  The code adjusts
    the multiplier afterwards, so it is conserved up to the change of the
    ratio forcing / indicator from one step to the next. *)

(** After a step that was not the first, the multiplier cancels the forcing
    seen in that step. *)
Theorem C49_multiplier_cancels_last_forcing : forall n calc rest den ft dt,
  lp_ok n calc rest den ft -> forall t e v e' v',
  dt <> 0 -> indicator_total calc e <> 0 -> one_field n e ->
  lp_first v = false -> lp_integral v = volume n e ->
  lp_step calc rest den ft dt t n (e, v) = Some (e', v') ->
  lp_value v' = - (forcing calc rest den ft n t e / indicator_total calc e).
Proof. exact lp_multiplier. Qed.
Print Assumptions C49_multiplier_cancels_last_forcing.

(** The volume changes by dt (forcing + multiplier * indicator) in every step. *)
Theorem C49_volume_change : forall n calc rest den ft dt, lp_ok n calc rest den ft ->
  forall t e v, one_field n e -> exists e' v',
    lp_step calc rest den ft dt t n (e, v) = Some (e', v') /\ one_field n e' /\
    volume n e' = volume n e + dt * (forcing calc rest den ft n t e + lp_value v * indicator_total calc e).
Proof.
  intros n calc rest den ft dt OK t e v H. destruct (lp_step_spec n calc rest den ft dt OK t e v H) as (e' & v' & E & O & V & _).
  exists e', v'. auto.
Qed.
Print Assumptions C49_volume_change.

(** Drift bound for any number of steps after the control has started. *)
Theorem C49_drift_bound_partial : forall n calc rest den ft dt, lp_ok n calc rest den ft ->
  forall k eps M step e0 v0 e1 v1 e2 v2,
  0 < dt -> one_field n e0 -> lp_first v0 = false -> lp_integral v0 = volume n e0 ->
  lp_step calc rest den ft dt (time_of dt step) n (e0, v0) = Some (e1, v1) ->
  lp_run calc rest den ft dt n (S step) k (e1, v1) = Some (e2, v2) ->
  (forall j e v, (j <= k)%nat -> lp_run calc rest den ft dt n step j (e0, v0) = Some (e, v) ->
     indicator_total calc e <> 0 /\ Rabs (indicator_total calc e) <= M) ->
  (forall j e v e' v', (j < k)%nat -> lp_run calc rest den ft dt n step j (e0, v0) = Some (e, v) ->
     lp_step calc rest den ft dt (time_of dt (step + j)) n (e, v) = Some (e', v') ->
     Rabs (forcing calc rest den ft n (time_of dt (S (step + j))) e' / indicator_total calc e'
           - forcing calc rest den ft n (time_of dt (step + j)) e / indicator_total calc e) <= eps) ->
  Rabs (volume n e2 - volume n e1) <= INR k * (dt * M * eps).
Proof. exact lp_drift. Qed.
Print Assumptions C49_drift_bound_partial.

(** Exact conservation when the forcing is a fixed multiple of the indicator. *)
Theorem C49_constant_ratio_conserves_partial : forall n calc rest den ft dt k step e0 v0 e1 v1 e2 v2 c,
  lp_ok n calc rest den ft -> 0 < dt -> one_field n e0 -> lp_first v0 = false -> lp_integral v0 = volume n e0 ->
  lp_step calc rest den ft dt (time_of dt step) n (e0, v0) = Some (e1, v1) ->
  lp_run calc rest den ft dt n (S step) k (e1, v1) = Some (e2, v2) ->
  (forall j e v, (j <= k)%nat -> lp_run calc rest den ft dt n step j (e0, v0) = Some (e, v) ->
     indicator_total calc e <> 0 /\ forcing calc rest den ft n (time_of dt (step + j)) e = c * indicator_total calc e) ->
  volume n e2 = volume n e1.
Proof. exact drift_zero. Qed.
Print Assumptions C49_constant_ratio_conserves_partial.

(** The first two steps of a new multiplier are not controlled at all; after
    the first one the state satisfies the hypotheses above. *)
Theorem C49_first_two_steps_uncontrolled : forall n calc rest den ft dt, lp_ok n calc rest den ft ->
  forall t0 t1 e0 e1 v1 e2 v2, one_field n e0 ->
  lp_step calc rest den ft dt t0 n (e0, new_multiplier) = Some (e1, v1) ->
  lp_step calc rest den ft dt t1 n (e1, v1) = Some (e2, v2) ->
  volume n e2 = volume n e0 + dt * (forcing calc rest den ft n t0 e0 + forcing calc rest den ft n t1 e1) /\
  (one_field n e1 /\ lp_first v1 = false /\ lp_integral v1 = volume n e1) /\ lp_value v1 = 0.
Proof. exact lp_start. Qed.
Print Assumptions C49_first_two_steps_uncontrolled.

Theorem C49_exact_conservation_refuted : exists n calc rest den ft dt e0 st2 st3,
  lp_ok n calc rest den ft /\ one_field n e0 /\ (forall e, indicator_total calc e = 1) /\
  lp_run calc rest den ft dt n 0 2 (e0, new_multiplier) = Some st2 /\
  lp_run calc rest den ft dt n 0 3 (e0, new_multiplier) = Some st3 /\
  volume n (fst st3) <> volume n (fst st2).
Proof.
  destruct not_conserved as (st2 & st3 & E2 & E3 & V).
  exists 1%nat, unit_calc, [clock], [], id1, 1, lp_start_env, st2, st3. split; [exact clock_ok|]. split; [exact start_one|].
  split; [exact unit_indicator|]. split; [exact E2|]. split; [exact E3|]. lra.
Qed.
Print Assumptions C49_exact_conservation_refuted.

Example C49_nonvacuous : lp_ok 1 unit_calc [steady] [] id1 /\
  forall k, exists st1 st, lp_run unit_calc [steady] [] id1 1 1 0 2 (lp_start_env, new_multiplier) = Some st1 /\
    lp_run unit_calc [steady] [] id1 1 1 0 (2 + k) (lp_start_env, new_multiplier) = Some st /\ volume 1 (fst st) = 6 /\ volume 1 (fst st1) = 6.
Proof. split; [exact steady_ok|exact steady_run]. Qed.

(** C59. The terms are the functional derivatives of the energies. *)
Theorem C59_ideal_energy_derivative : forall n it u v, length u = n -> length v = n ->
  derivable_pt_lim (fun eps => it_energy it (perturb u v eps)) 0 (pairing n (map (it_eval it) u) v).
Proof. exact it_energy_derivative. Qed.
Print Assumptions C59_ideal_energy_derivative.

Theorem C59_pair_energy_derivative : forall n pt ft u v, unitary_transform n ft -> (0 < n)%nat -> length u = n -> length v = n ->
  real_field u -> real_field v -> pt_laplacian pt = false ->
  derivable_pt_lim (fun eps => pt_energy pt ft (perturb u v eps)) 0 (pairing n (to_real ft (pt_explicit pt ft n (fft ft u))) v).
Proof. exact pt_energy_derivative. Qed.
Print Assumptions C59_pair_energy_derivative.

(** The implicit variant is the explicit one divided by the amplitude, and the
    Laplacian flag multiplies both by the symbol of the Laplacian. *)
Theorem C59_implicit_and_explicit_agree : forall pt ft n d j, (j < n)%nat ->
  nth j (pt_explicit pt ft n d) C0 = Cmul (nth j (pt_implicit pt ft n) C0) (nth j d C0) /\
  nth j (pt_implicit pt ft n) C0 = Cmul (symbol (pt_laplacian pt) ft j) (RtoC (- pt_evaluate pt (norm (tfreq ft j)))).
Proof. intros pt ft n d j H. split; [exact (pt_implicit_explicit pt ft n d j H)|exact (pt_implicit_nth pt ft n j H)]. Qed.
Print Assumptions C59_implicit_and_explicit_agree.

(** Moving the field along the right-hand side made of the two terms with the
    Laplacian never increases the total energy. *)
Theorem C59_flow_decreases_energy : forall n it pt ft u, unitary_transform n ft -> (0 < n)%nat -> length u = n -> real_field u ->
  it_prefactor it = 1 -> it_laplacian it = true -> pt_laplacian pt = true ->
  real_field (to_real ft (flow it pt ft n u)) ->
  exists rate, derivable_pt_lim (fun eps => it_energy it (perturb u (to_real ft (flow it pt ft n u)) eps) +
                                            pt_energy pt ft (perturb u (to_real ft (flow it pt ft n u)) eps)) 0 rate /\ rate <= 0.
Proof. exact flow_energy. Qed.
Print Assumptions C59_flow_decreases_energy.

Example C59_nonvacuous : unitary_transform 1 id1 /\ real_field [RtoC 3] /\ real_field (to_real id1 (flow demo_ideal demo_pair id1 1 [RtoC 3])) /\
  it_laplacian demo_ideal = true /\ pt_laplacian demo_pair = true.
Proof.
  split; [exact id1_unitary|]. split; [repeat constructor|]. split; [|split; reflexivity].
  rewrite to_real_id1 by reflexivity. repeat constructor. cbn. ring.
Qed.

(** C60. Spectral viscosity. *)
Theorem C60_low_frequencies_untouched : forall dt eps m power f y, 0 < m -> norm f < m / 3 ->
  semi_implicit dt y C0 (viscosity eps m power f) = y.
Proof. exact viscosity_untouched. Qed.
Print Assumptions C60_low_frequencies_untouched.

Theorem C60_documented_formula : forall f m, 0 < m -> m / 3 <= f <= m ->
  exists x, x = 3 / 2 * f / m - 1 / 2 /\ 0 <= x <= 1 /\ interpolant f m = 2 * x ^ 2 - 3 * x ^ 3.
Proof. exact interpolant_x. Qed.
Print Assumptions C60_documented_formula.

(** No mode grows, except between 7m/9 and m. *)
Theorem C60_damps_partial : forall dt eps m power f y, 0 < m -> 0 <= eps -> 0 <= dt -> norm f <= 7 / 9 * m \/ m < norm f ->
  Cnorm2 (semi_implicit dt y C0 (viscosity eps m power f)) <= Cnorm2 y.
Proof. exact viscosity_damps. Qed.
Print Assumptions C60_damps_partial.

(** There every mode grows, for every small enough step. *)
Theorem C60_damps_refuted : forall dt eps m power f y, 0 < m -> 0 < eps -> 0 < dt -> 7 / 9 * m < norm f <= m ->
  0 < 1 + dt * (eps * interpolant (norm f) m * norm f ^ power) -> y <> C0 ->
  Cnorm2 y < Cnorm2 (semi_implicit dt y C0 (viscosity eps m power f)).
Proof. exact viscosity_amplifies. Qed.
Print Assumptions C60_damps_refuted.

(** At the threshold the interpolant is -1 instead of 1. *)
Theorem C60_one_at_threshold_refuted : forall m, 0 < m -> interpolant m m = -1.
Proof.
  intros m Hm. destruct (interpolant_x m m Hm ltac:(lra)) as [x [E [_ ->]]].
  assert (X : x = 1) by (rewrite E; field; lra). rewrite X. ring.
Qed.
Print Assumptions C60_one_at_threshold_refuted.

Example C60_nonvacuous : norm [2 / 5; 0] = 2 / 5 /\ 7 / 9 * (1 / 2) < 2 / 5 <= 1 / 2 /\
  0 < 1 + 1 / 10 * (1 * interpolant (2 / 5) (1 / 2) * (2 / 5) ^ 2).
Proof.
  split; [|split; [lra|]].
  - unfold norm. cbn [norm_sq]. replace (2 / 5 * (2 / 5) + (0 * 0 + 0)) with (2 / 5 * (2 / 5)) by ring. apply sqrt_square. lra.
  - unfold interpolant. destruct (Rlt_dec (2 / 5) (1 / 3 * (1 / 2))); [lra|]. destruct (Rlt_dec (1 / 2) (2 / 5)); lra.
Qed.
