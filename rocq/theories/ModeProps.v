(** Properties C42 (mode expansion solver) and C67 (fit of elastic properties). *)
From Verif Require Import ModeModel ModeSpec ModeProofs ModeProofs2 ModeProofs3 GridProofs2.
From Coq Require Import Lra Lia.
Open Scope R_scope.

(** C42. A mode contributes the sum of cos(2 pi g.r) over its family. *)
Theorem C42_mode_density : forall m pos L, length pos = 2%nat \/ length pos = 3%nat -> family (length pos) m L ->
  mode_density m pos = lsum (fun e => cos (2 * PI * hkl_dot e pos)) L.
Proof. exact mode_density_spec. Qed.
Print Assumptions C42_mode_density.

(** Different powers have different keys, so no two terms are confused. *)
Theorem C42_keys_distinct : forall p p', length p = length p' -> power2key p = power2key p' -> p = p'.
Proof. exact power2key_inj. Qed.
Print Assumptions C42_keys_distinct.

(** The polynomial of all terms is the average of the free energy density of
    the expansion, computed with the quadrature rule. *)
Theorem C42_polynomial_is_average : forall mix dim q modes amp, dim = 2%nat \/ dim = 3%nat -> modes <> [] -> length amp = length modes ->
  exists ts, all_terms mix dim q modes = Some ts /\ energy ts amp = rule_average dim q (energy_density mix modes amp).
Proof.
  intros mix dim q modes amp Hd Hm Hl. destruct (all_spec mix dim q modes Hd Hm) as (ts & E & _). exists ts. split; [exact E|].
  exact (energy_average mix dim q modes Hd Hm ts amp E Hl).
Qed.
Print Assumptions C42_polynomial_is_average.

(** What is minimised (without the terms below the cutoff) differs from any
    average I of the free energy density, for example its integral over the
    unit cell, by at most the quadrature error and the cutoff.  Missing: the
    two are not equal, since the code drops small terms. *)
Theorem C42_energy_close_partial : forall mix dim q modes amp I eps M ts, dim = 2%nat \/ dim = 3%nat -> modes <> [] -> length amp = length modes ->
  cell_average modes I ->
  (forall powers, length powers = length modes -> list_sum powers = 3%nat \/ list_sum powers = 4%nat ->
     Rabs (rule_average dim q (mode_product modes powers) - I (mode_product modes powers)) <= eps) ->
  all_terms mix dim q modes = Some ts -> 0 <= M -> Forall (fun kv : str * fterm => Rabs (snd (snd kv)) <= M) ts ->
  Rabs (energy (cut_terms ts) amp - I (energy_density mix modes amp))
  <= eps * (Rabs (third_prefactor mix) * amp_size amp ^ 3 + Rabs (fourth_prefactor mix) * amp_size amp ^ 4)
     + 1 / 10000 * M * (amp_size amp ^ 3 + amp_size amp ^ 4).
Proof.
  intros mix dim q modes amp I eps M ts Hd Hm Hl HI He E HM HF.
  assert (A := energy_close mix dim q modes Hd Hm I ts amp eps HI E Hl He). assert (B := cut_close mix dim q modes Hd Hm ts amp M E Hl HM HF).
  replace (_ - _) with ((energy (cut_terms ts) amp - energy ts amp) + (energy ts amp - I (energy_density mix modes amp))) by ring.
  eapply Rle_trans; [apply Rabs_triang|]. lra.
Qed.
Print Assumptions C42_energy_close_partial.

(** Grad and Hess are the derivatives of Func, for any terms. *)
Theorem C42_gradient : forall ts amp i, (i < length amp)%nat ->
  derivable_pt_lim (fun x => energy ts (with_amp amp i x)) (nth i amp 0) (gradient ts amp i).
Proof. exact gradient_is_derivative. Qed.
Print Assumptions C42_gradient.
Theorem C42_hessian : forall ts amp i j, (i < length amp)%nat -> (j < length amp)%nat ->
  derivable_pt_lim (fun x => gradient ts (with_amp amp j x) i) (nth j amp 0) (hessian ts amp i j).
Proof. exact hessian_is_derivative. Qed.
Print Assumptions C42_hessian.

(** Solve returns the lowest of zero and the minima found; its energy belongs
    to its amplitudes, if the optimiser reports the cost at its location. *)
Theorem C42_solve_returns_best : forall mix dim q modes ts minimize starts, dim = 2%nat \/ dim = 3%nat -> modes <> [] ->
  all_terms mix dim q modes = Some ts -> (forall x0, fst (minimize x0) = energy (cut_terms ts) (snd (minimize x0))) ->
  let best := pick_best minimize modes starts in
  energy (cut_terms ts) (snd best) = fst best /\ fst best <= 0 /\ Forall (fun x0 => fst best <= fst (minimize x0)) starts
  /\ (best = (0, repeat 0 (length modes)) \/ exists x0, In x0 starts /\ best = minimize x0).
Proof.
  intros mix dim q modes ts minimize starts Hd Hm E HE. apply (pick_best_spec (energy (cut_terms ts))); [|exact HE].
  exact (energy_at_zero mix dim q modes ts Hd Hm E).
Qed.
Print Assumptions C42_solve_returns_best.

(** The square lattice: the family of (1, 0) in the plane, its density at the
    origin, and the energy found with a one-point rule. *)
Example C42_nonvacuous :
  family 2 (1, 0, 0)%Z [(1, 0, 0); (-1, 0, 0); (0, 1, 0); (0, -1, 0)]%Z
  /\ mode_density (1, 0, 0)%Z [0; 0] = 4
  /\ (forall mix, exists ts, all_terms mix 2 [(0, 1)] [(1, 0, 0)%Z] = Some ts
       /\ energy ts [1 / 2] = third_prefactor mix * 8 + fourth_prefactor mix * 16)
  /\ cell_average [(1, 0, 0)%Z] (rule_average 2 [(0, 1)]).
Proof.
  assert (F : family 2 (1, 0, 0)%Z [(1, 0, 0); (-1, 0, 0); (0, 1, 0); (0, -1, 0)]%Z).
  { split.
    - repeat constructor; cbn [In]; intuition congruence.
    - intros [[h k] l]. unfold signed_permutation, magnitudes. change (Z.abs 1) with 1%Z. change (Z.abs 0) with 0%Z. rewrite MillerProofs.perm3. cbn [snd In]. split.
      + intros [E|[E|[E|[E|[]]]]]; injection E as <- <- <-; (split; [cbn; lia|reflexivity]).
      + intros [P E]. specialize (E eq_refl). subst l.
        assert (Q : (h = 1 /\ k = 0 \/ h = -1 /\ k = 0 \/ h = 0 /\ k = 1 \/ h = 0 /\ k = -1)%Z) by lia.
        destruct Q as [[-> ->]|[[-> ->]|[[-> ->]|[-> ->]]]]; tauto. }
  assert (D : mode_density (1, 0, 0)%Z [0; 0] = 4).
  { rewrite (C42_mode_density (1, 0, 0)%Z [0; 0] _ (or_introl eq_refl) F).
    rewrite (lsum_ext _ (fun _ => 1)); [cbn [lsum]; ring|]. intros e _. unfold hkl_dot. cbn [rsum length nth].
    match goal with |- cos ?a = 1 => replace a with 0 by ring end. exact cos_0. }
  split; [exact F|]. split; [exact D|]. split; [|apply rule_cell_average].
  intros mix. destruct (C42_polynomial_is_average mix 2 [(0, 1)] [(1, 0, 0)%Z] [1 / 2]) as (ts & E & V); [left; reflexivity|discriminate|reflexivity|].
  exists ts. split; [exact E|]. rewrite V. unfold rule_average, energy_density, expansion. cbn [Nat.eqb lsum fst snd length rsum nth]. rewrite D. field.
Qed.

(** C67. The design weights are the Voigt averages of the mode's contribution
    m_t Q_su m_v to the elastic constants, and the bulk weight is the squared
    wave vector over 9. *)
Theorem C67_bulk_weight : forall m c, bulk_weight 3 m (q_matrix 3 c) = voigt_bulk (mode_stiffness (q_matrix 3 c) m)
  /\ bulk_weight 3 m (q_matrix 3 c) = rsum 3 (fun i => hkl_vector 3 c m i * hkl_vector 3 c m i) / 9.
Proof. intros m c. split; [apply bulk_voigt, q_matrix_sym|apply bulk_wave_vector]. Qed.
Print Assumptions C67_bulk_weight.

(** The fitted values are the averages of the total tensor, the sum over the
    modes with the squared factors. *)
Theorem C67_fit_is_average_of_tensor : forall r modes c x k, length x = length modes -> r = 3%nat \/ (k = Area \/ k = XYShear) ->
  prediction r modes (q_matrix r c) x k =
  match k with Bulk => voigt_bulk | ShearP => voigt_shear | Area => plane_area | XYShear => plane_shear end
    (fun s t u v => rsum (length modes) (fun i => nth i x 0 * nth i x 0 * mode_stiffness (q_matrix r c) (nth i modes (0, 0, 0)%Z) s t u v)).
Proof. exact prediction_tensor. Qed.
Print Assumptions C67_fit_is_average_of_tensor.

(** The gradient handed to the optimiser is the derivative of the objective. *)
Theorem C67_gradient : forall r modes Q props x j, (j < length x)%nat ->
  derivable_pt_lim (fun t => objective r modes Q props (with_amp x j t)) (nth j x 0) (objective_grad r modes Q props x j).
Proof. exact objective_grad_is_derivative. Qed.
Print Assumptions C67_gradient.

(** With at least two modes and known names the function reports, for exactly
    the requested properties, the values its factors give.  Missing: one mode. *)
Theorem C67_reports_fit_partial : forall minimize r modes c props, (2 <= length modes)%nat -> Forall (fun sv => property_of_name (fst sv) <> None) props ->
  exists amp fit, match_elastic minimize r modes c props = Some (amp, fit)
    /\ map fst fit = map (fun sv => match property_of_name (fst sv) with Some k => k | None => Bulk end) props
    /\ Forall (fun kv => snd kv = prediction r modes (q_matrix r c) amp (fst kv)) fit.
Proof. exact match_elastic_fit. Qed.
Print Assumptions C67_reports_fit_partial.
(** In three dimensions these values are the averages the four documented
    names stand for, of the elastic tensor with the returned factors, provided
    the optimiser returns as many factors as it was given. *)
Theorem C67_reports_averages_partial : forall minimize modes c props, (2 <= length modes)%nat -> (forall f x, length (minimize f x) = length x) ->
  Forall (fun sv => exists av, names_average (fst sv) av) props ->
  exists amp fit, match_elastic minimize 3 modes c props = Some (amp, fit) /\ length amp = length modes
    /\ Forall2 (fun sv kv => forall av, names_average (fst sv) av -> snd kv = av (total_stiffness (q_matrix 3 c) modes amp)) props fit.
Proof. exact match_elastic_averages. Qed.
Print Assumptions C67_reports_averages_partial.
(** No other name is known. *)
Theorem C67_known_names : forall s, property_of_name s = None <-> ~ exists av, names_average s av.
Proof. exact name_unknown. Qed.
Print Assumptions C67_known_names.
(** What is minimised: the squared misfits, plus a small multiple of the
    fourth powers of the factors when there are fewer targets than modes. *)
Theorem C67_objective : forall r modes Q props x, objective r modes Q props x
  = lsum (fun kv : elastic_property * R => (snd kv - prediction r modes Q x (fst kv)) ^ 2) props
    + (if Nat.ltb (length props) (length modes) then 1 / 1000000 else 0) * lsum (fun a => a ^ 4) x.
Proof. exact objective_spec. Qed.
Print Assumptions C67_objective.
(** With at least as many targets as modes the objective vanishes exactly
    when every target is met. *)
Theorem C67_exact_fit : forall r modes Q props x, (length modes <= length props)%nat ->
  (objective r modes Q props x = 0 <-> Forall (fun kv => prediction r modes Q x (fst kv) = snd kv) props).
Proof. exact objective_zero. Qed.
Print Assumptions C67_exact_fit.
Theorem C67_unknown_name_panics : forall minimize r modes c props s v, In (s, v) props -> property_of_name s = None -> match_elastic minimize r modes c props = None.
Proof. exact match_elastic_unknown. Qed.
Print Assumptions C67_unknown_name_panics.
(** One mode: the function panics whatever is asked (initX[1]). *)
Theorem C67_single_mode_refuted : forall minimize r m c props, match_elastic minimize r [m] c props = None.
Proof. exact match_elastic_one. Qed.
Print Assumptions C67_single_mode_refuted.

(** The width of a peak satisfies h^2 w^2 = beta a^2 / 2 ... *)
Theorem C67_peak_width : forall dim m a h n, num_equivalent m dim = Some n -> (0 <= n)%Z -> h <> 0 ->
  exists w, peak_width dim m a h = Some w /\ 0 <= w /\ h ^ 2 * w ^ 2 = 1 / 2 * IZR n * a ^ 2.
Proof. exact peak_width_spec. Qed.
Print Assumptions C67_peak_width.
(** ... and not h^2 = beta a / (2 w) as the comment says. *)
Theorem C67_documented_width_refuted : ~ (forall m a h n w, num_equivalent m 3 = Some n -> 0 < a -> 0 < h -> peak_width 3 m a h = Some w -> h ^ 2 * w = 1 / 2 * IZR n * a).
Proof.
  intros H. destruct (C67_peak_width 3 (1, 0, 0)%Z 2 1 6) as (w & E & W0 & W); [reflexivity|lia|lra|].
  specialize (H (1, 0, 0)%Z 2 1 6%Z w eq_refl ltac:(lra) ltac:(lra) E). assert (Hw : w = 6) by lra. rewrite Hw in W. lra.
Qed.
Print Assumptions C67_documented_width_refuted.

(** Two modes of a simple cubic cell with unit reciprocal vectors. *)
Example C67_nonvacuous :
  let c := sc3d 1 in
  bulk_weight 3 (1, 1, 0)%Z (q_matrix 3 c) = 2 / 9
  /\ (exists fit, match_elastic (fun _ x0 => x0) 3 [(1, 0, 0); (1, 1, 0)]%Z c [(lit "bulk", 5); (lit "shear", 3)] = Some ([1; 1 / 100], fit))
  /\ Forall (fun sv => exists av, names_average (fst sv) av) [(lit "bulk", 5); (lit "shear", 3); (lit "area", 1); (lit "xyshear", 2)]
  /\ num_equivalent (1, 1, 0)%Z 3 = Some 12%Z.
Proof.
  split; [|split; [eexists; reflexivity|split; [repeat constructor; eexists; constructor|reflexivity]]].
  unfold bulk_weight, sum_loop, q_matrix, mmul, mtrans, sc3d, mset, mzero, mq, mat_. cbn [seq fold_left rsum Nat.sub Nat.eqb andb]. field.
Qed.
