(** Model of the free energies, filters and multipliers: IdealMix, pair
    correlation functions, their terms, BoundTransform, Vandeven,
    SpectralViscosity and VolumeConservingLP.  Arithmetic is exact (R, C). *)
From Verif Require Export DftModel StepModel.
Open Scope R_scope.

(** ** Ideal mixture *)
(** pfc/ideal.go:20-23. *)
Record ideal_mix := { im_c3 : R; im_c4 : R }.
(** pfc/ideal.go:36-50, the prefactors. *)
Definition quadratic_prefactor : R := 1 / 2.
Definition third_prefactor (m : ideal_mix) : R := - im_c3 m / 6.
Definition fourth_prefactor (m : ideal_mix) : R := im_c4 m / 12.
(** pfc/ideal.go:26-28, Eval. *)
Definition ideal_eval (m : ideal_mix) (n : R) : R :=
  quadratic_prefactor * n * n + third_prefactor m * n * n * n + fourth_prefactor m * n * n * n * n.
(** pfc/ideal.go:31-33, Deriv. *)
Definition ideal_deriv (m : ideal_mix) (n : R) : R :=
  2 * quadratic_prefactor * n + 3 * third_prefactor m * n * n + 4 * fourth_prefactor m * n * n * n.

(** pf/pairCorrelationTerm.go:45-48 and 132-135: LaplacianN{Power: 1} when the
    flag is set. *)
Definition maybe_laplacian (lap : bool) (ft : transform) (d : data) : data :=
  if lap then mapi_from 0 (fun j z => lap_eval (tfreq ft j) 1 z) d else d.

(** pf/pairCorrelationTerm.go:112-117, IdealMixtureTerm; the field is passed. *)
Record ideal_term := { it_mix : ideal_mix; it_prefactor : R; it_laplacian : bool }.
(** pf/pairCorrelationTerm.go:120-123, Eval at a node. *)
Definition it_eval (it : ideal_term) (z : C) : C := RtoC (it_prefactor it * ideal_deriv (it_mix it) (Re z)).
(** pf/pairCorrelationTerm.go:126-137, ConstructLinear; [n] nodes. *)
Definition it_linear (it : ideal_term) (ft : transform) (n : nat) : data :=
  maybe_laplacian (it_laplacian it) ft (repeat (RtoC (it_prefactor it)) n).
(** pf/pairCorrelationTerm.go:145-157, the derived field. *)
Definition it_derived (it : ideal_term) (field : data) : data :=
  map (fun z => RtoC (3 * third_prefactor (it_mix it) * Re z * Re z + 4 * fourth_prefactor (it_mix it) * Re z * Re z * Re z)) field.
(** pf/pairCorrelationTerm.go:160-177, ConstructNonLinear; the argument is the
    transformed derived field. *)
Definition it_nonlinear (it : ideal_term) (ft : transform) (derived : data) : data :=
  maybe_laplacian (it_laplacian it) ft derived.
(** pf/pairCorrelationTerm.go:185-193, GetEnergy. *)
Definition it_energy (it : ideal_term) (field : data) : R :=
  fold_left (fun s z => s + it_prefactor it * ideal_eval (it_mix it) (Re z)) field 0.

(** ** Pair correlation function *)
(** pfc/pairCorrelation.go:8-13. *)
Record peak := { pk_density : R; pk_location : R; pk_width : R; pk_planes : Z }.
(** pfc/pairCorrelation.go:30-31, the value of one peak. *)
Definition peak_value (temp k : R) (p : peak) : R :=
  exp (- temp * temp * k * k / (2 * pk_density p * IZR (pk_planes p))) * exp (- (1 / 2) * ((k - pk_location p) / pk_width p) ^ 2).
(** pfc/pairCorrelation.go:27-37, Eval. *)
Fixpoint pair_loop (temp k : R) (peaks : list peak) (result : R) : R :=
  match peaks with
  | [] => result
  | p :: peaks' => let v := peak_value temp k p in pair_loop temp k peaks' (if Rlt_dec result v then v else result)
  end.
Definition pair_eval (temp : R) (peaks : list peak) (k : R) : R := pair_loop temp k peaks 0.
(** pfc/pairCorrelation.go:42-70. *)
Definition square_lattice_2d (width a : R) : list peak :=
  [{| pk_density := 1; pk_planes := 4; pk_width := width; pk_location := 2 * PI / a |};
   {| pk_density := 1 / sqrt 2; pk_planes := 4; pk_width := width; pk_location := 2 * PI / (a / sqrt 2) |}].
Definition triangular_lattice_2d (width a : R) : list peak :=
  [{| pk_density := 2; pk_planes := 3; pk_width := width; pk_location := 2 * PI / a |}].

(** pf/pairCorrelationTerm.go:23-34, PairCorrlationTerm and evaluate. *)
Record pair_term := { pt_temp : R; pt_peaks : list peak; pt_prefactor : R; pt_laplacian : bool }.
Definition pt_evaluate (pt : pair_term) (f : R) : R := pt_prefactor pt * pair_eval (pt_temp pt) (pt_peaks pt) (2 * PI * f).
(** pf/pairCorrelationTerm.go:37-50, Construct (implicit). *)
Definition pt_implicit (pt : pair_term) (ft : transform) (n : nat) : data :=
  maybe_laplacian (pt_laplacian pt) ft (map (fun i => Copp (RtoC (pt_evaluate pt (norm (tfreq ft i))))) (seq 0 n)).
(** pf/pairCorrelationTerm.go:91-105, Construct (explicit); the argument is the
    transformed field. *)
Definition pt_explicit (pt : pair_term) (ft : transform) (n : nat) (field : data) : data :=
  maybe_laplacian (pt_laplacian pt) ft (map (fun i => Cmul (Copp (RtoC (pt_evaluate pt (norm (tfreq ft i))))) (nth i field C0)) (seq 0 n)).
(** pf/pairCorrelationTerm.go:58-80, GetEnergy. *)
Definition pt_energy (pt : pair_term) (ft : transform) (field : data) : R :=
  let k := mapi_from 0 (fun i z => Cmul z (RtoC (pt_prefactor pt * pair_eval (pt_temp pt) (pt_peaks pt) (2 * PI * norm (tfreq ft i))))) (fft ft field) in
  let r := to_real ft k in
  - (1 / 2) * rsum (length field) (fun i => Re (Cmul (nth i r C0) (nth i field C0))).

(** ** BoundTransform *)
(** pf/boundTransform.go:15-22. *)
Definition bound_forward (lo hi x : R) : R := lo + (hi - lo) * (atan x / PI + 1 / 2).
Definition bound_backward (lo hi y : R) : R := tan (PI * (y - lo) / (hi - lo) - 1 / 2 * PI).

(** ** Vandeven filters *)
(** int(x) of pf/vandeven.go:32: truncation towards zero. *)
Definition to_int (x : R) : Z := if Rle_dec 0 x then Int_part x else (- Int_part (- x))%Z.
(** pf/vandeven.go:17: math.Gamma at positive whole numbers is a factorial. *)
Definition vandeven_prefactor (order : nat) : R := INR (fact (2 * order - 1)) / (INR (fact (order - 1)) * INR (fact (order - 1))).
Definition vandeven_dx : R := 1 / 999.
Definition vandeven_weight (order : nat) (x : R) : R := (x * (1 - x)) ^ (order - 1).
(** pf/vandeven.go:13-27, NewVandeven, entry i of Data; order >= 1. *)
Fixpoint vandeven_data (order i : nat) : R :=
  match i with
  | O => 1
  | S i' =>
      let x := INR i * vandeven_dx in
      vandeven_data order i' - vandeven_prefactor order * (1 / 2) * (vandeven_weight order (x - vandeven_dx) + vandeven_weight order x) * vandeven_dx
  end.
(** pf/vandeven.go:30-40, Eval; a negative index panics. *)
Definition vandeven_eval (order : nat) (x : R) : option R :=
  let idx := to_int (x * 999) in
  if (999 <=? idx)%Z then Some (vandeven_data order 999)
  else if (idx <? 0)%Z then None
  else let i := Z.to_nat idx in
       Some (vandeven_data order i + (x - IZR idx * (1 / 999)) * (vandeven_data order (S i) - vandeven_data order i) / (1 / 999)).
(** pf/util.go:127-129: the argument ApplyModalFilter passes to the filter. *)
Definition filter_argument (f : list R) : R := norm f * 2 / PI.

(** ** Spectral viscosity *)
(** pf/spectralViscosity.go:31-40, interpolant. *)
Definition interpolant (f peakPosition : R) : R :=
  if Rlt_dec f (1 / 3 * peakPosition) then 0
  else if Rlt_dec peakPosition f then 1
  else let x := 3 / 2 * (f - 1 / 3 * peakPosition) / peakPosition in 2 * x * x - 3 * x * x * x.
(** pf/spectralViscosity.go:44-53, Construct for one frequency. *)
Definition viscosity (eps threshold : R) (power : nat) (f : list R) : C :=
  RtoC (- eps * interpolant (norm f) threshold * norm f ^ power).

(** ** Volume conserving multiplier *)
(** pf/volumeConserving.go:8-16, the mutable part of VolumeConservingLP. *)
Record multiplier := { lp_value : R; lp_integral : R; lp_first : bool }.
(** pf/volumeConserving.go:53-61, NewVolumeConservingLP. *)
Definition new_multiplier : multiplier := {| lp_value := 0; lp_integral := 0; lp_first := true |}.
(** pf/volumeConserving.go:19-28, Construct; the indicator is derived field
    number [ind]. *)
Definition lp_term (v : multiplier) (ind : nat) : term :=
  fun e _ tmp => map (fun i => Cmul (nth i (nth ind (e_derived e) []) C0) (RtoC (lp_value v))) (seq 0 (length tmp)).
(** pf/volumeConserving.go:31-50, OnStepFinished; the field is field [fld]. *)
Definition lp_finished (dt : R) (nnodes fld ind : nat) (e : env) (v : multiplier) : multiplier :=
  let field_integral := rsum nnodes (fun i => Re (nth i (nth fld (e_fields e) []) C0)) in
  let indicator_integral := Re (nth 0 (nth ind (e_derived e) []) C0) in
  if lp_first v then {| lp_value := lp_value v; lp_integral := field_integral; lp_first := false |}
  else {| lp_value := lp_value v - (field_integral - lp_integral v) / (dt * indicator_integral);
          lp_integral := field_integral; lp_first := false |}.
(** One step of pf/solver.go:70-84 with the Euler stepper for one field whose
    right-hand side is the terms [rest] plus the multiplier term, the implicit
    terms [den], and one derived field, the indicator [calc]. *)
Definition lp_pde (calc : env -> data) (rest den : list term) (v : multiplier) : pde :=
  {| p_calc := [calc]; p_eqns := [{| q_terms := rest ++ [lp_term v 0]; q_denum := den; q_sources := [] |}]; p_mods := [] |}.
Definition lp_step (calc : env -> data) (rest den : list term) (ft : transform) (dt t : R) (nnodes : nat) (st : env * multiplier) : option (env * multiplier) :=
  let '(e, v) := st in
  match euler_step (lp_pde calc rest den v) ft None dt t e with
  | None => None
  | Some e' => Some (e', lp_finished dt nnodes 0 0 e' v)
  end.
Fixpoint lp_run (calc : env -> data) (rest den : list term) (ft : transform) (dt : R) (nnodes step n : nat) (st : env * multiplier) : option (env * multiplier) :=
  match n with
  | O => Some st
  | S n' => match lp_step calc rest den ft dt (time_of dt step) nnodes st with
            | None => None
            | Some st' => lp_run calc rest den ft dt nnodes (S step) n' st'
            end
  end.
