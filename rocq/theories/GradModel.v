(** Model of the terms that differentiate fields: GradientCalculator, DivGrad,
    WeightedLaplacian, Advection, SquaredGradient, ChargeTransport,
    TensorialHessian, Source and NegativeValuePenalty.  float64 and complex128
    are exact; the frequency function handed to a term is the Freq of the
    transform.  Index-out-of-range panics (component beyond the dimension,
    slices that are too short) are not modelled: reads beyond the end give 0. *)
From Verif Require Export Vec DftModel SpectralModel.
Open Scope R_scope.

(** What a brick shows: pf/model.go:12-19 (Brick.Get for all nodes). *)
Definition brick := env -> data.
Definition field_brick (i : nat) : brick := fun e => nth i (e_fields e) [].
Definition derived_brick (i : nat) : brick := fun e => nth i (e_derived e) [].

(** pf/gradientCalculator.go:23-26: the frequency used for differentiation. *)
Definition grad_freq (keep : bool) (f : R) : R :=
  if Rlt_dec (Rabs (f - 1 / 2)) (1 / 10000000000) then (if keep then f else 0) else f.

(** pf/gradientCalculator.go:22-28: multiplication of the amplitudes. *)
Definition grad_amplitudes (ft : transform) (comp : nat) (keep : bool) (X : data) : data :=
  mapi_from 0 (fun j z => Cmul z (0, 2 * PI * grad_freq keep (nth comp (tfreq ft j) 0))) X.

(** pf/gradientCalculator.go:19-31, Calculate: [indata] is copied, the result
    is what [data] holds afterwards. *)
Definition gradient (ft : transform) (comp : nat) (keep : bool) (x : data) : data :=
  to_real ft (grad_amplitudes ft comp keep (fft ft x)).

(** pf/gradientCalculator.go:36-47, ToDerivedField. *)
Definition gradient_calc (ft : transform) (comp : nat) (u : brick) : env -> data :=
  fun e => gradient ft comp false (u e).

(** pf/gradientCalculator.go:83-87: F(i, bricks) times the gradient. *)
Definition weighted_calc (F : nat -> env -> C) (g : brick) : env -> data :=
  fun e => mapi_from 0 (fun i z => Cmul (F i e) z) (g e).

(** pf/gradientCalculator.go:69-91, DivGrad.PrepareModel: the derived fields
    that are registered, when [base] derived fields exist before. *)
Fixpoint divgrad_calcs (ft : transform) (u : brick) (F : nat -> env -> C) (base d dim : nat) : list (env -> data) :=
  match dim with
  | O => []
  | S dim' => gradient_calc ft d u :: weighted_calc F (derived_brick base)
                :: divgrad_calcs ft u F (S (S base)) (S d) dim'
  end.

(** pf/gradientCalculator.go:94-106, DivGrad.Construct. *)
Definition divgrad_term (ft : transform) (base dim : nat) : term :=
  flux_term divgrad_mult ft dim (fun e _ d => derived_brick (base + 2 * d + 1) e).

(** pf/gradientCalculator.go:127-160, WeightedLaplacian.Construct. *)
Definition weighted_laplacian_term (ft : transform) (u F : brick) : term :=
  fun e _ _ =>
    let lap := to_real ft (mapi_from 0 (fun j z => lap_eval (tfreq ft j) 1 z) (u e)) in
    let work := to_real ft (F e) in
    fft ft (map2 Cmul lap work).

(** pf/advection.go:74-83: sum over the directions of velocity times gradient. *)
Fixpoint dot_calc (vs gs : list brick) (e : env) (data0 : data) : data :=
  match vs, gs with
  | v :: vs', g :: gs' => dot_calc vs' gs' e (map3 (fun z a b => Cadd z (Cmul a b)) data0 (v e) (g e))
  | _, _ => data0
  end.

(** pf/advection.go:50-85, Advection.PrepareModel: one gradient per direction,
    then the scalar product ([n] nodes). *)
Definition advection_calcs (ft : transform) (u : brick) (vs : list brick) (n base : nat) : list (env -> data) :=
  map (fun d => gradient_calc ft d u) (seq 0 (length vs)) ++
  [fun e => dot_calc vs (map derived_brick (seq base (length vs))) e (repeat C0 n)].

(** pf/advection.go:88-95, Advection.Construct. *)
Definition advection_term (base dim : nat) : term :=
  fun e _ _ => map Copp (derived_brick (base + dim) e).

(** pf/squareGradientTerm.go:38-65, SquaredGradient.Construct: here the brick
    holds amplitudes; cmplx.Pow(z, 2) is z * z. *)
Fixpoint sqgrad_from (ft : transform) (factor : R) (U : data) (d dim : nat) (field : data) : data :=
  match dim with
  | O => field
  | S dim' =>
      let work := map (fun z => Cmul z z) (to_real ft (grad_amplitudes ft d false U)) in
      sqgrad_from ft factor U (S d) dim' (map2 (fun a b => Cadd a (Cmul b (RtoC factor))) field (fft ft work))
  end.
Definition sqgrad_term (ft : transform) (factor : R) (dim : nat) (u : brick) : term :=
  fun e _ tmp => sqgrad_from ft factor (u e) 0 dim (repeat C0 (length tmp)).

(** pf/chargeTransport.go:151-171, voigtIndex. *)
Definition voigt_index (dim i j : nat) : nat :=
  match dim with
  | 2%nat => nth j (nth i [[0; 2]; [2; 1]]%nat []) 0%nat
  | _ => nth j (nth i [[0; 5; 4]; [5; 1; 3]; [4; 3; 2]]%nat []) 0%nat
  end.

(** pf/chargeTransport.go:65-79: minus the [d]-th component of the field. *)
Definition charge_field (ft : transform) (ext : list R) (rho : data) (d : nat) : data :=
  map (fun z => Csub z (RtoC (nth d ext 0)))
    (to_real ft (mapi_from 0 (fun i z =>
       let k := tfreq ft i in
       if Rlt_dec (1 / 10000000000) (Rabs (Rabs (nth d k 0) - 1 / 2))
       then Cmul z (0, nth d k 0 / (2 * PI * norm_sq k + 1 / 10000000000000000))
       else C0) rho)).

(** pf/chargeTransport.go:81-91: component [d2] of the (negative) current. *)
Definition charge_current (ft : transform) (ext : list R) (sigma : nat -> list R) (dim : nat) (rho : data) (d2 : nat) : data :=
  map (fun i => csum dim (fun d => Cmul (RtoC (nth (voigt_index dim d d2) (sigma i) 0)) (nth i (charge_field ft ext rho d) C0)))
      (seq 0 (length rho)).

(** pf/chargeTransport.go:95-119, ChargeTransport.Construct. *)
Definition charge_term (ft : transform) (ext : list R) (sigma : nat -> list R) (dim : nat) (rho : brick) : term :=
  flux_term charge_mult ft dim (fun e _ d2 => fft ft (charge_current ft ext sigma dim (rho e) d2)).

(** pf/chargeTransport.go:126-146, Current. *)
Definition current (ft : transform) (ext : list R) (sigma : nat -> list R) (dim : nat) (density : data) (realspace : bool) (d : nat) : list R :=
  map (fun z => - Re z) (charge_current ft ext sigma dim (if realspace then fft ft density else density) d).

(** pf/tensorialHessian.go:65-71, GetCoeff. *)
Definition hess_coeff (K : list R) (i j : nat) : R :=
  let d := if Nat.eqb (length K) 9 then 3%nat else 2%nat in nth (i * d + j) K 0.

(** pf/tensorialHessian.go:47-59: the value written at one node. *)
Definition hess_value (K : list R) (f : list R) : R :=
  rsum (length f) (fun j => - (4) * PI * PI * nth j f 0 * nth j f 0 * hess_coeff K j j) +
  rsum (length f) (fun j => rsum (length f) (fun k =>
    if Nat.ltb j k then - (8) * PI * PI * nth j f 0 * nth k f 0 * hess_coeff K j k else 0)).

(** pf/tensorialHessian.go:38-62, TensorialHessian.Construct. *)
Definition hessian_term (ft : transform) (K : list R) : term :=
  fun _ _ tmp => mapi_from 0 (fun i _ => RtoC (hess_value K (tfreq ft i))) tmp.

(** pfutil/sliceOperations.go:52-58, Dot. *)
Fixpoint rdot (a b : list R) : R :=
  match a, b with x :: a', y :: b' => x * y + rdot a' b' | _, _ => 0 end.

(** pf/sourceTerm.go:25-30, Source.Eval. *)
Definition source_eval (ft : transform) (pos : list R) (f : R -> R) : source :=
  fun t tmp => mapi_from 0 (fun i _ => Cmul (RtoC (f t)) (Cexp (Copp (0, 2 * PI * rdot (tfreq ft i) pos)))) tmp.

(** pf/negative_value_penalty.go:15-21, Penalty; math.Pow with the integer
    exponent p-1 >= 0. *)
Definition penalty (prefactor : R) (expo : nat) (x : R) : R :=
  if Rlt_dec 0 x then 0 else - (2) * prefactor * INR expo * x ^ (expo - 1).

(** pf/rhsBuilder.go:152-190, the functions returned by ConcreteTerm: sign and
    scalar bricks multiply to the real number [c] (pf/model.go:91-96: a scalar
    shows the same value at every node), [u] is the field, [k] the power of the
    Laplacian (0: none).  Without a field the value is the coefficient alone. *)
Definition brick_term (ft : transform) (c : R) (k : nat) (u : brick) : term :=
  fun e _ _ => mapi_from 0 (fun j z => lap_eval (tfreq ft j) k (Cmul (RtoC c) z)) (u e).
Definition coeff_term (ft : transform) (c : R) (k : nat) : term :=
  fun _ _ tmp => mapi_from 0 (fun j _ => lap_eval (tfreq ft j) k (RtoC c)) tmp.
