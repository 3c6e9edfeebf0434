(** Model of the effective correlation function of two phases. *)
From Verif Require Export EnergyModel.
Open Scope R_scope.

(** pfc/twoPhaseCorrFunc.go:9-16, Indicator. *)
Definition indicator (x : R) : R :=
  if Rlt_dec x 0 then 0 else if Rlt_dec 1 x then 1 else 3 * x * x - 2 * x * x * x.
(** pfc/twoPhaseCorrFunc.go:18-23, IndicatorDeriv. *)
Definition indicator_deriv (x : R) : R :=
  if Rlt_dec x 0 then 0 else if Rlt_dec 1 x then 0 else 6 * x - 6 * x * x.

(** pfc/twoPhaseCorrFunc.go:29-35, Dot; panics when y is shorter. *)
Fixpoint dot_loop (x y : list R) (res : R) : option R :=
  match x, y with
  | [], _ => Some res
  | a :: x', b :: y' => dot_loop x' y' (res + a * b)
  | _ :: _, [] => None
  end.
Definition dot (x y : list R) : option R := dot_loop x y 0.
Definition dot_or_zero (x y : list R) : R := match dot x y with Some r => r | None => 0 end.

(** pfc/pairCorrelation.go, ReciprocalSpacePairCorrelation: EffTemp and Peaks. *)
Record corr_func := { cf_temp : R; cf_peaks : list peak }.
(** pfc/twoPhaseCorrFunc.go:43-51: the correlation function at all
    frequencies of [n] nodes. *)
Definition corr_spectrum (ft : transform) (n : nat) (c : corr_func) : data :=
  map (fun i => RtoC (pair_eval (cf_temp c) (cf_peaks c) (2 * PI * sqrt (dot_or_zero (tfreq ft i) (tfreq ft i))))) (seq 0 n).
(** pfc/twoPhaseCorrFunc.go:37-69, Evaluate: the returned slice and what the
    argument [cft] holds afterwards (IFFT and DivRealScalar work in place).
    corrFunc1, corrFunc1FT and C_eff are one slice; the last loop reads entry i
    before it writes entry i. *)
Definition two_phase_evaluate (ft : transform) (cfs : list corr_func) (cft : data) : option (data * data) :=
  match cfs with
  | [f1; f2] =>
      let n := length cft in
      let r1 := to_real ft (corr_spectrum ft n f1) in
      let r2 := to_real ft (corr_spectrum ft n f2) in
      let conc := to_real ft cft in
      Some (map (fun i => let x := Re (nth i conc C0) in
                          Cadd (Cmul (indicator x, 0) (nth i r1 C0)) (Cmul (1 - indicator x, 0) (nth i r2 C0))) (seq 0 n), conc)
  | _ => None
  end.
(** pfc/twoPhaseCorrFunc.go:71-75, EvaluateFT. *)
Definition two_phase_evaluate_ft (ft : transform) (cfs : list corr_func) (cft : data) : option (data * data) :=
  match two_phase_evaluate ft cfs cft with Some (c, arg) => Some (fft ft c, arg) | None => None end.
