(** Model of the clocks of the steppers in IEEE 754 binary64 arithmetic. *)
From Verif Require Export PixelModel.
Open Scope Z_scope.

(** float64(n) of an int: rounded to nearest even.
    float64(eu.CurrentStep) in pf/euler.go:51. *)
Definition float_of_int (n : Z) : f64 := f_of n 0.
(** pf/euler.go:50-52, pf/rk4.go:143-145, pf/sdd.go:358-360: GetTime after
    [step] steps. *)
Definition clock (dt : f64) (step : Z) : f64 := fmul (float_of_int step) dt.
(** pf/implicitEuler.go:97-99: GetTime of ImplicitEuler, with the factors
    exchanged. *)
Definition ie_clock (dt : f64) (step : Z) : f64 := fmul dt (float_of_int step).
