(** Model of runs with ImplicitEuler as time stepper (pf/implicitEuler.go and
    Propagate in pf/solver.go).  One step is modelled in SddModel.v. *)
From Verif Require Export SddModel.
Open Scope R_scope.

(** pf/implicitEuler.go:97-99, GetTime with CurrentStep = [step]. *)
Definition ie_time (dt : R) (step : nat) : R := dt * INR step.

(** pf/solver.go:70-74, Propagate with ImplicitEuler; CurrentStep is
    incremented at the end of each step (pf/implicitEuler.go:206).  [solve] is
    the Newton-Krylov solver (see [ie_step]).  None: panic. *)
Fixpoint ie_propagate (solve : (list R -> option (list R)) -> list R -> list R)
    (p : pde) (ft : transform) (filt : option (R -> R)) (dt : R) (nsteps step : nat) (e : env) : option (env * nat) :=
  match nsteps with
  | O => Some (e, step)
  | S k => match ie_step solve p ft filt dt (ie_time dt step) e with
           | None => None
           | Some e' => ie_propagate solve p ft filt dt k (S step) e'
           end
  end.
