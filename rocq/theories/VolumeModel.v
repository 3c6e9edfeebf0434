(** Model of the volume conserving multiplier in a model with any number of
    fields (pf/volumeConserving.go; the functions themselves are in
    EnergyModel.v). *)
From Verif Require Export EnergyModel StepModel.
Open Scope R_scope.

(** pf/model.go:283-303: the terms of equation [i] with the multiplier term,
    which reads derived field [ind], as the last one; the other equations, the
    derived fields, the sources and the modifiers are those of [p]. *)
Fixpoint append_term (i : nat) (f : term) (qs : list eqn) : list eqn :=
  match qs, i with
  | [], _ => []
  | q :: qs', O => {| q_terms := q_terms q ++ [f]; q_denum := q_denum q; q_sources := q_sources q |} :: qs'
  | q :: qs', S i' => q :: append_term i' f qs'
  end.
Definition with_multiplier (p : pde) (i ind : nat) (v : multiplier) : pde :=
  {| p_calc := p_calc p; p_eqns := append_term i (lp_term v ind) (p_eqns p); p_mods := p_mods p |}.

(** pf/solver.go:70-84, one turn of the loop in Propagate: the step of the
    stepper, then OnStepFinished of the multiplier; [step] is [euler_step] or
    [rk4_step].  None: panic. *)
Definition vol_step (step : pde -> transform -> option (R -> R) -> R -> R -> env -> option env)
    (p : pde) (i ind : nat) (ft : transform) (dt t : R) (nnodes : nat) (st : env * multiplier) : option (env * multiplier) :=
  match step (with_multiplier p i ind (snd st)) ft None dt t (fst st) with
  | None => None
  | Some e' => Some (e', lp_finished dt nnodes i ind e' (snd st))
  end.

(** pf/solver.go:70-84, Propagate; [clock] gives the time of a step
    (pf/euler.go:50-52; under the solver the time of pf/rk4.go stands still). *)
Fixpoint vol_run (step : pde -> transform -> option (R -> R) -> R -> R -> env -> option env)
    (p : pde) (i ind : nat) (ft : transform) (dt : R) (clock : nat -> R) (nnodes k n : nat) (st : env * multiplier) : option (env * multiplier) :=
  match n with
  | O => Some st
  | S n' => match vol_step step p i ind ft dt (clock k) nnodes st with
            | None => None
            | Some st' => vol_run step p i ind ft dt clock nnodes (S k) n' st'
            end
  end.
