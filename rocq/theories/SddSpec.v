(** Vocabulary for the statements about the dimer and implicit Euler steppers. *)
From Verif Require Export SddModel StepSpec DftSpec.
Open Scope R_scope.

Definition unit_vector (o : list R) : Prop := rsum (length o) (fun i => nth i o 0 * nth i o 0) = 1.

(** x solves (D + u v^T) x = b. *)
Definition solves_rank_one (n : nat) (D u v x b : data) : Prop :=
  forall i, (i < n)%nat ->
  Cadd (Cmul (nth i D C0) (nth i x C0)) (Cmul (nth i u C0) (csum n (fun j => Cmul (nth j v C0) (nth j x C0)))) = nth i b C0.

(** (I - 2 v v^T) x for amplitudes x and the amplitudes [o] of the orientation
    (normalised so that the sum of |o|^2 is n). *)
Definition reflect (n : nat) (o : data) (x : nat -> C) (i : nat) : C :=
  Csub (x i) (Cmul (RtoC 2) (Cmul (nth i o C0) (Cdiv (csum n (fun j => Cmul (x j) (Cconj (nth j o C0)))) (RtoC (INR n))))).

(** The semi-implicit dimer equation for one field:
    y' - dt (I - 2 v v^T) a y' = y + dt (I - 2 v v^T) force. *)
Definition dimer_equation (n : nat) (dt : R) (o a force y y' : data) : Prop :=
  forall i, (i < n)%nat ->
  Csub (nth i y' C0) (Cmul (RtoC dt) (reflect n o (fun j => Cmul (nth j a C0) (nth j y' C0)) i))
  = Cadd (nth i y C0) (Cmul (RtoC dt) (reflect n o (fun j => nth j force C0) i)).

(** alpha F(start) + (1 - alpha) F(end) *)
Definition weighted (alpha : R) (fs fe : data) : data :=
  map2 (fun a b => Cadd (Cmul (RtoC alpha) a) (Cmul (RtoC (1 - alpha)) b)) fs fe.

(** The linear problem of a field has a unique solution. *)
Definition regular_step (n : nat) (dt : R) (o a : data) : Prop :=
  (forall i, (i < n)%nat -> Csub C1 (Cmul (RtoC dt) (nth i a C0)) <> C0) /\
  Cadd C1 (csum n (fun j => Cdiv (Cmul (RtoC (2 * dt / INR n)) (Cmul (nth j a C0) (Cmul (nth j o C0) (Cconj (nth j o C0)))))
                                 (Csub C1 (Cmul (RtoC dt) (nth j a C0))))) <> C0.

(** What every state of a running dimer satisfies. *)
Record dimer_ready (n k : nat) (s : sdd) (e : env) : Prop := {
  dr_pos : (0 < n)%nat;
  dr_fields : length (e_fields e) = k;
  dr_length : all_length n (e_fields e);
  dr_orient : length (s_orient s) = (k * n)%nat;
  dr_unit : unit_vector (s_orient s);
  dr_len : 0 < s_init_len s;
  dr_tau : s_tau_orient s <> 0
}.

(** A complex-valued function of time has derivative [d] at [t]. *)
Definition Cderiv (y : R -> C) (t : R) (d : C) : Prop :=
  derivable_pt_lim (fun s => Re (y s)) t (Re d) /\ derivable_pt_lim (fun s => Im (y s)) t (Im d).

(** y solves y' = a y + prev + (rhs - prev) t / dt, y(0) = y0: the implicit part
    is treated exactly, the explicit part is interpolated linearly over the step. *)
Definition linear_ode (dt : R) (a prev rhs y0 : C) (y : R -> C) : Prop :=
  y 0 = y0 /\
  forall t, Cderiv y t (Cadd (Cmul a (y t)) (Cadd prev (Cmul (RtoC (t / dt)) (Csub rhs prev)))).

(** Field [i] moves by the reflected weighted force of its own equation. *)
Definition follows_own_force (n : nat) (p : pde) (ft : transform) (s : sdd) (e e' : env) (i : nat) : Prop :=
  forall fs fe a y y',
  get_rhs p (at_start p ft (dimer_length s (sdd_time s)) (s_orient s) e) i (sdd_time s) n = Some fs ->
  get_rhs p (at_end p ft (dimer_length s (sdd_time s)) (s_orient s) e) i (sdd_time s) n = Some fe ->
  get_denum p (at_centre p ft (dimer_length s (sdd_time s)) (s_orient s) e) i (sdd_time s) n = Some a ->
  nth_error (e_fields e) i = Some y -> nth_error (e_fields e') i = Some y' ->
  regular_step n (s_dt s) (fft ft (chunk n i (map RtoC (s_orient s)))) a ->
  dimer_equation n (s_dt s) (fft ft (chunk n i (map RtoC (s_orient s)))) a (weighted (s_alpha s) fs fe) (fft ft y) (fft ft y').

(** The equation solved by a step of the implicit Euler stepper: at every node
    the new field is the real part of the exponential update of the old one. *)
Definition exponential_step (n : nat) (p : pde) (ft : transform) (dt t : R) (orig prev : list data) (e1 : env) (fs : list data) : Prop :=
  forall i d o r0 r a, nth_error fs i = Some d -> nth_error orig i = Some o -> nth_error prev i = Some r0 ->
  get_rhs p e1 i t n = Some r -> get_denum p e1 i t n = Some a ->
  forall j, (j < n)%nat -> nth j d C0 = RtoC (Re (nth j (to_real ft (map4 (ie_update dt) o a r r0)) C0)).

(** The solver returns a zero of the function. *)
Definition finds_zero (solve : (list R -> option (list R)) -> list R -> list R) (F : list R -> option (list R)) (x0 : list R) : Prop :=
  length (solve F x0) = length x0 /\ forall out, F (solve F x0) = Some out -> Forall (fun r => r = 0) out.
