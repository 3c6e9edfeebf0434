(** Model of the shrinking dimer stepper and of the implicit Euler stepper.
    Exact arithmetic; slices written in place become results.  The SDD monitor
    and its log are in TrackModel.v. *)
From Verif Require Export CVec StepModel.
Open Scope R_scope.

(** pf/sdd.go:83-119, the fields of SDD that Step uses, with TimeConstants
    flattened.  [s_orient] is the flat orientation vector. *)
Record sdd := {
  s_dt : R; s_tau_orient : R; s_tau_dimer : R; s_alpha : R;
  s_step : nat; s_min_len : R; s_init_len : R;
  s_orient : list R; s_ready : bool
}.

(** pf/sdd.go:122-130, NewSDD for [size] = NumNodes * number of fields; Dt is
    the attribute set by the user afterwards. *)
Definition new_sdd (size : nat) (dt : R) : sdd :=
  {| s_dt := dt; s_tau_orient := 1; s_tau_dimer := 1; s_alpha := / 2; s_step := 0;
     s_min_len := 0; s_init_len := 0; s_orient := repeat 0 size; s_ready := false |}.

(** pfutil/sliceOperations.go:52-58, Dot. *)
Fixpoint rdot (a b : list R) : R :=
  match a, b with x :: a', y :: b' => x * y + rdot a' b' | _, _ => 0 end.

(** pf/sdd.go:412-426, SetInitialOrientation; [None] is the panic. *)
Definition set_initial_orientation (s : sdd) (orient : list R) : option sdd :=
  if Nat.eqb (length orient) (length (s_orient s)) then
    let len := sqrt (rdot orient orient) in
    Some {| s_dt := s_dt s; s_tau_orient := s_tau_orient s; s_tau_dimer := s_tau_dimer s;
            s_alpha := s_alpha s; s_step := s_step s; s_min_len := s_min_len s;
            s_init_len := len; s_orient := map (fun x => x / len) orient; s_ready := true |}
  else None.

(** pf/sdd.go:389-407, Init: the orientation is final - init.  The code writes
    into the existing orientation.  [None] is the panic for a final state with
    fewer values; states with other numbers of values than the orientation or
    with more values in the final state are not modelled ([None] as well). *)
Definition field_diff (init final : list data) : list R :=
  concat (map2 (map2 (fun a b => Re (Csub b a))) init final).
Definition sdd_init (s : sdd) (init final : list data) : option sdd :=
  if list_eq_dec Nat.eq_dec (map (@length C) init) (map (@length C) final)
  then set_initial_orientation s (field_diff init final) else None.

(** pf/sdd.go:358-360, GetTime. *)
Definition sdd_time (s : sdd) : R := INR (s_step s) * s_dt s.

(** pf/sdd.go:363-369, DimerLength. *)
Definition dimer_length (s : sdd) (t : R) : R :=
  let l := s_init_len s * exp (- t / s_tau_dimer s) in
  if Rlt_dec l (s_min_len s) then s_min_len s else l.

(** pf/sdd.go:372-374, RequiredDimerLengthTime. *)
Definition required_dimer_length_time (s : sdd) (l : R) : R := s_tau_dimer s * ln (s_init_len s / l).

(** pf/sdd.go:347-355, ShiftFieldsAlongDimer: outerIdx runs through the
    orientation while the fields are visited one after the other. *)
Fixpoint shift_data (scale : R) (o : list R) (d : data) : data :=
  match d, o with
  | z :: d', x :: o' => Cadd z (RtoC (scale * x)) :: shift_data scale o' d'
  | _, _ => d
  end.
Fixpoint shift_fields (scale : R) (o : list R) (fs : list data) : list data :=
  match fs with
  | [] => []
  | d :: fs' => shift_data scale o d :: shift_fields scale (skipn (length d) o) fs'
  end.

(** pf/sdd.go:140-156, fft and ifft on a model. *)
Definition model_fft (p : pde) (ft : transform) (e : env) : env :=
  let e1 := sync p e in
  {| e_fields := map (fft ft) (e_fields e1); e_derived := map (fft ft) (e_derived e1) |}.
Definition model_ifft (ft : transform) (e : env) : env :=
  {| e_fields := map (to_real ft) (e_fields e); e_derived := e_derived e |}.
Definition shift_model (scale : R) (o : list R) (e : env) : env :=
  {| e_fields := shift_fields scale o (e_fields e); e_derived := e_derived e |}.

(** Slicing a[i*n : (i+1)*n] of pf/sdd.go:174-176,216,269-271. *)
Definition chunk {A} (n i : nat) (a : list A) : list A := firstn n (skipn (i * n) a).
(** The loops of pf/sdd.go:174-176,269-271 over these slices. *)
Definition chunks {A} (n k : nat) (a : list A) : list (list A) := map (fun i => chunk n i a) (seq 0 k).

(** pf/sdd.go:303-308, extractRHS: the right-hand sides one after the other. *)
Fixpoint extract (get : nat -> option data) (todo i : nat) : option data :=
  match todo with
  | O => Some []
  | S todo' => match get i, extract get todo' (S i) with
               | Some r, Some rs => Some (r ++ rs)
               | _, _ => None
               end
  end.
Definition extract_rhs (p : pde) (e : env) (t : R) (n k : nat) : option data :=
  extract (fun i => get_rhs p e i t n) k 0.
(** pf/sdd.go:246-252: the implicit parts of all fields, one after the other. *)
Definition extract_denum (p : pde) (e : env) (t : R) (n k : nat) : option data :=
  extract (fun i => get_denum p e i t n) k 0.

(** pf/sdd.go:313-324, householder. *)
Definition householder (d fto : data) (sigma : R) (n : nat) : data :=
  let dot := Cdiv (Csum (map2 (fun z o => Cmul z (Cconj o)) d fto)) (RtoC (INR n)) in
  map2 (fun z o => Csub z (Cmul (Cmul (RtoC sigma) o) dot)) d fto.

(** pf/sdd.go:441-454, type diagonalShermannMorrison. *)
Record dsm := { m_inv : data; m_u : data; m_v : data }.

(** pf/sdd.go:327-343, householderDenum. *)
Definition householder_denum (dt : R) (denum fto : data) (sigma : R) : dsm :=
  {| m_inv := map (fun a => Cdiv C1 (Csub C1 (Cmul (RtoC dt) a))) denum;
     m_u := fto;
     m_v := map2 (fun a o => Cdiv (Cmul (Cmul (Cmul (RtoC sigma) a) (RtoC dt)) (Cconj o)) (RtoC (INR (length denum)))) denum fto |}.

(** pf/sdd.go:457-470, dot. *)
Definition dsm_dot (m : dsm) (vec : data) : data :=
  let denum := Cadd C1 (Csum (map3 (fun u i v => Cmul (Cmul u i) v) (m_u m) (m_inv m) (m_v m))) in
  let vdv := Csum (map3 (fun v i x => Cmul (Cmul v i) x) (m_v m) (m_inv m) vec) in
  map3 (fun i u x => Csub (Cmul i x) (Cdiv (Cmul (Cmul i u) vdv) denum)) (m_inv m) (m_u m) vec.

(** pf/sdd.go:200-232: the loop over the fields.  The force is read from
    rhsStart[j], rhsEnd[j] with j below the node count, for every field. *)
Definition sdd_force (alpha : R) (n i : nat) (rs re : data) : data :=
  map2 (fun a b => Cadd (Cmul (RtoC alpha) a) (Cmul (RtoC (1 - alpha)) b)) (firstn n rs) (firstn n re).
Fixpoint sdd_fields (p : pde) (s : sdd) (n : nat) (fto rs re : data) (todo i : nat) (e : env) : option env :=
  match todo with
  | O => Some e
  | S todo' =>
      match nth_error (e_fields e) i with
      | None => None
      | Some d =>
          let work := householder (sdd_force (s_alpha s) n i rs re) (chunk n i fto) 2 n in
          let d1 := map2 (fun z w => Cadd z (Cmul (RtoC (s_dt s)) w)) d work in
          match get_denum p (set_field e i d1) i (sdd_time s) n with
          | None => None
          | Some a =>
              let d2 := dsm_dot (householder_denum (s_dt s) a (chunk n i fto) 2) d1 in
              sdd_fields p s n fto rs re todo' (S i) (set_field e i d2)
          end
      end
  end.

(** pf/sdd.go:175-192: the forces at both ends and the way back to the centre. *)
Definition at_start (p : pde) (ft : transform) (l : R) (o : list R) (e : env) : env :=
  model_fft p ft (shift_model (- 0.5 * l) o e).
Definition at_end (p : pde) (ft : transform) (l : R) (o : list R) (e : env) : env :=
  model_fft p ft (shift_model l o (model_ifft ft (at_start p ft l o e))).
Definition at_centre (p : pde) (ft : transform) (l : R) (o : list R) (e : env) : env :=
  model_fft p ft (shift_model (- 0.5 * l) o (model_ifft ft (at_end p ft l o e))).

(** pf/sdd.go:165-172: Fourier transform of the orientation, field by field. *)
Definition ft_orientation (ft : transform) (n k : nat) (o : list R) : data :=
  concat (map (fft ft) (chunks n k (map RtoC o))).

(** pf/sdd.go:238-271: the torque on the dimer in real space. *)
Definition sdd_torque (ft : transform) (n k : nat) (l : R) (fto rs re denums : data) : data :=
  let torque := map3 (fun t a o => Csub t (Cmul (Cmul a o) (RtoC l))) (map2 Csub rs re) denums fto in
  let torque := householder torque fto 1 n in
  div_real (concat (map (ifft ft) (chunks n k torque))) (INR n).

(** pf/sdd.go:284-296: the orientation follows the torque and is normalised. *)
Definition turn (s : sdd) (torque : data) : list R :=
  let o := map2 (fun x t => x - s_dt s * Re t / (dimer_length s (sdd_time s) * s_tau_orient s)) (s_orient s) torque in
  let len := sqrt (rdot o o) in
  map (fun x => x / len) o.

(** pf/sdd.go:159-301, Step.  [None]: one of the panics (not initialised, time
    step not set, no fields, missing equation). *)
Definition sdd_step (p : pde) (ft : transform) (s : sdd) (e : env) : option (sdd * env) :=
  if negb (s_ready s) then None
  else if Rlt_dec (s_dt s) (/ 10 ^ 16) then None
  else match e_fields e with
  | [] => None
  | f0 :: _ =>
      let n := length f0 in
      let k := length (e_fields e) in
      let t := sdd_time s in
      let l := dimer_length s t in
      let fto := ft_orientation ft n k (s_orient s) in
      match extract_rhs p (at_start p ft l (s_orient s) e) t n k, extract_rhs p (at_end p ft l (s_orient s) e) t n k with
      | Some rs, Some re =>
          match sdd_fields p s n fto rs re k 0 (at_centre p ft l (s_orient s) e) with
          | None => None
          | Some e1 =>
              match extract_denum p e1 t n k with
              | None => None
              | Some denums =>
                  Some ({| s_dt := s_dt s; s_tau_orient := s_tau_orient s; s_tau_dimer := s_tau_dimer s;
                           s_alpha := s_alpha s; s_step := S (s_step s); s_min_len := s_min_len s;
                           s_init_len := s_init_len s;
                           s_orient := turn s (sdd_torque ft n k l fto rs re denums); s_ready := true |},
                        model_ifft ft e1)
              end
          end
      | _, _ => None
      end
  end.

(** pf/solver.go:70-83, Propagate with the SDD stepper; OnStepFinished of registered terms is left out. *)
Fixpoint sdd_run (p : pde) (ft : transform) (steps : nat) (s : sdd) (e : env) : option (sdd * env) :=
  match steps with
  | O => Some (s, e)
  | S k => match sdd_step p ft s e with None => None | Some (s', e') => sdd_run p ft k s' e' end
  end.

(** ** Implicit Euler *)

(** pf/implicitEuler.go:46-56, fields2vec and fieldData2vec. *)
Definition fields2vec (fs : list data) : list R := concat (map (map Re) fs).
(** pf/implicitEuler.go:58-66, vec2fields: only the lengths of the old fields
    are used. *)
Fixpoint vec2fields (vec : list R) (fs : list data) : list data :=
  match fs with
  | [] => []
  | d :: fs' => map RtoC (firstn (length d) vec) :: vec2fields (skipn (length d) vec) fs'
  end.

(** cmplx.Abs of pf/sdd.go:227,381 and pf/implicitEuler.go:158. *)
Definition Cabs (z : C) : R := sqrt (Cnorm2 z).

(** pf/implicitEuler.go:151-162, nonlinearIntegral. *)
Definition nonlinear_integral (dt : R) (denum rhs prev : C) : C :=
  let cdt := RtoC dt in
  let b := Cdiv (Csub rhs prev) cdt in
  let f := Cexp (Cmul denum cdt) in
  if Rlt_dec (Cabs denum) (/ 10 ^ 5) then Cmul (Cmul (RtoC (/ 2)) cdt) (Cadd rhs (Cmul prev f))
  else Cadd (Cdiv (Cmul prev (Csub f C1)) denum)
            (Cdiv (Cmul b (Csub (Csub f (Cmul denum cdt)) C1)) (Cmul denum denum)).

(** pf/implicitEuler.go:80-85: the value the new amplitude is compared to. *)
Definition ie_update (dt : R) (orig denum rhs prev : C) : C :=
  Cadd (Cmul orig (Cexp (Cmul denum (RtoC dt)))) (nonlinear_integral dt denum rhs prev).

(** Auxiliary for loops over four slices. *)
Fixpoint map4 {A B D E F} (f : A -> B -> D -> E -> F) (a : list A) (b : list B) (d : list D) (e : list E) : list F :=
  match a, b, d, e with
  | x :: a', y :: b', z :: d', w :: e' => f x y z w :: map4 f a' b' d' e'
  | _, _, _, _ => []
  end.

(** pf/implicitEuler.go:75-93: the residual of the fields from number [i] on;
    [orig] and [prev] hold the starting amplitudes and right-hand sides of
    those fields. *)
Fixpoint residuals (p : pde) (ft : transform) (dt t : R) (e : env) (i : nat) (cur orig prev : list data) : option (list R) :=
  match cur, orig, prev with
  | [], [], [] => Some []
  | d :: cur', o :: orig', r0 :: prev' =>
      match get_rhs p e i t (length d), get_denum p e i t (length d), residuals p ft dt t e (S i) cur' orig' prev' with
      | Some r, Some a, Some out =>
          let res := map2 Csub d (map4 (ie_update dt) o a r r0) in
          Some (map Re (div_real (ifft ft res) (INR (length d))) ++ out)
      | _, _, _ => None
      end
  | _, _, _ => None
  end.

(** pf/implicitEuler.go:68-94, updateEquation: the residual at [x].  The bricks
    of the model are [e]; their derived fields are recalculated from the new
    fields (SyncDerivedFields). *)
Definition update_equation (p : pde) (ft : transform) (dt t : R) (orig prev : list data) (e : env) (x : list R) : option (list R) :=
  let e1 := model_fft p ft {| e_fields := vec2fields x (e_fields e); e_derived := e_derived e |} in
  residuals p ft dt t e1 0 (e_fields e1) orig prev.

(** pf/implicitEuler.go:165-194, Step at time [t] up to the call of the solver:
    the function whose zero is looked for, the initial guess and the model at
    that point.  Derived fields are recalculated before they are read, so what
    the solver leaves in them is not kept. *)
Definition ie_problem (p : pde) (ft : transform) (filt : option (R -> R)) (dt t : R) (e : env)
  : option ((list R -> option (list R)) * list R * env) :=
  let e1 := model_fft p ft e in
  match rhs_all p e1 t 0 (e_fields e1) with
  | None => None
  | Some prev =>
      match euler_step p ft filt dt t (model_ifft ft e1) with
      | None => None
      | Some e2 => Some (update_equation p ft dt t (e_fields e1) prev e2, fields2vec (e_fields e2), e2)
      end
  end.

(** pf/implicitEuler.go:165-207, Step at time [t].  The Newton-Krylov solver
    (gononlin) is the parameter [solve]: it is given the residual function and
    the initial guess and returns res.X; whether it converged is only logged. *)
Definition ie_step (solve : (list R -> option (list R)) -> list R -> list R)
    (p : pde) (ft : transform) (filt : option (R -> R)) (dt t : R) (e : env) : option env :=
  match ie_problem p ft filt dt t e with
  | None => None
  | Some (F, x0, e2) => Some {| e_fields := vec2fields (solve F x0) (e_fields e2); e_derived := e_derived e2 |}
  end.
