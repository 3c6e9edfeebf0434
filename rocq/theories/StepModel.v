(** Model of the right-hand side evaluation and the time steppers.
    float64/complex128 arithmetic is exact (R, C); in-place updates of a slice
    become functions returning the new content; [None] is a run-time panic
    (index out of range). *)
From Verif Require Export SpectralModel.

Notation data := (list C).

(** What the bricks of a model show at some moment: the fields in the order of
    m.Fields and the derived fields in the order of m.DerivedFields.
    m.Fields and m.DerivedFields (pf/model.go:117-118), the data only. *)
Record env := { e_fields : list data; e_derived : list data }.

(** pf/rhsBuilder.go:14-16, type Term: a function writing into the slice [tmp]
    it is given; it may read the bricks, the time and the old content.  The
    frequency argument is fixed (the transform's Freq), so it is part of the
    function. *)
Definition term := env -> R -> data -> data.

(** pf/sourceTerm.go:24-29, Source.Eval, seen as a function of time. *)
Definition source := R -> data -> data.

(** pf/rhsBuilder.go:18-22 (RHS) together with AllSources of the equation. *)
Record eqn := { q_terms : list term; q_denum : list term; q_sources : list source }.

(** The part of pf/model.go:110-121 (Model) used when stepping.  A derived
    field is its Calc function, which may read all bricks. *)
Record pde := {
  p_calc : list (env -> data);
  p_eqns : list eqn;
  p_mods : list (nat * (data -> data))
}.

(** pf/model.go:473-478, RegisterRHSModifier. *)
Definition register_modifier (p : pde) (eq : nat) (m : data -> data) : pde :=
  {| p_calc := p_calc p; p_eqns := p_eqns p; p_mods := p_mods p ++ [(eq, m)] |}.

(** pfutil/sliceOperations.go:20-24, ElemwiseAdd.  A shorter second slice
    panics in the code; both always have the node count here. *)
Fixpoint vadd (dst src : data) : data :=
  match dst, src with
  | d :: dst', s :: src' => Cadd d s :: vadd dst' src'
  | _, _ => dst
  end.

(** pf/model.go:286-289 and 309-312: evaluate into tmp, add tmp to data. *)
Definition add_term (e : env) (t : R) (st : data * data) (f : term) : data * data :=
  let tmp := f e t (snd st) in (vadd (fst st) tmp, tmp).
Definition add_source (t : R) (st : data * data) (s : source) : data * data :=
  let tmp := s t (snd st) in (vadd (fst st) tmp, tmp).

(** pf/model.go:297-301. *)
Definition apply_mods (mods : list (nat * (data -> data))) (i : nat) (d : data) : data :=
  fold_left (fun d m => if Nat.eqb (fst m) i then snd m d else d) mods d.

(** pf/model.go:283-303, GetRHS; [n] is len(m.Fields[fieldNo].Data). *)
Definition get_rhs (p : pde) (e : env) (i : nat) (t : R) (n : nat) : option data :=
  match nth_error (p_eqns p) i with
  | None => None
  | Some q =>
      let st0 := (repeat C0 n, repeat C0 n) in
      let st1 := fold_left (add_term e t) (q_terms q) st0 in
      let st2 := fold_left (add_source t) (q_sources q) st1 in
      Some (apply_mods (p_mods p) i (fst st2))
  end.

(** pf/model.go:306-314, GetDenum. *)
Definition get_denum (p : pde) (e : env) (i : nat) (t : R) (n : nat) : option data :=
  match nth_error (p_eqns p) i with
  | None => None
  | Some q => Some (fst (fold_left (add_term e t) (q_denum q) (repeat C0 n, repeat C0 n)))
  end.

(** Assignment to an element of a slice, auxiliary. *)
Fixpoint set_nth {A} (i : nat) (x : A) (l : list A) : list A :=
  match l, i with
  | [], _ => []
  | _ :: l', O => x :: l'
  | y :: l', S i' => y :: set_nth i' x l'
  end.

(** Assignment to the data of m.Fields[i] (pf/model.go:117). *)
Definition set_field (e : env) (i : nat) (d : data) : env :=
  {| e_fields := set_nth i d (e_fields e); e_derived := e_derived e |}.
(** Assignment to the data of m.DerivedFields[i] (pf/model.go:118). *)
Definition set_derived (e : env) (i : nat) (d : data) : env :=
  {| e_fields := e_fields e; e_derived := set_nth i d (e_derived e) |}.

(** pf/model.go:237-241, SyncDerivedFields: the derived fields are recalculated
    one after the other, each seeing the ones before it already updated. *)
Fixpoint sync_from (i : nat) (calcs : list (env -> data)) (e : env) : env :=
  match calcs with
  | [] => e
  | c :: calcs' => sync_from (S i) calcs' (set_derived e i (c e))
  end.
Definition sync (p : pde) (e : env) : env := sync_from 0 (p_calc p) e.

(** pf/solver.go:26-30, FourierTransform. *)
Record transform := { fft : data -> data; ifft : data -> data; tfreq : nat -> list R }.

(** pfutil/sliceOperations.go:34-40, DivRealScalar. *)
Definition div_real (d : data) (x : R) : data := map (fun z => Cdiv z (RtoC x)) d.

(** Inverse transform and normalisation, e.g. pf/euler.go:42-45. *)
Definition to_real (ft : transform) (d : data) : data := div_real (ifft ft d) (INR (length d)).

(** Auxiliary for loops over a slice with the index. *)
Fixpoint mapi_from {A B} (i : nat) (f : nat -> A -> B) (l : list A) : list B :=
  match l with [] => [] | x :: l' => f i x :: mapi_from (S i) f l' end.

(** pf/util.go:125-132, ApplyModalFilter; nil filters are [None]. *)
Definition apply_filter (filt : option (R -> R)) (ft : transform) (d : data) : data :=
  match filt with
  | None => d
  | Some g => mapi_from 0 (fun j z => Cmul z (RtoC (g (sqrt (norm_sq (tfreq ft j)) * 2 / PI)))) d
  end.

(** Auxiliary for loops over three slices. *)
Fixpoint map3 {A B D E} (f : A -> B -> D -> E) (a : list A) (b : list B) (d : list D) : list E :=
  match a, b, d with
  | x :: a', y :: b', z :: d' => f x y z :: map3 f a' b' d'
  | _, _, _ => []
  end.

(** pf/euler.go:34 and pf/rk4.go:105-109: (y + h k) / (1 - h a) at a node. *)
Definition semi_implicit (h : R) (y k a : C) : C :=
  Cdiv (Cadd y (Cmul (RtoC h) k)) (Csub C1 (Cmul (RtoC h) a)).

(** pf/euler.go:29-40: the loop over the fields; a field is overwritten before
    the right-hand sides of the later ones are evaluated. *)
Fixpoint euler_fields (p : pde) (ft : transform) (filt : option (R -> R)) (dt t : R) (todo i : nat) (e : env) : option env :=
  match todo with
  | O => Some e
  | S todo' =>
      match nth_error (e_fields e) i with
      | None => None
      | Some d =>
          match get_rhs p e i t (length d), get_denum p e i t (length d) with
          | Some r, Some a =>
              euler_fields p ft filt dt t todo' (S i)
                (set_field e i (apply_filter filt ft (map3 (semi_implicit dt) d r a)))
          | _, _ => None
          end
      end
  end.

(** pf/euler.go:16-47, Euler.Step at time [t]. *)
Definition euler_step (p : pde) (ft : transform) (filt : option (R -> R)) (dt t : R) (e : env) : option env :=
  let e1 := sync p e in
  let e2 := {| e_fields := map (fft ft) (e_fields e1); e_derived := map (fft ft) (e_derived e1) |} in
  match euler_fields p ft filt dt t (length (e_fields e)) 0 e2 with
  | None => None
  | Some e3 => Some {| e_fields := map (to_real ft) (e_fields e3); e_derived := e_derived e3 |}
  end.

(** pf/euler.go:50-52 and pf/rk4.go GetTime. *)
Definition time_of (dt : R) (step : nat) : R := INR step * dt.

(** pf/euler.go:55-59, Euler.Propagate; CurrentStep is incremented by Step
    (euler.go:46). *)
Fixpoint euler_propagate (p : pde) (ft : transform) (filt : option (R -> R)) (dt : R) (nsteps step : nat) (e : env) : option (env * nat) :=
  match nsteps with
  | O => Some (e, step)
  | S n => match euler_step p ft filt dt (time_of dt step) e with
           | None => None
           | Some e' => euler_propagate p ft filt dt n (S step) e'
           end
  end.

(** ** RK4 *)

(** pf/rk4.go:93-95 and 124-126: right-hand sides of all fields. *)
Fixpoint rhs_all (p : pde) (e : env) (t : R) (i : nat) (fs : list data) : option (list data) :=
  match fs with
  | [] => Some []
  | d :: fs' => match get_rhs p e i t (length d), rhs_all p e t (S i) fs' with
                | Some r, Some rs => Some (r :: rs)
                | _, _ => None
                end
  end.

(** pf/rk4.go:77-84, PrepareNextCorrection: accumulation into [final]; the
    fields are reset to [initial] by the caller below. *)
Fixpoint map2 {A B D} (f : A -> B -> D) (a : list A) (b : list B) : list D :=
  match a, b with x :: a', y :: b' => f x y :: map2 f a' b' | _, _ => [] end.
Definition accumulate (h : R) (final k : list data) : list data :=
  map2 (map2 (fun y k => Cadd y (Cmul (RtoC h) k))) final k.

(** pf/rk4.go:103-114: the fields are moved to the stage and transformed back
    one after the other. *)
Fixpoint stage_fields (p : pde) (ft : transform) (h t : R) (todo i : nat) (k : list data) (e : env) : option env :=
  match todo with
  | O => Some e
  | S todo' =>
      match nth_error (e_fields e) i, nth_error k i with
      | Some d, Some ki =>
          match get_denum p e i t (length d) with
          | Some a => stage_fields p ft h t todo' (S i) k (set_field e i (to_real ft (map3 (semi_implicit h) d ki a)))
          | None => None
          end
      | _, _ => None
      end
  end.

(** pf/rk4.go:101-127, correction. *)
Definition correction (p : pde) (ft : transform) (h t : R) (k : list data) (e : env) : option (env * list data) :=
  match stage_fields p ft h t (length (e_fields e)) 0 k e with
  | None => None
  | Some e1 =>
      let e2 := sync p e1 in
      let e3 := {| e_fields := map (fft ft) (e_fields e2); e_derived := map (fft ft) (e_derived e2) |} in
      match rhs_all p e3 t 0 (e_fields e3) with
      | Some k' => Some (e3, k')
      | None => None
      end
  end.

(** pf/rk4.go:55-66: the final division, field by field. *)
Fixpoint finish_fields (p : pde) (ft : transform) (filt : option (R -> R)) (dt t : R) (todo i : nat) (final : list data) (e : env) : option env :=
  match todo with
  | O => Some e
  | S todo' =>
      match nth_error (e_fields e) i, nth_error final i with
      | Some d, Some fi =>
          match get_denum p e i t (length d) with
          | Some a =>
              finish_fields p ft filt dt t todo' (S i) final
                (set_field e i (apply_filter filt ft (map2 (fun y a => Cdiv y (Csub C1 (Cmul (RtoC dt) a))) fi a)))
          | None => None
          end
      | _, _ => None
      end
  end.

(** Assignment to the data of m.Fields (pf/model.go:117). *)
Definition with_fields (e : env) (fs : list data) : env := {| e_fields := fs; e_derived := e_derived e |}.

(** pf/rk4.go:29-74, RK4.Step at time [t]. *)
Definition rk4_step (p : pde) (ft : transform) (filt : option (R -> R)) (dt t : R) (e : env) : option env :=
  let e1 := sync p e in
  let init := map (fft ft) (e_fields e1) in
  let e2 := {| e_fields := init; e_derived := map (fft ft) (e_derived e1) |} in
  match rhs_all p e2 t 0 init with
  | None => None
  | Some k1 =>
      let f1 := accumulate (1 / 6 * dt) init k1 in
      match correction p ft (1 / 2 * dt) t k1 (with_fields e2 init) with
      | None => None
      | Some (e3, k2) =>
          let f2 := accumulate (1 / 3 * dt) f1 k2 in
          match correction p ft (1 / 2 * dt) t k2 (with_fields e3 init) with
          | None => None
          | Some (e4, k3) =>
              let f3 := accumulate (1 / 3 * dt) f2 k3 in
              match correction p ft (1 * dt) t k3 (with_fields e4 init) with
              | None => None
              | Some (e5, k4) =>
                  let f4 := accumulate (1 / 6 * dt) f3 k4 in
                  match finish_fields p ft filt dt t (length init) 0 f4 (with_fields e5 init) with
                  | None => None
                  | Some e6 => Some {| e_fields := map (to_real ft) (e_fields e6); e_derived := e_derived e6 |}
                  end
              end
          end
      end
  end.

(** pf/rk4.go:130-135, RK4.Propagate: here CurrentStep is incremented. *)
Fixpoint rk4_propagate (p : pde) (ft : transform) (filt : option (R -> R)) (dt : R) (nsteps step : nat) (e : env) : option (env * nat) :=
  match nsteps with
  | O => Some (e, step)
  | S n => match rk4_step p ft filt dt (time_of dt step) e with
           | None => None
           | Some e' => rk4_propagate p ft filt dt n (S step) e'
           end
  end.

(** ** Terms that are zero at zero frequency *)

(** pf/rhsBuilder.go:199-241 with prefix LAP, LAP^2 or LAP^4: the term is
    evaluated and then pf/diffOp.go:25-30 is applied. *)
Definition laplacian_term (ft : transform) (k : nat) (body : term) : term :=
  fun e t tmp => mapi_from 0 (fun j z => lap_eval (tfreq ft j) k z) (body e t tmp).

(** Clear, then for every direction d add i m(f_d) times the d-th flux: the
    loop shared by pf/gradientCalculator.go:94-106 (DivGrad), 
    pf/chargeTransport.go:95-121 and pf/noise.go:58-77. *)
Fixpoint flux_term_from (mult : R -> R) (ft : transform) (flux : env -> R -> nat -> data)
                        (dim d : nat) (e : env) (t : R) (field : data) : data :=
  match dim with
  | O => field
  | S dim' =>
      flux_term_from mult ft flux dim' (S d) e t
        (mapi_from 0 (fun j z => Cadd z (Cmul (Cmul Ci (RtoC (mult (nth d (tfreq ft j) 0)))) (nth j (flux e t d) C0))) field)
  end.
Definition flux_term (mult : R -> R) (ft : transform) (dim : nat) (flux : env -> R -> nat -> data) : term :=
  fun e t tmp => flux_term_from mult ft flux dim 0 e t (repeat C0 (length tmp)).

(** pf/gradientCalculator.go:101-102. *)
Definition divgrad_mult (f : R) : R := 2 * PI * f.
(** pf/chargeTransport.go:114-117: the Nyquist component is skipped. *)
Definition charge_mult (k : R) : R :=
  if Rlt_dec (1 / 10000000000) (Rabs (Rabs k - 1 / 2)) then 2 * PI * k else 0.
(** pf/noise.go:69-73. *)
Definition noise_mult (f : R) : R :=
  if Rlt_dec (1 / 1000000) (Rabs (Rabs f - 1 / 2)) then 2 * sin (PI * f) else 0.
