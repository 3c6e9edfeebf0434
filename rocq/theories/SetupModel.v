(** Model of the setting up of a model and a solver: terms that prepare the
    model with derived fields of their own (Advection, DivGrad,
    ConservativeNoise), the check of implicit terms in Init, NewSolver and
    SetStepper, and the copies made of fields and scalars. *)
From Verif Require Export DerivedModel FileModel DbModel StepModel.
Open Scope nat_scope.

(** ** Names *)

(** pf/advection.go:23-25, Advection.GradName: "%s_%d". *)
Definition adv_grad_name (field : str) (comp : nat) : str := field ++ lit "_" ++ dec (Z.of_nat comp).
(** pf/advection.go:29-36, Advection.GetName. *)
Definition adv_name (field : str) (vels : list str) : str := concat vels ++ lit "Dot" ++ lit "Grad" ++ field.
(** pf/gradientCalculator.go:56-58, DivGrad.FuncName: "DivGrad_%s_Func". *)
Definition dg_func_name (field : str) : str := lit "DivGrad_" ++ field ++ lit "_Func".
(** pf/gradientCalculator.go:61-63, DivGrad.GradName: "GRAD_%s_%d". *)
Definition dg_grad_name (field : str) (comp : nat) : str := lit "GRAD_" ++ field ++ lit "_" ++ dec (Z.of_nat comp).
(** pf/gradientCalculator.go:81 and 99: the name of F times the gradient. *)
Definition dg_flux_name (field : str) (comp : nat) : str := dg_func_name field ++ dg_grad_name field comp.
(** pf/noise.go:44-46, GetCurrentName: "%d_current_%d". *)
Definition current_name (prefix : Z) (comp : nat) : str := dec prefix ++ lit "_current_" ++ dec (Z.of_nat comp).

(** pf/model.go:227-234, IsBrickName. *)
Definition is_brick_name (m : dmodel) (name : str) : bool :=
  match lookup (dm_bricks m) name with Some _ => true | None => false end.

(** ** Terms that prepare the model.
    [grad comp x] is GradientCalculator.Calculate (pf/gradientCalculator.go:19-31)
    on the values [x].  A Calc function looks names up when it runs: [look] is
    the table of bricks (name to slice) at that time; a missing name is a nil
    pointer, its value is taken to be 0.  The brick of the field is fetched
    when the model is prepared: [src] is its slice.  The slices made by
    PrepareModel are numbered from [new] on. *)
Section Prepare.
  Variable grad : nat -> (nat -> C) -> nat -> C.
  Variable look : str -> option nat.

  (** Bricks[name].Get(i) (pf/model.go:23-25, 119). *)
  Definition get_by_name (mem : memory) (name : str) (i : nat) : C :=
    match look name with Some s => mem s i | None => C0 end.

  (** pf/gradientCalculator.go:36-47, ToDerivedField. *)
  Definition grad_field (name : str) (comp src slice : nat) : dfield :=
    {| df_name := name; df_slice := slice; df_calc := fun mem => grad comp (mem src) |}.

  (** pf/advection.go:73-83, the sum over [ds] of velocity times gradient. *)
  Fixpoint v_dot_grad (field : str) (vels : list str) (d : nat) (mem : memory) (i : nat) : C :=
    match vels with
    | [] => C0
    | v :: vels' => Cadd (Cmul (get_by_name mem v i) (get_by_name mem (adv_grad_name field d) i))
                         (v_dot_grad field vels' (S d) mem i)
    end.

  (** pf/advection.go:60-67. *)
  Fixpoint adv_gradients (field : str) (src d dim new : nat) : list dfield :=
    match dim with
    | O => []
    | S dim' => grad_field (adv_grad_name field d) d src new :: adv_gradients field src (S d) dim' (S new)
    end.
  (** pf/advection.go:60-84: the fields registered, in order. *)
  Definition adv_fields (field : str) (vels : list str) (src new : nat) : list dfield :=
    adv_gradients field src 0 (length vels) new ++
    [{| df_name := adv_name field vels; df_slice := new + length vels; df_calc := v_dot_grad field vels 0 |}].

  (** Calls of RegisterDerivedField (pf/model.go) one after the other. *)
  Fixpoint register_all (m : dmodel) (ds : list dfield) : dmodel :=
    match ds with [] => m | d :: ds' => register_all (register_derived m d) ds' end.

  (** pf/advection.go:39-46, AllFieldsExist. *)
  Definition adv_all_exist (m : dmodel) (field : str) (vels : list str) : bool :=
    forallb (is_brick_name m) vels && is_brick_name m field.

  (** pf/advection.go:50-85, PrepareModel; [None] is a panic; [dim] is
      len(FT.Freq(0)). *)
  Definition adv_prepare (dim : nat) (m : dmodel) (field : str) (vels : list str) (new : nat) : option dmodel :=
    if negb (Nat.eqb (length vels) dim) then None
    else if negb (adv_all_exist m field vels) then None
    else match brick_slice m field with
         | None => None
         | Some src => Some (register_all m (adv_fields field vels src new))
         end.

  (** pf/advection.go:88-95, Construct: minus the brick. *)
  Definition adv_term (mem : memory) (field : str) (vels : list str) (i : nat) : C :=
    Copp (get_by_name mem (adv_name field vels) i).

  (** pf/gradientCalculator.go:71-90: two fields for every direction.
      [F mem i] is F(i, m.Bricks). *)
  Fixpoint dg_fields (F : memory -> nat -> C) (field : str) (src d dim new : nat) : list dfield :=
    match dim with
    | O => []
    | S dim' =>
        grad_field (dg_grad_name field d) d src new
        :: {| df_name := dg_flux_name field d; df_slice := S new;
              df_calc := fun mem i => Cmul (F mem i) (get_by_name mem (dg_grad_name field d) i) |}
        :: dg_fields F field src (S d) dim' (S (S new))
    end.
  (** pf/gradientCalculator.go:69-91, DivGrad.PrepareModel.  A field that does
      not exist is a nil pointer, dereferenced by the first sync: None. *)
  Definition dg_prepare (F : memory -> nat -> C) (dim : nat) (m : dmodel) (field : str) (new : nat) : option dmodel :=
    match brick_slice m field with
    | None => None
    | Some src => Some (register_all m (dg_fields F field src 0 dim new))
    end.
  (** pf/gradientCalculator.go:98-100: the flux Construct reads. *)
  Definition dg_flux (mem : memory) (field : str) (d i : nat) : C := get_by_name mem (dg_flux_name field d) i.
End Prepare.

(** ** Conservative noise *)

(** pf/noise.go:85-100, RequiredDerivedFields: [noise c i] is the value drawn
    for component [c] at node [i]. *)
Definition noise_fields (prefix : Z) (dim new : nat) (noise : nat -> nat -> C) : list dfield :=
  map (fun c => {| df_name := current_name prefix c; df_slice := new + c; df_calc := fun _ => noise c |}) (seq 0 dim).
(** pf/noise.go:50-57, CurrentFieldsAreRegistered. *)
Definition currents_registered (m : dmodel) (prefix : Z) (dim : nat) : bool :=
  forallb (fun c => is_brick_name m (current_name prefix c)) (seq 0 dim).

Open Scope R_scope.

(** pf/noise.go:20-23, WhiteNoise.Generate; [x] is rand.NormFloat64(). *)
Definition white_noise (strength x : R) : C := (x * sqrt (2 * strength), 0).

(** ** The check of implicit terms *)

(** A term registered with RegisterImplicitTerm: Construct(bricks) and the
    function it returns, called with a frequency function and a time on a
    zeroed slice of [n] nodes.  [None] is a panic.
    PureTerm of pf/userDefinedTerm.go: Construct(bricks) and the function it returns. *)
Definition pterm := (str -> nat -> C) -> (nat -> list R) -> R -> nat -> option data.

(** pfutil/sliceOperations.go:6-17, CmplxEqualApprox. *)
Definition close (tol : R) (a b : C) : bool :=
  (if Rlt_dec tol (Rabs (Re a - Re b)) then false else true)
  && (if Rlt_dec tol (Rabs (Im a - Im b)) then false else true).
Fixpoint equal_approx (tol : R) (a b : data) : bool :=
  match a, b with
  | [], [] => true
  | x :: a', y :: b' => close tol x y && equal_approx tol a' b'
  | _, _ => false
  end.

(** pf/userDefinedTerm.go:101-109, perturbedBrick. *)
Definition perturbed (bricks : str -> nat -> C) : str -> nat -> C :=
  fun name i => Cadd (bricks name i) (RtoC (1 / 5)).
(** pf/model.go:253-255: the frequency used for every node. *)
Definition probe : nat -> list R := fun _ => [2 / 5; 2 / 5].

(** pf/userDefinedTerm.go:78-97, isImplicit. *)
Definition is_implicit (t : pterm) (bricks : str -> nat -> C) (n : nat) (freq : nat -> list R) : option bool :=
  match t bricks freq 0 n, t (perturbed bricks) freq 0 n with
  | Some a, Some b => Some (equal_approx (/ 10 ^ 10) a b)
  | _, _ => None
  end.
(** pf/model.go:244-261, Init, the check of the implicit terms: true when no
    panic occurs.  [terms] lists the map in the order it is walked. *)
Fixpoint init_accepts (terms : list (str * pterm)) (bricks : str -> nat -> C) (n : nat) : bool :=
  match terms with
  | [] => true
  | (_, t) :: ts => match is_implicit t bricks n probe with
                    | Some true => init_accepts ts bricks n
                    | _ => false
                    end
  end.

(** ** Solvers *)

(** The names "euler" and "rk4" of pf/solver.go:87-98. *)
Inductive scheme := Euler | RK4.
(** pf/solver.go:29-37 with the fields of the stepper: time step, counter of
    steps (CurrentStep) and filter. *)
Record setup := { su_dt : R; su_scheme : scheme; su_step_dt : R; su_step : nat; su_filter : option (R -> R);
                  su_callbacks : list nat; su_monitors : list nat }.

(** pf/solver.go:87-98, the new stepper. *)
Definition fresh_stepper (sc : scheme) (s : setup) : setup :=
  {| su_dt := su_dt s; su_scheme := sc; su_step_dt := su_dt s; su_step := 0; su_filter := None;
     su_callbacks := su_callbacks s; su_monitors := su_monitors s |}.

(** pf/solver.go:40-62, NewSolver.  [init_ok]: m.Init() returned.  [lens]: the
    number of nodes of every field. *)
Definition new_solver (init_ok : bool) (lens : list nat) (dom : list Z) (dt : R) : option setup :=
  if negb init_ok then None
  else if forallb (fun n => (Z.of_nat n =? prod_int dom)%Z) lens
  then Some {| su_dt := dt; su_scheme := Euler; su_step_dt := dt; su_step := 0; su_filter := None;
               su_callbacks := []; su_monitors := [] |}
  else None.

(** pf/solver.go:88-103, SetStepper. *)
Definition set_stepper (name : str) (s : setup) : option setup :=
  if str_eqb name (lit "euler") then Some (fresh_stepper Euler s)
  else if str_eqb name (lit "rk4") then Some (fresh_stepper RK4 s)
  else None.

(** pf/solver.go:65-67 and 123-125, AddCallback and AddMonitor. *)
Definition add_callback (c : nat) (s : setup) : setup :=
  {| su_dt := su_dt s; su_scheme := su_scheme s; su_step_dt := su_step_dt s; su_step := su_step s;
     su_filter := su_filter s; su_callbacks := su_callbacks s ++ [c]; su_monitors := su_monitors s |}.
Definition add_monitor (c : nat) (s : setup) : setup :=
  {| su_dt := su_dt s; su_scheme := su_scheme s; su_step_dt := su_step_dt s; su_step := su_step s;
     su_filter := su_filter s; su_callbacks := su_callbacks s; su_monitors := su_monitors s ++ [c] |}.
(** pf/euler.go:46 (Step) and pf/rk4.go:130-135 (Propagate): [n] steps of the
    stepper's own Propagate. *)
Definition run_steps (n : nat) (s : setup) : setup :=
  {| su_dt := su_dt s; su_scheme := su_scheme s; su_step_dt := su_step_dt s; su_step := su_step s + n;
     su_filter := su_filter s; su_callbacks := su_callbacks s; su_monitors := su_monitors s |}.
(** pf/euler.go:50-52 and pf/rk4.go:143-145, GetTime; 62-64 and 138-140,
    SetFilter. *)
Definition setup_time (s : setup) : R := INR (su_step s) * su_step_dt s.
Definition set_filter (f : R -> R) (s : setup) : setup :=
  {| su_dt := su_dt s; su_scheme := su_scheme s; su_step_dt := su_step_dt s; su_step := su_step s;
     su_filter := Some f; su_callbacks := su_callbacks s; su_monitors := su_monitors s |}.

(** ** Values and copies.
    Variables of type Field and Scalar live in cells; a method with a value
    receiver works on a copy of the cell. *)
Open Scope nat_scope.
(** pf/model.go:17-20 and 86-89, Field and Scalar. *)
Inductive value := VField (name : str) (slice len : nat) | VScalar (name : str) (v : C).
(** Not in the source: variables and slices of a program. *)
Record store := { st_cells : nat -> value; st_mem : memory; st_used : nat (* slices below are in use *) }.

(** Assignment to a variable, auxiliary. *)
Definition put_cell (s : store) (c : nat) (v : value) : store :=
  {| st_cells := fun c' => if Nat.eqb c' c then v else st_cells s c'; st_mem := st_mem s; st_used := st_used s |}.

(** pf/model.go:23-25 and 106-108, Get. *)
Definition value_get (s : store) (c i : nat) : C :=
  match st_cells s c with VField _ sl _ => st_mem s sl i | VScalar _ v => v end.

(** pf/model.go:91-97, NewScalar: [None] is the panic of a reserved prefix. *)
Definition new_scalar (s : store) (dst : nat) (name : str) (v : C) : option store :=
  if name_ok name then Some (put_cell s dst (VScalar name v)) else None.

(** pf/model.go:101-103, SetFloat: [recv] is the copy the method receives; the
    assignment changes that copy. *)
Definition set_float (s : store) (c recv : nat) (x : R) : store :=
  match st_cells s c with
  | VScalar n _ => put_cell s recv (VScalar n (RtoC x))
  | VField _ _ _ => s
  end.

(** pf/model.go:44-58, NewField: [data] is a slice of the caller (number and
    length) or nil. *)
Definition new_field (s : store) (dst : nat) (name : str) (n : nat) (d : option (nat * nat)) : option store :=
  if negb (name_ok name) then None
  else match d with
       | None => Some {| st_cells := fun c' => if Nat.eqb c' dst then VField name (st_used s) n else st_cells s c';
                         st_mem := set_slice (st_mem s) (st_used s) (fun _ => C0);
                         st_used := S (st_used s) |}
       | Some (sl, len) => if Nat.eqb len n then Some (put_cell s dst (VField name sl n)) else None
       end.

(** pf/model.go:28-32, Field.Copy. *)
Definition copy_field (s : store) (c dst : nat) : option store :=
  match st_cells s c with
  | VScalar _ _ => None
  | VField name sl len =>
      match new_field s dst name len None with
      | None => None
      | Some s1 => Some {| st_cells := st_cells s1; st_mem := set_slice (st_mem s1) (st_used s) (st_mem s1 sl); st_used := st_used s1 |}
      end
  end.

(** field.Data[i] = v through the variable [c].
    Assignment to an element of Field.Data (pf/model.go:19). *)
Definition write_value (s : store) (c i : nat) (v : C) : store :=
  match st_cells s c with
  | VScalar _ _ => s
  | VField _ sl _ => {| st_cells := st_cells s;
                        st_mem := set_slice (st_mem s) sl (fun k => if Nat.eqb k i then v else st_mem s sl k);
                        st_used := st_used s |}
  end.
