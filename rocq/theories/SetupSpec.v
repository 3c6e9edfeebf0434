(** What preparing a model, checking implicit terms and configuring a solver
    are expected to do, independently of the way the code does it. *)
From Verif Require Export SetupModel DerivedSpec CVec.
From Verif Require Import Complex.
From Coq Require Import Permutation.
Open Scope nat_scope.

(** The value a brick shows. *)
Definition shown (m : dmodel) (mem : memory) (name : str) : nat -> C :=
  fun i => match brick_slice m name with Some s => mem s i | None => C0 end.

(** All slices in use are below [b]. *)
Definition below (m : dmodel) (b : nat) : Prop :=
  (forall n s, brick_slice m n = Some s -> s < b) /\ (forall d, In d (dm_derived m) -> df_slice d < b).

(** [m2] is [m1] after further registrations under other names, whose data are
    new slices. *)
Definition later (b : nat) (m1 m2 : dmodel) : Prop :=
  (forall n s, brick_slice m1 n = Some s -> brick_slice m2 n = Some s)
  /\ exists more, dm_derived m2 = dm_derived m1 ++ more /\ Forall (fun d => b <= df_slice d) more.

(** The scalar product of the velocity and the gradient of a field. *)
Definition advected (grad : nat -> (nat -> C) -> nat -> C) (u : nat -> C) (vs : list (nat -> C)) (i : nat) : C :=
  csum (length vs) (fun d => Cmul (nth d vs (fun _ => C0) i) (grad d u i)).

(** ** Implicit terms *)
Definition field_independent (t : pterm) : Prop :=
  forall b b' freq time n, t b freq time n = t b' freq time n.

(** A term that is an affine function of the bricks at the node:
    c(f) + sum over k of w_k(f) * brick_k. *)
Fixpoint weighted (ws : list (str * (list R -> C))) (f : list R) (b : str -> nat -> C) (i : nat) : C :=
  match ws with
  | [] => C0
  | (n, w) :: ws' => Cadd (Cmul (w f) (b n i)) (weighted ws' f b i)
  end.
Fixpoint total_weight (ws : list (str * (list R -> C))) (f : list R) : C :=
  match ws with [] => C0 | (_, w) :: ws' => Cadd (w f) (total_weight ws' f) end.
Definition affine_term (c : list R -> C) (ws : list (str * (list R -> C))) : pterm :=
  fun b freq _ n => Some (map (fun i => Cadd (c (freq i)) (weighted ws (freq i) b i)) (seq 0 n)).

(** A term that reads the third component of the frequency, as a term of a
    three-dimensional model does. *)
Definition reads_third (g : R -> R -> R -> C) : pterm :=
  fun _ freq _ n =>
    if forallb (fun i => Nat.leb 3 (length (freq i))) (seq 0 n)
    then Some (map (fun i => g (nth 0 (freq i) 0%R) (nth 1 (freq i) 0%R) (nth 2 (freq i) 0%R)) (seq 0 n))
    else None.

(** ** Expectation values: a linear functional on random variables. *)
Record expectation (O : Type) := {
  ex : (O -> R) -> R;
  ex_ext : forall f g, (forall o, f o = g o) -> ex f = ex g;
  ex_add : forall f g, ex (fun o => f o + g o)%R = (ex f + ex g)%R;
  ex_scal : forall c f, ex (fun o => c * f o)%R = (c * ex f)%R }.
Arguments ex {O}. Arguments ex_ext {O}. Arguments ex_add {O}. Arguments ex_scal {O}.

(** Uncorrelated standardised numbers: x k i is drawn in step [k] for node [i]. *)
Definition white {O} (E : expectation O) (steps n : nat) (x : nat -> nat -> O -> R) : Prop :=
  forall k l i j, k < steps -> l < steps -> i < n -> j < n -> ex E (fun o => x k i o * x l j o)%R = (if andb (Nat.eqb k l) (Nat.eqb i j) then 1 else 0)%R.

(** The equation du/dt = NOISE in step [k]: one field, one derived field that
    holds the noise of that step. *)
Definition noise_pde (strength : R) (x : nat -> R) (n : nat) : pde := {|
  p_calc := [fun _ => map (fun i => white_noise strength (x i)) (seq 0 n)];
  p_eqns := [{| q_terms := [fun e _ _ => nth 0 (e_derived e) []]; q_denum := []; q_sources := [] |}];
  p_mods := [] |}.
Fixpoint noise_run (ft : transform) (dt strength : R) (x : nat -> nat -> R) (n steps : nat) (e : env) : option env :=
  match steps with
  | O => Some e
  | S k => match noise_run ft dt strength x n k e with
           | None => None
           | Some e1 => euler_step (noise_pde strength (x k) n) ft None dt (time_of dt k) e1
           end
  end.
