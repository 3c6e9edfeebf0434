(** Vocabulary for the statements about runs with ImplicitEuler. *)
From Verif Require Export ImplicitModel SddSpec.
Open Scope R_scope.

(** The exact solution at time [T] of a linear equation from the field [d]:
    the amplitude with wave number k is multiplied by exp(T rate_k). *)
Definition evolved (n : nat) (ft : transform) (T : R) (rate : nat -> R) (d : data) : data :=
  to_real ft (map (fun k => Cmul (RtoC (exp (T * rate k))) (nth k (fft ft d) C0)) (seq 0 n)).

(** All fields; [rate i] belongs to field number i, the first one is [i]. *)
Fixpoint evolved_fields (n : nat) (ft : transform) (T : R) (rate : nat -> nat -> R) (i : nat) (fs : list data) : list data :=
  match fs with
  | [] => []
  | d :: fs' => evolved n ft T (rate i) d :: evolved_fields n ft T rate (S i) fs'
  end.

(** The values of all fields one after another. *)
Definition values (fs : list data) : list R := concat (map (map Re) fs).

(** Difference and Euclidean length of vectors. *)
Fixpoint minus (x y : list R) : list R :=
  match x, y with
  | a :: x', b :: y' => (a - b) :: minus x' y'
  | _, _ => []
  end.
Fixpoint sum_squares (x : list R) : R :=
  match x with
  | [] => 0
  | a :: x' => a ^ 2 + sum_squares x'
  end.
Definition vnorm (x : list R) : R := sqrt (sum_squares x).

(** The solver leaves a residual of length at most [tol]. *)
Definition solves_to (tol : R) (solve : (list R -> option (list R)) -> list R -> list R) (F : list R -> option (list R)) (x0 : list R) : Prop :=
  length (solve F x0) = length x0 /\ forall out, F (solve F x0) = Some out -> vnorm out <= tol.

(** The entries of a packed vector that belong to field number [i], and the
    sum of the entries of a vector. *)
Definition part (n i : nat) (x : list R) : list R := firstn n (skipn (i * n) x).
Fixpoint total (x : list R) : R := match x with [] => 0 | a :: x' => a + total x' end.
(** The total of field number [i]. *)
Definition field_total (e : env) (i : nat) : R := Re (Csum (nth i (e_fields e) [])).
(** The residual of every problem met sums to at most [tol] on field [i]. *)
Definition balances_to (n i : nat) (tol : R) (solve : (list R -> option (list R)) -> list R -> list R) (F : list R -> option (list R)) (x0 : list R) : Prop :=
  length (solve F x0) = length x0 /\ forall out, F (solve F x0) = Some out -> Rabs (total (part n i out)) <= tol.
