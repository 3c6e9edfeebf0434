(** Vocabulary for the statements about models that lower an energy. *)
From Coq Require Import Reals.
From Verif Require Import FileModel.
From Verif Require Vec.
From Verif Require Export LawSpec DftSpec LimitSpec.
Open Scope nat_scope.

(** The equation is of the form d field/dt = -(-LAP)^p mu: every product carries
    at least [p] Laplacians; a product that is not linear in the field carries
    exactly [p], and is not another field that stands alone. *)
Definition flow_equation (L : lang) (p : nat) (q : eqtext) : Prop :=
  Forall (fun x => match fst x with
                   | IProduct t => p <= total_power t
                       /\ (linear_in L (q_field q) t = true \/ (total_power t = p /\ lone_field L t = false))
                   | IUser _ _ => False
                   end) (signed_items q).

(** The part of mu that is not linear in the field, at node [j]: the products of
    the equation without their Laplacians. *)
Definition force_item (L : lang) (lib : library) (val : str -> nat -> C) (field : str) (j : nat) (it : item) : C :=
  match it with
  | IProduct t =>
      if linear_in L field t then C0
      else Cmul (product_value (lb_pow lib) (lb_scalar lib) (scalar_factors L t)) (amplitude (lb_pow lib) val (fun x => x j) (field_factors L t))
  | IUser _ _ => C0
  end.
Definition force (L : lang) (lib : library) (p : nat) (val : str -> nat -> C) (q : eqtext) (j : nat) : C :=
  Cmul (RtoC (- (-1) ^ p)) (sum_signed (force_item L lib val (q_field q) j) (signed_items q)).

(** The coefficient of the field in the part of mu that is linear in it, for
    waves of the given frequency. *)
Definition stiffness_item (L : lang) (lib : library) (p : nat) (field : str) (freq : list R) (it : item) : C :=
  match it with
  | IProduct t =>
      if linear_in L field t
      then Cmul (RtoC (lap_symbol freq ^ (total_power t - p))) (product_value (lb_pow lib) (lb_scalar lib) (scalar_factors L t))
      else C0
  | IUser _ _ => C0
  end.
Definition stiffness (L : lang) (lib : library) (p : nat) (freq : list R) (q : eqtext) : C :=
  Cmul (RtoC (- (-1) ^ p)) (sum_signed (stiffness_item L lib p (q_field q) freq) (signed_items q)).

(** The values of the fields at node [j], by number of the field. *)
Definition node (fields : list data) (j : nat) : nat -> R := fun i => Re (at_ fields i j).

(** The energy of [nf] fields on [n] nodes: the density [G] summed over the nodes
    and half the sum of w |amplitude|^2 / n over the waves of every field. *)
Definition flow_energy (nf n : nat) (ft : transform) (G : (nat -> R) -> R) (w : nat -> nat -> R) (fields : list data) : R :=
  (Vec.rsum n (fun j => G (node fields j))
   + Vec.rsum nf (fun i => Vec.rsum n (fun k => w i k * Cnorm2 (nth k (fft ft (nth i fields [])) C0))) / (2 * INR n))%R.

(** [g] is the gradient of [G] on the values [B], where the curvature of [G] is
    at most [K]. *)
Definition descends (nf : nat) (G : (nat -> R) -> R) (g : nat -> (nat -> R) -> R) (K : R) (B : (nat -> R) -> Prop) : Prop :=
  forall u v, B u -> B v ->
  (G v <= G u + Vec.rsum nf (fun i => g i u * (v i - u i)) + K / 2 * Vec.rsum nf (fun i => (v i - u i) ^ 2))%R.

(** All values of the fields are real. *)
Definition all_real (fields : list data) : Prop := Forall real_field fields.

(** The energy of a field with two preferred values: the sum of c^4/4 - c^2/2
    over the nodes and kap/2 times the sum of the squared gradient (written with
    the amplitudes of the waves). *)
Definition double_well_energy (n : nat) (ft : transform) (kap : R) (d : data) : R :=
  (Vec.rsum n (fun j => Re (nth j d C0) ^ 4 / 4 - Re (nth j d C0) ^ 2 / 2)
   + kap / 2 * (Vec.rsum n (fun k => - lap_symbol (tfreq ft k) * Cnorm2 (nth k (fft ft d) C0)) / INR n))%R.
