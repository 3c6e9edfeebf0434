(** Vocabulary for the properties of the mode expansion solver. *)
From Verif Require Export ModeModel GridSpec MillerSpec.
Open Scope R_scope.

(** The family of a Miller index in [dim] dimensions: all signed permutations,
    each once; in two dimensions those with L = 0. *)
Definition family (dim : nat) (m : miller) (L : list miller) : Prop :=
  NoDup L /\ forall e, In e L <-> signed_permutation m e /\ (dim = 2%nat -> snd e = 0%Z).
(** The scalar product of a Miller index and a scaled position. *)
Definition hkl_dot (e : miller) (pos : list R) : R :=
  rsum (length pos) (fun i => IZR (nth i [fst (fst e); snd (fst e); snd e] 0%Z) * nth i pos 0).

(** The density of the mode expansion at a position: sum of amplitude times
    mode. *)
Definition expansion (modes : list miller) (amp : list R) (pos : list R) : R :=
  rsum (length modes) (fun i => nth i amp 0 * mode_density (nth i modes (0, 0, 0)%Z) pos).
(** Its free energy density without the quadratic part (which the solver
    leaves to the pair correlation). *)
Definition energy_density (mix : ideal_mix) (modes : list miller) (amp : list R) (pos : list R) : R :=
  third_prefactor mix * expansion modes amp pos ^ 3 + fourth_prefactor mix * expansion modes amp pos ^ 4.
(** The average over the unit cell (of two or three dimensions) with the
    product of a quadrature rule on [0, 1]. *)
Definition rule_average (dim : nat) (q : rule) (f : list R -> R) : R :=
  if Nat.eqb dim 2
  then lsum (fun x : R * R => lsum (fun y : R * R => snd x * snd y * f [fst x; fst y]) q) q
  else lsum (fun x : R * R => lsum (fun y : R * R => lsum (fun z : R * R => snd x * snd y * snd z * f [fst x; fst y; fst z]) q) q) q.
(** Products of powers of the modes. *)
Definition mode_product (modes : list miller) (powers : list nat) (pos : list R) : R :=
  fold_right Rmult 1 (map (fun i => mode_density (nth i modes (0, 0, 0)%Z) pos ^ nth i powers 0%nat) (seq 0 (length modes))).
(** An averaging operation that is linear on the combinations of such products,
    for example the integral over the unit cell. *)
Record cell_average (modes : list miller) (I : (list R -> R) -> R) : Prop := {
  ca_ext : forall f g, (forall x, f x = g x) -> I f = I g;
  ca_linear : forall l : list (R * list nat),
    I (fun p => lsum (fun a => fst a * mode_product modes (snd a) p) l) = lsum (fun a => fst a * I (mode_product modes (snd a))) l }.
(** The sum of the magnitudes of the amplitudes. *)
Definition amp_size (amp : list R) : R := lsum Rabs amp.
(** An amplitude replaced by another value. *)
Definition with_amp (amp : list R) (i : nat) (x : R) : list R := firstn i amp ++ x :: skipn (S i) amp.

(** ** Elastic constants *)
(** The contribution of the mode [m] (unit factor) to the elastic constant
    C_stuv: m_t Q_su m_v, with Q = C^T C. *)
Definition mode_stiffness (Q : matrix) (m : miller) (s t u v : nat) : R :=
  let c i := IZR (nth i [fst (fst m); snd (fst m); snd m] 0%Z) in c t * Q s u * c v.
(** The Voigt averages of a tensor in three dimensions, and their
    counterparts in the plane. *)
Definition entry4 (T : nat -> nat -> nat -> nat -> R) (s t u v : nat) : R := T s t u v.
Definition voigt_bulk (T : nat -> nat -> nat -> nat -> R) : R :=
  rsum 3 (fun i => rsum 3 (fun j => T i i j j)) / 9.
Definition voigt_shear (T : nat -> nat -> nat -> nat -> R) : R :=
  ((entry4 T 0 0 0 0 + entry4 T 1 1 1 1 + entry4 T 2 2 2 2 - entry4 T 0 0 1 1 - entry4 T 0 0 2 2 - entry4 T 1 1 2 2) + 3 * (entry4 T 0 1 0 1 + entry4 T 0 2 0 2 + entry4 T 1 2 1 2)) / 15.
Definition plane_area (T : nat -> nat -> nat -> nat -> R) : R :=
  rsum 2 (fun i => rsum 2 (fun j => T i i j j)) / 4.
Definition plane_shear (T : nat -> nat -> nat -> nat -> R) : R :=
  (entry4 T 0 0 0 0 + entry4 T 1 1 1 1 - entry4 T 0 0 1 1 - entry4 T 1 1 0 0 + 4 * entry4 T 1 0 1 0) / 8.
(** What the four documented names stand for, as averages of a tensor. *)
Inductive names_average : str -> ((nat -> nat -> nat -> nat -> R) -> R) -> Prop :=
| names_bulk : names_average (lit "bulk") voigt_bulk
| names_shear : names_average (lit "shear") voigt_shear
| names_area : names_average (lit "area") plane_area
| names_xyshear : names_average (lit "xyshear") plane_shear.
(** The elastic tensor of the modes with the factors [x]. *)
Definition total_stiffness (Q : matrix) (modes : list miller) (x : list R) (s t u v : nat) : R :=
  rsum (length modes) (fun i => nth i x 0 * nth i x 0 * mode_stiffness Q (nth i modes (0, 0, 0)%Z) s t u v).
