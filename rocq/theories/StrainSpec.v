(** Vocabulary for the statements about elastic energies. *)
From Verif Require Export StrainModel ElasticSpec EnergySpec RealSpec GradSpec.
From Verif Require Export Complex.
Open Scope R_scope.

(** The frequency of a node as a vector of three components. *)
Definition wave (ft : transform) (k : nat) : nat -> R := fun d => nth d (tfreq ft k) 0.
(** The Fourier amplitude at node [k] of a real field given by its values. *)
Definition mode (n : nat) (ft : transform) (g : nat -> R) (k : nat) : C := nth k (fft ft (map (fun i => RtoC (g i)) (seq 0 n))) C0.

(** Stress of a strain matrix [e] where the misfit has the weight [h]. *)
Definition node_stress (c : tensor) (misfit e : matrix) (h : R) (m j : nat) : R :=
  rsum 3 (fun k => rsum 3 (fun l => c m j k l * (e k l - misfit k l * h))).

(** [eps] (a strain matrix per node) is the strain of mechanical equilibrium
    of a body with misfit strain [misfit] times [h]: it is the symmetric
    gradient of a periodic displacement [u], and the divergence of the stress
    vanishes. *)
Definition equilibrium_strain (n : nat) (ft : transform) (c : tensor) (misfit : matrix) (h : nat -> R) (eps : nat -> matrix) : Prop :=
  exists u : nat -> nat -> C,
  (forall k a b, (k < n)%nat -> (a < 3)%nat -> (b < 3)%nat ->
     mode n ft (fun i => eps i a b) k = Cmul (RtoC (/ 2)) (Cadd (Cmul (0, 2 * PI * wave ft k b) (u k a)) (Cmul (0, 2 * PI * wave ft k a) (u k b)))) /\
  (forall k m, (k < n)%nat -> (m < 3)%nat ->
     divergence_mode (wave ft k) (fun a b => mode n ft (fun i => node_stress c misfit (eps i) (h i) a b) k) m = C0).

(** The energy 1/2 sum over the nodes of C_ijkl (eps_ij - eps*_ij h)(eps_kl - eps*_kl h). *)
Definition total_energy (n : nat) (c : tensor) (misfit : matrix) (h : nat -> R) (eps : nat -> matrix) : R :=
  rsum n (fun k => / 2 * rsum 3 (fun i => rsum 3 (fun j => rsum 3 (fun p => rsum 3 (fun q =>
    c i j p q * (eps k i j - misfit i j * h k) * (eps k p q - misfit p q * h k)))))).

Definition symmetric3 (e : matrix) : Prop := forall i j, (i < 3)%nat -> (j < 3)%nat -> e i j = e j i.
(** The stiffness tensor has the usual symmetries and resists every strain. *)
Definition stiff (c : tensor) : Prop :=
  sym_first c /\ sym_last c /\ sym_major c /\
  forall e, symmetric3 e -> (exists i j, (i < 3)%nat /\ (j < 3)%nat /\ e i j <> 0) -> 0 < energy_density c e.

(** Grids on which the frequencies are exact: valid, odd extents (no Nyquist
    frequency), two-dimensional or cubic. *)
Definition regular_grid (dom : list Z) : Prop := valid_domain dom /\ square_layout dom /\ moderate dom /\ odd_domain dom.

(** No stress couples the plane to the third axis. *)
Definition in_plane (mat : rank4) (misfit : matrix) : Prop :=
  contract_last mat misfit 2%nat 0%nat = 0 /\ contract_last mat misfit 2%nat 1%nat = 0.

(** The real part at a node. *)
Definition value (x : data) (i : nat) : R := Re (nth i x C0).

(** One where the value exceeds one half, zero elsewhere. *)
Definition solid (x : data) (i : nat) : R := if Rlt_dec (1 / 2) (value x i) then 1 else 0.

(** The interpolation function between the phases. *)
Definition weight (x : R) : R := 3 * x ^ 2 - 2 * x ^ 3.

(** The ellipsoid with half axes a, b, c. *)
Definition in_ellipsoid (a b c x y z : R) : Prop := (x / a) ^ 2 + (y / b) ^ 2 + (z / c) ^ 2 <= 1.

(** The energy of a body with the stiffness [cin] where [h] exceeds one half
    and [cout] elsewhere. *)
Definition mixed_energy (n : nat) (cin cout : tensor) (misfit : matrix) (h : nat -> R) (eps : nat -> matrix) : R :=
  rsum n (fun k => energy_density (if Rlt_dec (1 / 2) (h k) then cin else cout) (fun i j => eps k i j - misfit i j * h k)).
