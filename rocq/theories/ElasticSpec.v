(** Vocabulary for the statements about elasticity. *)
From Verif Require Export ElasticModel.
Open Scope R_scope.

Definition sym_first (t : tensor) : Prop := forall i j k l, (i < 3 -> j < 3 -> k < 3 -> l < 3 -> t i j k l = t j i k l)%nat.
Definition sym_last (t : tensor) : Prop := forall i j k l, (i < 3 -> j < 3 -> k < 3 -> l < 3 -> t i j k l = t i j l k)%nat.
Definition sym_major (t : tensor) : Prop := forall i j k l, (i < 3 -> j < 3 -> k < 3 -> l < 3 -> t i j k l = t k l i j)%nat.

Definition orthogonal (r : matrix) : Prop := meq_on 3 (mmul 3 r (mtrans r)) kron /\ meq_on 3 (mmul 3 (mtrans r) r) kron.
(** A second rank tensor in rotated coordinates. *)
Definition rotated2 (r e : matrix) : matrix := fun i j => rsum 3 (fun k => rsum 3 (fun l => r i k * r j l * e k l)).

(** Voigt's numbering of the pairs: 11, 22, 33, 23, 13, 12. *)
Definition voigt_number (i j : nat) : nat := if Nat.eqb i j then i else (6 - i - j)%nat.

(** The exact solution of a regular system of three equations with two right-hand sides. *)
Definition solves (solve : matrix -> matrix -> matrix) : Prop :=
  forall a b, det3 a <> 0 -> forall i col, (i < 3)%nat -> rsum 3 (fun j => a i j * solve a b j col) = b i col.

(** Stress: stiffness times the difference of strain and misfit strain. *)
Definition stress_mode (c : tensor) (eps : nat -> nat -> C) (misfit : matrix) (theta : C) (m j : nat) : C :=
  csum 3 (fun k => csum 3 (fun l => Cmul (RtoC (c m j k l)) (Csub (eps k l) (Cmul (RtoC (misfit k l)) theta)))).
(** Fourier transform of the divergence: multiplication by 2 pi i f. *)
Definition divergence_mode (f : nat -> R) (s : nat -> nat -> C) (m : nat) : C :=
  csum 3 (fun j => Cmul (0, 2 * PI * f j) (s m j)).
Definition regular_frequency (f : nat -> R) : Prop :=
  (exists i, (i < 3)%nat /\ / 10 ^ 10 <= Rabs (f i)) /\
  forall i, (i < 3)%nat -> / 10 ^ 10 <= Rabs (Rabs (f i) - 0.5).

(** The documented force of a perturbation: - sum over q, i, j of
    c_(comp q i j) 2 pi i f_q S_ij. *)
Definition documented_force (c : tensor) (f : nat -> R) (S : nat -> nat -> C) (comp : nat) : C :=
  Copp (csum 3 (fun q => csum 3 (fun i => csum 3 (fun j => Cmul (RtoC (c comp q i j)) (Cmul (0, 2 * PI * f q) (S i j)))))).

(** Transform of the shape times the misfit strain less the real-space strain;
    [eps] are the strains in Fourier space. *)
Definition excess_strain (n : nat) (fft ifft : (nat -> C) -> nat -> C) (misfit : matrix) (eps : nat -> nat -> nat -> C) (shape : nat -> R) (i j k : nat) : C :=
  fft (fun x => RtoC ((misfit i j - Re (ifft (fun q => eps q i j) x) / INR n) * shape x)) k.
