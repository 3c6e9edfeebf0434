(** Properties C07 and C08: the Fourier transform. *)
From Verif Require Import DftModel DftSpec DftProofs.
Open Scope R_scope.

(** C07. Transforming back and dividing by the number of nodes restores every
    field, and the same the other way round.  Any number of dimensions. *)
Theorem C07_transform_round_trip : forall dom x,
  Forall (fun d => (0 < d)%Z) dom -> length x = nodes dom ->
  to_real (fftw_transform dom) (fft (fftw_transform dom) x) = x /\
  fft (fftw_transform dom) (to_real (fftw_transform dom) x) = x.
Proof. exact fftw_inverse. Qed.
Print Assumptions C07_transform_round_trip.

(** The transform satisfies everything the stepper theorems (C21-C24) and the
    dimer theorems (C26-C29) assume about it: linear, two-sided inverse, sum
    at node 0, Parseval. *)
Theorem C07_transform_is_unitary : forall dom,
  valid_domain dom -> unitary_transform (nodes dom) (fftw_transform dom).
Proof. exact fftw_unitary. Qed.
Print Assumptions C07_transform_is_unitary.

(** For a real field the amplitude at ConjugateNode(k) is the conjugate of the
    amplitude at k: two dimensions, and three dimensions when the extents are
    equal (or there is one layer). *)
Theorem C07_real_symmetry_partial : forall dom x k m,
  valid_domain dom -> square_layout dom -> (k < nodes dom)%nat ->
  real_field x -> conjugate_node dom (Z.of_nat k) = Some m ->
  nth (Z.to_nat m) (fft (fftw_transform dom) x) C0 = Cconj (nth k (fft (fftw_transform dom) x) C0).
Proof. exact fft_real_symmetry. Qed.
Print Assumptions C07_real_symmetry_partial.

(** It fails on a 2 x 2 x 4 domain. *)
Theorem C07_real_symmetry_noncubic_refuted : exists dom x k m,
  valid_domain dom /\ (k < nodes dom)%nat /\ length x = nodes dom /\ real_field x /\
  conjugate_node dom (Z.of_nat k) = Some m /\
  nth (Z.to_nat m) (fft (fftw_transform dom) x) C0 <> Cconj (nth k (fft (fftw_transform dom) x) C0).
Proof. exact real_symmetry_3d_refuted. Qed.
Print Assumptions C07_real_symmetry_noncubic_refuted.

Example C07_nonvacuous : valid_domain [4; 3]%Z /\ square_layout [4; 3]%Z /\ valid_domain [3; 3; 3]%Z /\ square_layout [3; 3; 3]%Z /\
  nodes [4; 3]%Z = 12%nat /\ conjugate_node [4; 3]%Z (Z.of_nat 4) = Some 11%Z.
Proof.
  split; [split; [left; reflexivity|repeat constructor]|]. split; [exact I|].
  split; [split; [right; reflexivity|repeat constructor]|]. split; [right; split; reflexivity|]. split; reflexivity.
Qed.

(** C08. The value stored at node k is the amplitude of the frequency Freq(k)
    with respect to the node positions given by Pos. *)
Theorem C08_freq_names_mode_partial : forall dom x k f,
  valid_domain dom -> square_layout dom -> (k < nodes dom)%nat ->
  freq dom (Z.of_nat k) = Some f ->
  nth k (fft (fftw_transform dom) x) C0 = amplitude dom f x.
Proof. exact fft_amplitude. Qed.
Print Assumptions C08_freq_names_mode_partial.

(** A plane wave with the frequency of node k is stored at node k alone. *)
Theorem C08_plane_wave_partial : forall dom k f,
  valid_domain dom -> square_layout dom -> (k < nodes dom)%nat ->
  freq dom (Z.of_nat k) = Some f ->
  forall m, (m < nodes dom)%nat ->
  nth m (fft (fftw_transform dom) (plane_wave dom f)) C0 = if Nat.eqb m k then RtoC (INR (nodes dom)) else C0.
Proof. exact plane_wave_transform. Qed.
Print Assumptions C08_plane_wave_partial.

(** In three dimensions with at least two nodes along every axis, Freq names
    the stored modes exactly when the domain is a cube. *)
Theorem C08_three_dimensions_iff_cubic : forall d0 d1 d2,
  (2 <= d0)%Z -> (2 <= d1)%Z -> (2 <= d2)%Z ->
  ((forall x k f, length x = nodes [d0; d1; d2] -> (k < nodes [d0; d1; d2])%nat ->
      freq [d0; d1; d2] (Z.of_nat k) = Some f ->
      nth k (fft (fftw_transform [d0; d1; d2]) x) C0 = amplitude [d0; d1; d2] f x)
   <-> d0 = d1 /\ d1 = d2).
Proof. exact layout_3d_iff. Qed.
Print Assumptions C08_three_dimensions_iff_cubic.

Example C08_nonvacuous : exists f, freq [4; 3]%Z (Z.of_nat 4) = Some f /\ (4 < nodes [4; 3]%Z)%nat /\ square_layout [4; 3]%Z.
Proof. eexists. split; [reflexivity|]. split; [vm_compute; lia|exact I]. Qed.
