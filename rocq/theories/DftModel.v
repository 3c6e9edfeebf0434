(** Model of the FFTW wrapper.  The C library behind github.com/barnex/fftw is
    represented by the sum its manual documents for FFTW_FORWARD/FFTW_BACKWARD
    transforms: unnormalised, row-major (the last extent varies fastest).
    Planning and the copies through fw.Data have no other effect than writing
    the result into the argument.  float64 is exact. *)
From Verif Require Export CVec IndexModel StepModel.
From Coq Require Import Qreals.
Open Scope R_scope.

(** exp (2 pi i x), used for fftw in pfutil/fftWrap.go:19-20. *)
Definition cis (x : R) : C := (cos (2 * PI * x), sin (2 * PI * x)).

(** pfutil ProdInt for sizes that are not negative, as used in pfutil/fftWrap.go:16-24. *)
Fixpoint nprod (dims : list nat) : nat := match dims with [] => 1%nat | d :: ds => (d * nprod ds)%nat end.

(** sum over the axes of k_a j_a / n_a, for row-major offsets k and j.
    Layout of the data handed to fftw in pfutil/fftWrap.go:19-20. *)
Fixpoint phase (dims : list nat) (k j : nat) : R :=
  match dims with
  | [] => 0
  | d :: ds =>
      INR (k / nprod ds) * INR (j / nprod ds) / INR d + phase ds (k mod nprod ds) (j mod nprod ds)
  end.

(** pfutil/fftWrap.go:19-20, fftw.PlanZ2Z(n, data, data, sign, MEASURE) followed by Execute. *)
Definition dft (sign : R) (dims : list nat) (x : data) : data :=
  map (fun k => csum (nprod dims) (fun j => Cmul (nth j x C0) (cis (sign * phase dims k j)))) (seq 0 (nprod dims)).

(** pfutil/fftWrap.go:16-39 (NewFFTW, FFT, IFFT): the wrapper passes the
    domain size to FFTW unchanged and uses signs -1 and +1; 57-74 (Freq). *)
Definition fftw_dims (dom : list Z) : list nat := map Z.to_nat dom.
Definition fftw_transform (dom : list Z) : transform :=
  {| fft := dft (-1) (fftw_dims dom);
     ifft := dft 1 (fftw_dims dom);
     tfreq := fun i => match freq dom (Z.of_nat i) with Some f => map Q2R f | None => [] end |}.
