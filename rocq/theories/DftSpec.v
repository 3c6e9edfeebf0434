(** Vocabulary for the statements about the Fourier transform. *)
From Verif Require Export DftModel StepSpec IndexSpec.
From Coq Require Import Qreals.
Open Scope R_scope.

(** f . p for a frequency and a node position *)
Fixpoint freq_dot (f : list Q) (p : list Z) : R :=
  match f, p with q :: f', x :: p' => Q2R q * IZR x + freq_dot f' p' | _, _ => 0 end.

Definition nodes (dom : list Z) : nat := Z.to_nat (num_nodes dom).

(** The amplitude of the field [x] at frequency [f]:
    the sum over all nodes of x exp(-2 pi i f . position). *)
Definition amplitude (dom : list Z) (f : list Q) (x : data) : C :=
  csum (nodes dom) (fun j =>
    match IndexModel.pos dom (Z.of_nat j) with
    | Some p => Cmul (nth j x C0) (cis (- freq_dot f p))
    | None => C0
    end).

(** exp(2 pi i f . position) at every node *)
Definition plane_wave (dom : list Z) (f : list Q) : data :=
  map (fun j => match IndexModel.pos dom (Z.of_nat j) with Some p => cis (freq_dot f p) | None => C0 end)
      (seq 0 (nodes dom)).

(** The field that is 1 at node [j] and 0 elsewhere. *)
Definition unit_at (n j : nat) : data := map (fun i => if Nat.eqb i j then C1 else C0) (seq 0 n).

Definition real_field (x : data) : Prop := Forall (fun z => Im z = 0) x.

(** Two-dimensional, or three-dimensional with equal extents or a single layer. *)
Definition square_layout (dom : list Z) : Prop :=
  match dom with
  | [_; _] => True
  | [d0; d1; d2] => d2 = 1%Z \/ (d0 = d1 /\ d1 = d2)
  | _ => False
  end.

(** sum of x_i conj(y_i) *)
Definition inner (n : nat) (x y : data) : C := csum n (fun i => Cmul (nth i x C0) (Cconj (nth i y C0))).

(** A good transform that is linear and preserves inner products up to n. *)
Record unitary_transform (n : nat) (ft : transform) : Prop := {
  ut_good : good_transform n ft;
  ut_fft_add : forall a x y, length x = n -> length y = n ->
    fft ft (map2 (fun u v => Cadd u (Cmul a v)) x y) = map2 (fun u v => Cadd u (Cmul a v)) (fft ft x) (fft ft y);
  ut_ifft_add : forall a x y, length x = n -> length y = n ->
    ifft ft (map2 (fun u v => Cadd u (Cmul a v)) x y) = map2 (fun u v => Cadd u (Cmul a v)) (ifft ft x) (ifft ft y);
  ut_parseval : forall x y, length x = n -> length y = n ->
    inner n (fft ft x) (fft ft y) = Cmul (RtoC (INR n)) (inner n x y)
}.
