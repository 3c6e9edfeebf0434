(** Vocabulary for the statements about derivatives of fields. *)
From Verif Require Export GradModel RealSpec.
From Coq Require Import Qreals.
Open Scope R_scope.

(** No extent is so large that two frequencies differ by less than 1e-10. *)
Definition moderate (dom : list Z) : Prop := Forall (fun d => (d <= 5000000000)%Z) dom.

(** The trigonometric interpolant of the field [x] at the point [r] (in units
    of the node spacing): (1/n) sum_k amplitude(f_k) exp(2 pi i f_k . r). *)
Definition interp (dom : list Z) (x : data) (r : list R) : C :=
  Cdiv (csum (nodes dom) (fun k => match freq dom (Z.of_nat k) with
                                   | Some f => Cmul (amplitude dom f x) (cis (rdot (map Q2R f) r))
                                   | None => C0 end)) (RtoC (INR (nodes dom))).

(** The point [r] moved by [h] along axis [d]. *)
Fixpoint along (d : nat) (h : R) (r : list R) : list R :=
  match r, d with
  | [], _ => []
  | x :: r', O => (x + h) :: r'
  | x :: r', S d' => x :: along d' h r'
  end.

(** The point where node [j] sits. *)
Definition node_point (dom : list Z) (j : nat) : list R :=
  match IndexModel.pos dom (Z.of_nat j) with Some p => map IZR p | None => [] end.

(** [g] has second derivative [l] at 0. *)
Definition second_derivative (g : R -> R) (l : R) : Prop :=
  exists g', (forall h, derivable_pt_lim g h (g' h)) /\ derivable_pt_lim g' 0 l.

(** Node by node product and sum over the directions. *)
Definition times (a b : data) : data := map2 Cmul a b.
Definition sum_over (dim n : nat) (v : nat -> data) : data :=
  map (fun j => csum dim (fun d => nth j (v d) C0)) (seq 0 n).

(** [F] reads only the fields. *)
Definition reads_fields {A} (f : env -> A) : Prop := forall e e', e_fields e = e_fields e' -> f e = f e'.

(** The values of [F] at the [n] nodes. *)
Definition values (n : nat) (F : nat -> env -> C) (e : env) : data := map (fun i => F i e) (seq 0 n).

(** The spectral Laplacian (pf/diffOp.go applied between transforms). *)
Definition laplacian (ft : transform) (u : data) : data :=
  to_real ft (mapi_from 0 (fun j z => lap_eval (tfreq ft j) 1 z) (fft ft u)).

(** Ohm's law: component [d2] of the current in the electric field
    external - grad phi, for conductivities in Voigt order. *)
Definition ohm_current (ft : transform) (ext : list R) (sigma : nat -> nat -> nat -> R) (dim n : nat) (phi : data) (d2 : nat) : data :=
  map (fun i => csum dim (fun d => Cmul (RtoC (sigma i d d2)) (Csub (RtoC (nth d ext 0)) (nth i (gradient ft d false phi) C0)))) (seq 0 n).

(** The conductivity tensor stored as s_xx, s_yy, s_xy or
    s_xx, s_yy, s_zz, s_yz, s_xz, s_xy. *)
Definition tensor_of (dim : nat) (s : list R) (d d2 : nat) : R :=
  let v := fun i => nth i s 0 in
  match dim, d, d2 with
  | 2%nat, 0%nat, 0%nat => v 0%nat | 2%nat, 1%nat, 1%nat => v 1%nat
  | 2%nat, 0%nat, 1%nat => v 2%nat | 2%nat, 1%nat, 0%nat => v 2%nat
  | 3%nat, 0%nat, 0%nat => v 0%nat | 3%nat, 1%nat, 1%nat => v 1%nat | 3%nat, 2%nat, 2%nat => v 2%nat
  | 3%nat, 1%nat, 2%nat => v 3%nat | 3%nat, 2%nat, 1%nat => v 3%nat
  | 3%nat, 0%nat, 2%nat => v 4%nat | 3%nat, 2%nat, 0%nat => v 4%nat
  | 3%nat, 0%nat, 1%nat => v 5%nat | 3%nat, 1%nat, 0%nat => v 5%nat
  | _, _, _ => 0
  end.

(** The order given in the documentation: s_xx, s_yy, s_zz, s_xz, s_yz, s_xy. *)
Definition documented_tensor (s : list R) (d d2 : nat) : R :=
  tensor_of 3 [nth 0 s 0; nth 1 s 0; nth 2 s 0; nth 4 s 0; nth 3 s 0; nth 5 s 0] d d2.

(** Every extent is odd: there is no Nyquist frequency. *)
Definition odd_domain (dom : list Z) : Prop := Forall (fun d => Z.odd d = true) dom.

(** The documented operator K_ij d^2/dx_i dx_j at the node of frequency [f]
    (every derivative contributes a factor 2 pi i f). *)
Definition hessian_symbol (dim : nat) (K : nat -> nat -> R) (f : list R) : R :=
  rsum dim (fun i => rsum dim (fun j => - (4 * PI * PI) * K i j * nth i f 0 * nth j f 0)).

(** The documented penalty: P (|x|^p - x^p). *)
Definition penalty_function (P : R) (p : nat) (x : R) : R := P * (Rabs x ^ p - x ^ p).

(** A brick that shows amplitudes of a real field. *)
Definition real_brick (dom : list Z) (nf nd : nat) (u : brick) : Prop :=
  forall e, sized nf nd e -> hermitian_fields dom (e_fields e) -> hermitian_fields dom (e_derived e) ->
    length (u e) = nodes dom /\ hermitian dom (u e).
