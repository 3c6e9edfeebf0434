(** Vocabulary for the statements about right-hand sides and time steppers. *)
From Verif Require Export StepModel.

(** The function [f] fills a slice of [n] entries with [v], whatever the slice
    held before. *)
Definition writes (n : nat) (f : data -> data) (v : data) : Prop :=
  length v = n /\ forall tmp, length tmp = n -> f tmp = v.

(** Node by node sum. *)
Definition node_sum (n : nat) (vs : list data) : data :=
  map (fun j => Csum (map (fun v => nth j v C0) vs)) (seq 0 n).

(** The modifiers registered for equation [i], in the order of registration. *)
Definition modifiers_for (i : nat) (regs : list (nat * (data -> data))) : list (data -> data) :=
  map snd (filter (fun m => Nat.eqb (fst m) i) regs).

(** The bricks at the start of a step: Fourier amplitudes of the fields and of
    the derived fields calculated from the real-space fields. *)
Definition spectrum (p : pde) (ft : transform) (e : env) : env :=
  {| e_fields := map (fft ft) (e_fields e); e_derived := map (fft ft) (e_derived (sync p e)) |}.

(** A transform pair on [n] nodes: lengths are kept, the normalised inverse is
    a two-sided inverse, node 0 has zero frequency and holds the sum of the field. *)
Record good_transform (n : nat) (ft : transform) : Prop := {
  gt_fft_len : forall x, length x = n -> length (fft ft x) = n;
  gt_ifft_len : forall x, length x = n -> length (ifft ft x) = n;
  gt_inverse : forall x, length x = n -> fft ft (to_real ft x) = x;
  gt_left : forall x, length x = n -> to_real ft (fft ft x) = x;
  gt_zero : forall x, length x = n -> nth 0 (fft ft x) C0 = Csum x;
  gt_freq0 : norm_sq (tfreq ft 0) = 0
}.

(** Slices never change their length. *)
Record keeps_length (n : nat) (p : pde) : Prop := {
  kl_calc : forall c e, In c (p_calc p) -> length (c e) = n;
  kl_term : forall q f e t tmp, In q (p_eqns p) -> In f (q_terms q) \/ In f (q_denum q) -> length tmp = n -> length (f e t tmp) = n;
  kl_source : forall q s t tmp, In q (p_eqns p) -> In s (q_sources q) -> length tmp = n -> length (s t tmp) = n;
  kl_mod : forall m d, In m (p_mods p) -> length d = n -> length (snd m d) = n
}.

Definition all_length (n : nat) (l : list data) : Prop := Forall (fun d => length d = n) l.

(** Spatial average of a field. *)
Definition mean (d : data) : C := Cdiv (Csum d) (RtoC (INR (length d))).

(** The derived fields are determined by the fields alone. *)
Definition derived_from_fields (p : pde) : Prop :=
  forall fs d d', length d = length (p_calc p) -> length d' = length (p_calc p) ->
  e_derived (sync p {| e_fields := fs; e_derived := d |}) = e_derived (sync p {| e_fields := fs; e_derived := d' |}).

(** The implicit coefficients do not depend on the fields. *)
Definition constant_denum (p : pde) : Prop :=
  forall e e' i t n, get_denum p e i t n = get_denum p e' i t n.

(** The bricks when the fields have Fourier amplitudes [Y]. *)
Definition at_amplitudes (p : pde) (ft : transform) (d0 : list data) (Y : list data) : env :=
  {| e_fields := Y;
     e_derived := map (fft ft) (e_derived (sync p {| e_fields := map (to_real ft) Y; e_derived := d0 |})) |}.

(** [K] is N(Y): the right-hand sides of all equations at amplitudes [Y]. *)
Definition nonlinear_part (p : pde) (ft : transform) (t : R) (d0 : list data) (Y K : list data) : Prop :=
  length K = length Y /\
  forall i y, nth_error Y i = Some y -> nth_error K i = get_rhs p (at_amplitudes p ft d0 Y) i t (length y).

(** [S] is (Y + h K) / (1 - h A), field by field and node by node. *)
Definition implicit_stage (p : pde) (h t : R) (e : env) (Y K S : list data) : Prop :=
  length S = length Y /\
  forall i y k a, nth_error Y i = Some y -> nth_error K i = Some k ->
    get_denum p e i t (length y) = Some a -> nth_error S i = Some (map3 (semi_implicit h) y k a).

(** Field [i] has conserved dynamics: its right-hand side and its implicit
    coefficient vanish at node 0 (zero frequency) whatever the fields are. *)
Definition conserved (n : nat) (p : pde) (i : nat) : Prop :=
  (forall e t r, get_rhs p e i t n = Some r -> nth 0 r C0 = C0) /\
  (forall e t a, get_denum p e i t n = Some a -> nth 0 a C0 = C0).

(** The filter does not touch the zero frequency. *)
Definition keeps_zero (filt : option (R -> R)) : Prop :=
  match filt with None => True | Some g => g 0 = 1 end.

(** Evaluating equation [i] gives the same result whether the fields before it
    have already been overwritten or not. *)
Definition unaffected_by_earlier (p : pde) (t : R) (s : env) : Prop :=
  forall i e' d, nth_error (e_fields s) i = Some d ->
    e_derived e' = e_derived s -> length (e_fields e') = length (e_fields s) ->
    (forall j, (i <= j)%nat -> nth_error (e_fields e') j = nth_error (e_fields s) j) ->
    get_rhs p e' i t (length d) = get_rhs p s i t (length d) /\
    get_denum p e' i t (length d) = get_denum p s i t (length d).

(** y + dt/6 (k1 + 2 k2 + 2 k3 + k4) *)
Definition combine4 (dt : R) (y k1 k2 k3 k4 : C) : C :=
  Cadd y (Cmul (RtoC (dt / 6)) (Cadd k1 (Cadd (Cmul (RtoC 2) k2) (Cadd (Cmul (RtoC 2) k3) k4)))).

(** A term of an equation whose field is conserved: it fills the slice and
    leaves zero at node 0. *)
Definition vanishes_at_zero (n : nat) (f : term) : Prop :=
  forall e t tmp, length tmp = n -> nth 0 (f e t tmp) C0 = C0.
