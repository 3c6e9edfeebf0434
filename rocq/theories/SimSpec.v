(** Vocabulary for the statements about simulations of declared models. *)
From Verif Require Import FileModel.
From Verif Require Export RegistrySpec StepSpec SimModel.
Open Scope nat_scope.

(** Calculators belong to the registered functions and fill their slices. *)
Record good_library (L : lang) (n : nat) (lib : library) : Prop := {
  lb_functions : forall name, In name (l_functions L) <-> exists c, lb_calc lib name = Some c;
  lb_calc_length : forall name c fs, lb_calc lib name = Some c -> length (c fs) = n;
  lb_source_length : forall s t, length (lb_source lib s t) = n
}.

(** Every registered term brings at most one derived field. *)
Definition single_fields (cs : list call) : Prop := forall k name t ds, In (CTerm k name t ds) cs -> length ds <= 1.

(** [val name] is the field or function of this name in real space. *)
Definition values (L : lang) (lib : library) (fields : list data) (val : str -> nat -> C) : Prop :=
  (forall i name d, nth_error (l_fields L) i = Some name -> nth_error fields i = Some d -> forall j, val name j = nth j d C0)
  /\ (forall name c, In name (l_functions L) -> lb_calc lib name = Some c -> forall j, val name j = nth j (c fields) C0).

(** Fourier amplitude number [k] of the values [x] on [n] nodes. *)
Definition amplitude_at (n : nat) (ft : transform) (k : nat) (x : nat -> C) : C := nth k (fft ft (map x (seq 0 n))) C0.

(** [M] is the right-hand side of equation [q] as it is written, at node [k] of
    the Fourier domain, when the fields have the given values; [E] is what
    registered terms see. *)
Definition written (L : lang) (cs : list call) (n : nat) (ft : transform) (lib : library) (fields : list data) (E : env) (t : R)
    (q : eqtext) (k : nat) (M : C) : Prop :=
  exists val implicit explicit linear nonlinear, values L lib fields val
  /\ (forall name s, registered cs KImplicit name s -> implicit name = nth k (lb_pure lib s E t) C0)
  /\ (forall name s, registered cs KExplicit name s -> explicit name = nth k (lb_pure lib s E t) C0)
  /\ (forall name s, registered cs KMixed name s ->
        linear name = nth k (lb_linear lib s E t) C0 /\ nonlinear name = nth k (lb_nonlinear lib s E t) C0)
  /\ M = rhs_meaning L (lb_pow lib) val (amplitude_at n ft k) (lb_scalar lib) implicit explicit linear nonlinear (tfreq ft k)
           (amplitude_at n ft k (val (q_field q))) q.

(** The sources of equation [i] at node [k]. *)
Definition source_sum (cs : list call) (lib : library) (t : R) (i k : nat) : C :=
  Csum (map (fun s => nth k (lb_source lib s t) C0) (sources_of i cs)).

(** Fields and slices of the right sizes. *)
Definition fits (L : lang) (n : nat) (m : mstate) (e : env) : Prop :=
  length (e_fields e) = length (l_fields L) /\ all_length n (e_fields e)
  /\ length (e_derived e) = length (pm_derived (ms_names m)).

(** The calls and the equations they add. *)
Record declared (L : lang) (cs : list call) (es : list eqtext) : Prop := {
  dc_lang : good_lang L;
  dc_names : declares cs L;
  dc_first : fields_first cs;
  dc_sources : sources_in_range cs;
  dc_noinit : ~ In CInit cs;
  dc_single : single_fields cs;
  dc_texts : Forall2 (fun s e => strip_spaces s = eq_text e) (equations_of cs) es;
  dc_good : Forall (good_equation L) es
}.

(** At the given time the right-hand sides of all equations, evaluated with
    these fields, are zero at every node of the Fourier domain: the explicit
    part and the coefficient of the field times the field cancel. *)
Definition balanced (n : nat) (p : pde) (ft : transform) (t : R) (e : env) : Prop :=
  let E := spectrum p ft e in
  forall i y r a, nth_error (e_fields E) i = Some y -> get_rhs p E i t n = Some r -> get_denum p E i t n = Some a ->
  forall k, k < n -> Cadd (nth k r C0) (Cmul (nth k a C0) (nth k y C0)) = C0.

(** The denominators 1 - h a of a step are not zero. *)
Definition solvable (n : nat) (p : pde) (ft : transform) (h t : R) (e : env) : Prop :=
  forall i a k, get_denum p (spectrum p ft e) i t n = Some a -> k < n -> Csub C1 (Cmul (RtoC h) (nth k a C0)) <> C0.

(** The coefficients of implicit and mixed terms do not depend on the fields
    (what Init checks for implicit terms). *)
Definition field_independent (cs : list call) (lib : library) : Prop :=
  (forall name s E E' t, registered cs KImplicit name s -> lb_pure lib s E t = lb_pure lib s E' t)
  /\ (forall name s E E' t, registered cs KMixed name s -> lb_linear lib s E t = lb_linear lib s E' t).

(** [r + a s] is the right-hand side of equation [q] (number [i]) as written,
    with its sources, at node [k] when the fields have the amplitudes [S]. *)
Definition as_written (L : lang) (cs : list call) (n : nat) (ft : transform) (lib : library) (p : pde) (d0 : list data) (t : R)
    (q : eqtext) (i k : nat) (S : list data) (r a : C) : Prop :=
  forall M, written L cs n ft lib (map (to_real ft) S) (at_amplitudes p ft d0 S) t q k M ->
  Cadd r (Cmul a (nth k (nth i S []) C0)) = Cadd M (source_sum cs lib t i k).
