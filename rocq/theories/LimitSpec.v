(** Vocabulary for the statements about the limit of small time steps for
    equations that need not be linear. *)
From Coq Require Import Reals.
From Verif Require Import FileModel.
From Verif Require Export SimSpec ConvergeSpec.
Open Scope R_scope.

(** Lipschitz on bounded sets. *)
Definition lipschitz (g : C -> C) : Prop :=
  forall r, exists K, forall z w, Cnorm2 z <= r -> Cnorm2 w <= r -> Cnorm2 (Csub (g z) (g w)) <= K * Cnorm2 (Csub z w).

(** [nf] fields on [n] nodes with values in the ball of radius [r] (squared). *)
Definition shaped (nf n : nat) (fs : list data) : Prop := length fs = nf /\ all_length n fs.
Definition at_ (fs : list data) (i j : nat) : C := nth j (nth i fs []) C0.
Definition bounded_by (nf n : nat) (r : R) (fs : list data) : Prop := forall i j, (i < nf)%nat -> (j < n)%nat -> Cnorm2 (at_ fs i j) <= r.
Definition close (nf n : nat) (e : R) (fs gs : list data) : Prop :=
  forall i j, (i < nf)%nat -> (j < n)%nat -> Cnorm2 (Csub (at_ fs i j) (at_ gs i j)) <= e.

(** The equations contain no registered terms, and what the user supplies is
    Lipschitz: the powers that occur in the equations, the registered functions
    (as functions of the fields) and the sources (as functions of time). *)
Record smooth (L : lang) (cs : list call) (es : list eqtext) (n : nat) (lib : library) (T : R) : Prop := {
  sm_products : forall q x, In q es -> In x (signed_items q) -> exists t, fst x = IProduct t;
  sm_power : forall q t s f, In q es -> In (IProduct t, s) (signed_items q) -> In f (field_factors L t) ->
    lipschitz (fun z => lb_pow lib z (factor_power f));
  sm_calc : forall name c r, lb_calc lib name = Some c -> exists K, forall fs gs e,
    shaped (length (l_fields L)) n fs -> shaped (length (l_fields L)) n gs ->
    bounded_by (length (l_fields L)) n r fs -> bounded_by (length (l_fields L)) n r gs -> close (length (l_fields L)) n e fs gs ->
    forall j, (j < n)%nat -> Cnorm2 (Csub (nth j (c fs) C0) (nth j (c gs) C0)) <= K * e;
  sm_source : forall i s k, In s (sources_of i cs) -> (k < n)%nat -> exists K, forall t t', 0 <= t <= T -> 0 <= t' <= T ->
    Cnorm2 (Csub (nth k (lb_source lib s t) C0) (nth k (lb_source lib s t') C0)) <= K * (t - t') ^ 2
}.

(** The fields [U] as functions of time solve the equations as they are
    written, with their sources, from time 0 to time [T]. *)
Definition solution_until (L : lang) (cs : list call) (es : list eqtext) (n : nat) (ft : transform) (lib : library) (T : R) (U : R -> list data) : Prop :=
  (forall t, shaped (length (l_fields L)) n (U t))
  /\ forall t i q k, 0 <= t <= T -> nth_error es i = Some q -> (k < n)%nat ->
     exists M, written L cs n ft lib (U t) {| e_fields := map (fft ft) (U t); e_derived := [] |} t q k M
     /\ changes (fun s => amplitude_of ft (U s) i k) t (Cadd M (source_sum cs lib t i k)).
