(** Vocabulary for the statements about the saddle search of models with one
    field. *)
From Coq Require Import Reals.
From Verif Require Import FileModel.
From Verif Require Export SddSpec LinearSpec.
Open Scope R_scope.

(** The state with the field moved by [c] lengths of the dimer along the
    orientation; -1/2 and 1/2 are the ends of the dimer. *)
Definition dimer_point (s : sdd) (c : R) (e : env) : env :=
  {| e_fields := map (fun d => map2 (fun z x => Cadd z (RtoC (c * dimer_length s (sdd_time s) * x))) d (s_orient s)) (e_fields e);
     e_derived := e_derived e |}.

(** [F k] is the right-hand side of the equation [q] of the first field as it is
    written, with its sources, at node [k] of the Fourier domain. *)
Definition total_rhs (L : lang) (cs : list call) (n : nat) (ft : transform) (lib : library) (p : pde) (t : R) (q : eqtext) (e : env) (F : nat -> C) : Prop :=
  forall k, (k < n)%nat -> exists M, written L cs n ft lib (e_fields e) (spectrum p ft e) t q k M /\ F k = Cadd M (source_sum cs lib t 0 k).

(** Amplitude number [k] of the orientation. *)
Definition orient_mode (ft : transform) (s : sdd) (k : nat) : C := nth k (fft ft (map RtoC (s_orient s))) C0.

(** The search is set up for one field on [n] nodes. *)
Record searching (n : nat) (s : sdd) (e : env) : Prop := {
  se_ready : dimer_ready n 1 s e;
  se_init : s_ready s = true;
  se_dt : / 10 ^ 16 <= s_dt s
}.

(** ** Linear models *)

(** Coefficient of wave number [k] in a linear equation; [sg] lists them. *)
Definition real_symbols (L : lang) (lib : library) (n : nat) (ft : transform) (q : eqtext) (sg : nat -> R) : Prop :=
  forall k, (k < n)%nat -> symbol L lib (tfreq ft k) q = RtoC (sg k).

(** Part of wave number [k] in the orientation; the parts add up to one. *)
Definition share (n : nat) (ft : transform) (s : sdd) (k : nat) : R := Cnorm2 (orient_mode ft s k) / INR n.

(** Wave number [k0] grows, all others decay. *)
Record one_unstable (n : nat) (sg : nat -> R) (k0 : nat) (gam B : R) : Prop := {
  ou_node : (k0 < n)%nat;
  ou_pos : 0 < gam;
  ou_up : gam <= sg k0;
  ou_down : forall k, (k < n)%nat -> k <> k0 -> sg k <= - gam;
  ou_bound : forall k, (k < n)%nat -> Rabs (sg k) <= B
}.
