(** Vocabulary for the statements about energies, filters and multipliers. *)
From Verif Require Export EnergyModel StepSpec DftSpec.
Open Scope R_scope.

(** The free energy of ideal mixing, (1 + n) ln (1 + n) - n. *)
Definition mixing_energy (n : R) : R := (1 + n) * ln (1 + n) - n.

(** 1, or the Fourier symbol of the Laplacian at node [j]. *)
Definition symbol (lap : bool) (ft : transform) (j : nat) : C := if lap then RtoC (lap_symbol (tfreq ft j)) else C1.

(** The field u + eps v. *)
Definition perturb (u v : data) (eps : R) : data := map2 (fun a b => Cadd a (Cmul (RtoC eps) b)) u v.

(** sum over the nodes of g_i v_i for real fields *)
Definition pairing (n : nat) (g v : data) : R := rsum n (fun i => Re (nth i g C0) * Re (nth i v C0)).

(** The total of the (real part of the) first field. *)
Definition volume (nnodes : nat) (e : env) : R := rsum nnodes (fun i => Re (nth i (nth 0 (e_fields e) []) C0)).

(** The total rate of change that the terms [rest] give the field at the start
    of a step: the zero-frequency component of the right-hand side without
    the multiplier term. *)
Definition forcing (calc : env -> data) (rest den : list term) (ft : transform) (nnodes : nat) (t : R) (e : env) : R :=
  let p := {| p_calc := [calc]; p_eqns := [{| q_terms := rest; q_denum := den; q_sources := [] |}]; p_mods := [] |} in
  match get_rhs p (spectrum p ft e) 0 t nnodes with Some r => Re (nth 0 r C0) | None => 0 end.

(** The total of the indicator at the start of a step. *)
Definition indicator_total (calc : env -> data) (e : env) : R := Re (Csum (calc e)).

(** One field and one derived field, both on [n] nodes. *)
Definition one_field (n : nat) (e : env) : Prop := all_length n (e_fields e) /\ length (e_fields e) = 1%nat /\ length (e_derived e) = 1%nat.

(** The implicit terms do not touch the zero frequency, and everything keeps
    the number of nodes. *)
Record lp_ok (n : nat) (calc : env -> data) (rest den : list term) (ft : transform) : Prop := {
  lo_nodes : (0 < n)%nat;
  lo_ft : good_transform n ft;
  lo_calc : forall e, length (calc e) = n;
  lo_rest : forall f e t tmp, In f rest -> length tmp = n -> length (f e t tmp) = n;
  lo_den : forall f e t tmp, In f den -> length tmp = n -> length (f e t tmp) = n /\ nth 0 (f e t tmp) C0 = C0
}.
