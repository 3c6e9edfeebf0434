(** Small functions beside the larger models. *)
From Verif Require Import StrModel CliModel DbModel GradModel.
From Coq Require Import Reals.
From Verif Require Import Complex.

(** cmd/attr.go:88-100, listUniqueAttributes: UNION of the keys of both tables,
    which drops repetitions; the order is that of SQLite. *)
Definition unique_attributes (d : db) : list str :=
  nodup (list_eq_dec Ascii.ascii_dec) (map ar_key (t_attr d) ++ map tr_key (t_text d)).

(** cmd/export.go:269-280, largestTimestep: MAX(timestep) of one simulation,
    like pf/database.go:420-430. *)
Definition largest_timestep (d : db) (sim : Z) : Z := last_step sim d.

(** pf/negative_value_penalty.go:24-26, Evaluate; [v] is the value of the field
    at the node. *)
Definition penalty_evaluate (prefactor : R) (expo : nat) (v : C) : C := RtoC (penalty prefactor expo (Re v)).
(** pf/negative_value_penalty.go:33-39, NewDefaultNegativeValuePenalty. *)
Definition default_penalty : C -> C := penalty_evaluate 1500 3.
