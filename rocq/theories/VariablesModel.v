(** Model of AllVariableNames. *)
From Verif Require Export CliModel RegistryModel.

(** pf/model.go:272-280, AllVariableNames: the keys of the map of bricks, which
    hold fields (143), scalars (148) and derived fields (192, 341, 417); [order]
    is the order in which the map is walked. *)
Definition all_variable_names (order : list str -> list str) (m : mstate) : list str :=
  order (distinct (all_field_names (ms_names m) ++ pm_scalars (ms_names m))).
