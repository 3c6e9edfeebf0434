(** Model of a run that saves its fields with Float64IO and of fields that are
    loaded from these files. *)
From Verif Require Export FileModel SolverModel SimModel.

(** pf/fileIO.go:56-62 as a callback of the solver (pf/solver.go:111-113): the
    calls of SaveFields of the callback with number [c] during a run, with the
    names of the fields and the patterns [bits] of their real and imaginary
    parts. *)
Definition bit_fields (bits : R -> N) (names : list str) (e : env) : list bfield :=
  combine names (map (map (fun z => (bits (Re z), bits (Im z)))) (e_fields e)).
Definition saves_of (bits : R -> N) (names : list str) (c : nat) (tr : list (event (env * nat))) : list (Z * list bfield) :=
  flat_map (fun ev => match ev with
                      | ECallback k epoch s => if Nat.eqb k c then [(epoch, bit_fields bits names (fst s))] else []
                      | _ => []
                      end) tr.
Definition files_after (bits : R -> N) (names : list str) (prefix : str) (c : nat) (tr : list (event (env * nat))) (fs : files) : files :=
  save_epochs prefix (saves_of bits names c tr) fs.

(** pf/fileIO.go:66-83, LoadFloat64, for the files of one epoch; the numbers
    become the real parts of complex data (pf/model.go:44-57, NewField). *)
Definition loaded (value : N -> R) (names : list str) (prefix : str) (epoch : Z) (fs : files) : option (list data) :=
  all_some (map (fun name => match load_float64 fs (bin_name prefix name epoch) with
                             | Some b => Some (map (fun v => RtoC (value v)) b)
                             | None => None
                             end) names).
