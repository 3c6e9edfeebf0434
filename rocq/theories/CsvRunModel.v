(** Model of a run that saves its fields with CsvIO. *)
From Coq Require Import String.
From Verif Require Export FileModel SolverModel SimModel.
From Coq Require Import Reals.

(** Files as records (see FileModel.v). *)
Definition tables := str -> option records.
(** os.Create of pf/fileIO.go:186 and the rows written after it. *)
Definition write_table (fs : tables) (name : str) (r : records) : tables := fun f => if str_eqb f name then Some r else fs f.

(** pf/fileIO.go:107. *)
Definition csv_name (prefix : str) (epoch : Z) : str := prefix ++ lit "_" ++ dec epoch ++ lit ".csv".
(** pf/fileIO.go:108-112: names and real parts of the fields.  [frac] gives the
    rational number a real part is. *)
Definition csv_fields (frac : R -> Q) (names : list str) (e : env) : list (str * list Q) :=
  combine names (map (map (fun z => frac (Re z))) (e_fields e)).
(** pf/fileIO.go:106-114, SaveFields; None: panic.  Without fields SaveCsv
    returns before it creates the file (pf/fileIO.go:168-170). *)
Definition csv_save_fields (frac : R -> Q) (names : list str) (prefix : str) (dom : option (list Z)) (epoch : Z) (e : env) (fs : tables) : option tables :=
  match save_csv (csv_fields frac names e) dom with
  | FileModel.Panic => None
  | FileModel.Nothing => Some fs
  | FileModel.Written r => Some (write_table fs (csv_name prefix epoch) r)
  end.
(** pf/fileIO.go:106-114 as the callback with number [c] of the solver
    (pf/solver.go:111-113): the files after the run; None: the run panics. *)
Fixpoint tables_after (frac : R -> Q) (names : list str) (prefix : str) (dom : option (list Z)) (c : nat) (tr : list (event (env * nat))) (fs : tables) : option tables :=
  match tr with
  | [] => Some fs
  | ECallback k epoch s :: tr' =>
      if Nat.eqb k c
      then match csv_save_fields frac names prefix dom epoch (fst s) fs with
           | Some fs' => tables_after frac names prefix dom c tr' fs'
           | None => None
           end
      else tables_after frac names prefix dom c tr' fs
  | _ :: tr' => tables_after frac names prefix dom c tr' fs
  end.
(** pf/fileIO.go:117-151, LoadCSV of a file: names and data. *)
Definition load_table (fs : tables) (name : str) : option (list (str * list Q)) :=
  match fs name with Some r => load_csv r | None => None end.
