(** Vocabulary for the statements about the equation text. *)
From Coq Require Export Sorting.Permutation.
From Verif Require Export StrModel.

(** A written sum: an optional leading sign, a first term and further terms,
    each preceded by its sign. *)
Record sum_text := { lead : option ascii; term0 : str; more : list (ascii * str) }.

Definition sign_text (d : option ascii) : str := match d with Some c => [c] | None => [] end.
Definition render (s : sum_text) : str :=
  sign_text (lead s) ++ term0 s ++ flat_map (fun st => fst st :: snd st) (more s).

(** A non-empty term text without any of the separators. *)
Definition plain (seps : list ascii) (t : str) : Prop :=
  t <> [] /\ forall c, In c seps -> ~ In c t.

Definition well_formed (seps : list ascii) (s : sum_text) : Prop :=
  (forall c, lead s = Some c -> In c seps) /\ plain seps (term0 s) /\
  Forall (fun st => In (fst st) seps /\ plain seps (snd st)) (more s).

(** The terms with the sign written in front of each. *)
Definition signed_terms (s : sum_text) : list (str * option ascii) :=
  (term0 s, lead s) :: map (fun st => (snd st, Some (fst st))) (more s).

(** The product text a*b*c. *)
Fixpoint product_text (l : list str) : str :=
  match l with [] => [] | [x] => x | x :: l' => x ++ "*"%char :: product_text l' end.

(** ** Operators in front of a name *)

Inductive op := Neg | Lap (k : nat) | Times.

(** The operators the language knows, with their spelling. *)
Definition spelling (o : op) : option str :=
  match o with
  | Neg => Some ("-"%string : str)
  | Lap 1 => Some ("LAP"%string : str)
  | Lap 2 => Some ("LAP^2"%string : str)
  | Lap 4 => Some ("LAP^4"%string : str)
  | Lap _ => None
  | Times => Some ("*"%string : str)
  end.

Definition starts_with (s p : str) : Prop := exists r, s = p ++ r.

(** Names a user may write after operators: they begin neither with an
    operator nor with a caret. *)
Definition bare_name (s : str) : Prop :=
  (forall o p, spelling o = Some p -> ~ starts_with s p) /\ ~ starts_with s ("^"%string : str).

Fixpoint spelled (os : list op) (text : list str) : Prop :=
  match os, text with
  | [], [] => True
  | o :: os', p :: text' => spelling o = Some p /\ spelled os' text'
  | _, _ => False
  end.

(** Number of minus signs and total power of the Laplacian. *)
Fixpoint minus_count (os : list op) : nat :=
  match os with [] => 0 | Neg :: os' => S (minus_count os') | _ :: os' => minus_count os' end.
Fixpoint lap_power (os : list op) : nat :=
  match os with [] => 0 | Lap k :: os' => k + lap_power os' | _ :: os' => lap_power os' end.

(** ** Left-hand sides *)

Definition derivative_of (name : str) : str := ("d"%string : str) ++ name ++ ("/dt"%string : str).
Definition equation (name rhs : str) : str := derivative_of name ++ ("="%string : str) ++ rhs.
(** "/dt" does not occur in the name (nor overlaps its end). *)
Definition dt_free (name : str) : Prop :=
  forall a b, name ++ ("/d"%string : str) <> a ++ ("/dt"%string : str) ++ b.
