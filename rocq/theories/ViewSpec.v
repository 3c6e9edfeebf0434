(** Vocabulary for the statements about slice wrappers. *)
From Verif Require Export ViewModel.

(** The elements of an array inside a window. *)
Definition inside {A} (w : window) (a : list A) : list A := firstn (w_len w) (skipn (w_off w) a).
(** The array with the elements inside the window replaced. *)
Definition with_inside {A} (w : window) (a new : list A) : list A := firstn (w_off w) a ++ new ++ skipn (w_off w + w_len w) a.
(** The window lies in the array. *)
Definition window_of {A} (w : window) (a : list A) : Prop := (w_off w + w_len w <= length a)%nat.

(** The last value written to element [i], if any. *)
Definition last_write (ws : list (Z * R)) (i : Z) : option R :=
  option_map snd (find (fun x => Z.eqb (fst x) i) (rev ws)).

(** Combine two lists element by element. *)
Fixpoint zip {A B D} (f : A -> B -> D) (x : list A) (y : list B) : list D :=
  match x, y with a :: x', b :: y' => f a b :: zip f x' y' | _, _ => [] end.
