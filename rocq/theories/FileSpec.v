(** Vocabulary for the statements about files. *)
From Verif Require Export IndexSpec FileModel.
Open Scope Z_scope.

(** A pattern of 64 bits. *)
Definition float_bits (v : N) : Prop := (v < 2 ^ 64)%N.

(** The values last saved for a field and an epoch by calls of the callback. *)
Fixpoint last_saved (calls : list (Z * list bfield)) (name : str) (epoch : Z) (before : option (list N)) : option (list N) :=
  match calls with
  | [] => before
  | (e, fields) :: calls' =>
      last_saved calls' name epoch
        (fold_left (fun acc f => if (e =? epoch) && str_eqb (fst f) name then Some (map fst (snd f)) else acc) fields before)
  end.

(** The value a number has after printing with six decimals: a multiple of
    10^-6 at distance at most half of it. *)
Definition six_decimals (q r : Q) : Prop :=
  (exists n : Z, r == inject_Z n / 1000000)%Q /\ (Qabs (r - q) <= 1 # 2000000)%Q.


(** Coordinates a viewer gives to the value at an offset of a file with the
    dimensions of the index: the last dimension varies fastest. *)
Fixpoint row_major (dims p : list Z) (acc : Z) : Z :=
  match dims, p with
  | d :: dims', x :: p' => row_major dims' p' (acc * d + x)
  | _, _ => acc
  end.

(** Every saved value is a pattern of 64 bits. *)
Definition bits_ok (calls : list (Z * list bfield)) : Prop :=
  forall e fields name data, In (e, fields) calls -> In (name, data) fields -> Forall float_bits (map fst data).

(** Coordinates with missing ones zero: the first three columns. *)
Definition three (p : list Z) : list Z := firstn 3 (p ++ [0; 0; 0]).

(** The data files an index refers to. *)
Definition refs (x : xdmf) : list str := flat_map (fun g => map xa_file (xg_attrs g)) (xd_grids x).
