(** Model of the 8-bit image files, in IEEE 754 binary64 arithmetic (Flocq). *)
From Coq Require Export ZArith Reals List.
From Flocq Require Export Core BinarySingleNaN.
Export ListNotations.
Open Scope bool_scope.
Open Scope Z_scope.

(** float64, round to nearest even.
    float64 in pf/util.go:108-117. *)
Definition f64 := binary_float 53 1024.
#[export] Instance prec_pos : Prec_gt_0 53 := eq_refl.
#[export] Instance prec_emax : Prec_lt_emax 53 1024 := eq_refl.
(** Constants of type float64 in pf/util.go:108-117: m * 2^e. *)
Definition f_of (m e : Z) : f64 := binary_normalize 53 1024 _ _ mode_NE m e false.
(** Subtraction in pf/util.go:114. *)
Definition fsub : f64 -> f64 -> f64 := Bminus mode_NE.
(** Addition in pf/util.go:108-117. *)
Definition fadd : f64 -> f64 -> f64 := Bplus mode_NE.
(** Multiplication in pf/util.go:114. *)
Definition fmul : f64 -> f64 -> f64 := Bmult mode_NE.
(** Division in pf/util.go:114. *)
Definition fdiv : f64 -> f64 -> f64 := Bdiv mode_NE.
(** 255 of pf/util.go:114. *)
Definition f255 : f64 := f_of 255 0.
(** The constant 1. *)
Definition f1 : f64 := f_of 1 0.
(** The constant 1e-10 of pf/util.go:110. *)
Definition ftiny : f64 := f_of 7737125245533627 (-86).

(** pfutil/sliceOperations.go:61-80; None: index out of range. *)
Fixpoint max_from (m : f64) (l : list f64) : f64 :=
  match l with [] => m | x :: l' => max_from (if Bltb m x then x else m) l' end.
Fixpoint min_from (m : f64) (l : list f64) : f64 :=
  match l with [] => m | x :: l' => min_from (if Bltb x m then x else m) l' end.
Definition max_real (l : list f64) : option f64 := match l with [] => None | x :: _ => Some (max_from x l) end.
Definition min_real (l : list f64) : option f64 := match l with [] => None | x :: _ => Some (min_from x l) end.

(** uint8(x): truncation towards zero; the language does not define the result
    for values that do not fit (None).
    uint8(x) of pf/util.go:114. *)
Definition to_uint8 (x : f64) : option Z :=
  if is_finite x && (0 <=? Btrunc x) && (Btrunc x <=? 255) then Some (Btrunc x) else None.

(** pf/util.go:108-117, RealPartAsUint8; the fields are given by their real
    parts. *)
Definition image_max (mn mx : f64) : f64 := if Bltb (Babs (fsub mx mn)) ftiny then fadd mn f1 else mx.
Definition pixel (mn mx' x : f64) : option Z := to_uint8 (fdiv (fmul f255 (fsub x mn)) (fsub mx' mn)).
Definition as_uint8 (data : list f64) (mn mx : f64) : list (option Z) := map (pixel mn (image_max mn mx)) data.

(** pf/fileIO.go:29-42, Uint8IO.SaveFields: the bytes of the file of a field. *)
Definition uint8_pixels (data : list f64) : option (list (option Z)) :=
  match min_real data, max_real data with
  | Some mn, Some mx => Some (as_uint8 data mn mx)
  | _, _ => None
  end.
