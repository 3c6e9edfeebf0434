(** Model of the integer index arithmetic of gopf.
    Go [int] is [Z] without overflow; [/] and [%] are Go's truncating
    operations ([Z.quot], [Z.rem]).  [None] is a run-time panic. *)
From Coq Require Export List ZArith QArith Qabs Lia Bool.
Export ListNotations.
Open Scope Z_scope.

(** ** Product iterator *)

(** pfutil/iterators.go:12-16, struct Product. *)
Record product := { p_end : list Z; p_cur : list Z; p_first : bool }.

(** pfutil/iterators.go:19-25, NewProduct. *)
Definition new_product (e : list Z) : product :=
  {| p_end := e; p_cur := map (fun _ => 0) e; p_first := true |}.

(** pfutil/iterators.go:37-43: the carry loop [for i := len-2; i >= 0; i--].
    The lists are in reverse order (position len-2 first), so that the loop is
    a structural recursion.  The flag tells that the loop returned early. *)
Fixpoint carry (c e : list Z) : list Z * bool :=
  match c, e with
  | ci :: c', ei :: e' =>
      if (ci + 1 <? ei) then (ci + 1 :: c', true)
      else let '(r, b) := carry c' e' in (0 :: r, b)
  | _, _ => (c, false)
  end.

(** pfutil/iterators.go:46-50: is any entry different from zero? *)
Definition any_nonzero (c : list Z) : bool := existsb (fun x => negb (x =? 0)) c.

(** pfutil/iterators.go:28-52, Product.Next.  Outer [None]: index out of range
    panic (empty End).  Inner [None]: the returned nil.  The returned slice is
    modelled by its content at the time of return. *)
Definition next (p : product) : option (option (list Z) * product) :=
  if p_first p then
    Some (Some (p_cur p), {| p_end := p_end p; p_cur := p_cur p; p_first := false |})
  else
    match rev (p_cur p), rev (p_end p) with
    | cl :: c', el :: e' =>
        let finish c := {| p_end := p_end p; p_cur := c; p_first := false |} in
        if (cl + 1 =? el) then
          let '(r, returned) := carry c' e' in
          let c := rev (0 :: r) in
          if returned then Some (Some c, finish c)
          else Some ((if any_nonzero c then Some c else None), finish c)
        else
          let c := rev (cl + 1 :: c') in
          Some ((if any_nonzero c then Some c else None), finish c)
    | _, _ => None
    end.

(** Not in the source: the outputs of [n] successive calls of Next (pfutil/iterators.go). *)
Fixpoint calls (n : nat) (p : product) : option (list (option (list Z))) :=
  match n with
  | O => Some []
  | S n' => match next p with
            | None => None
            | Some (o, p') => match calls n' p' with
                              | None => None
                              | Some os => Some (o :: os)
                              end
            end
  end.

(** ** Node index and position *)

(** pfutil/indexPositionConversion.go:4-6 (nodeIdx2), 9-11 (nodeIdx3),
    14-21 (NodeIdx, panics for other lengths). *)
Definition node_idx (dom idx : list Z) : option Z :=
  match dom, idx with
  | [d0; d1], [i0; i1] => Some (i0 * d1 + i1)
  | [d0; d1; d2], [i0; i1; i2] => Some (i2 * d0 * d1 + i0 * d1 + i1)
  | _, _ => None
  end.

(** Integer division as used in pfutil/indexPositionConversion.go: panic on a zero divisor. *)
Definition go_div (a b : Z) : option Z := if b =? 0 then None else Some (Z.quot a b).
(** Integer remainder as used in pfutil/indexPositionConversion.go: panic on a zero divisor. *)
Definition go_rem (a b : Z) : option Z := if b =? 0 then None else Some (Z.rem a b).

(** pfutil/indexPositionConversion.go:23-28 (pos3), 30-34 (pos2), 37-44 (Pos). *)
Definition pos (dom : list Z) (n : Z) : option (list Z) :=
  match dom with
  | [d0; d1] =>
      match go_rem n d1, go_div n d1 with
      | Some col, Some row => Some [row; col]
      | _, _ => None
      end
  | [d0; d1; d2] =>
      match go_rem n d1, go_div n d1, go_div n (d0 * d1) with
      | Some col, Some q, Some depth =>
          match go_rem q d0 with
          | Some row => Some [row; col; depth]
          | None => None
          end
      | _, _, _ => None
      end
  | _ => None
  end.

(** pfutil/sliceOperations.go:90-98, Wrap; the slice written in place is the
    result.  [-pos[i] / domainSize[i]] parses as [(-pos[i]) / domainSize[i]]. *)
Definition wrap1 (x d : Z) : option Z :=
  match (if x <? 0 then
           match go_div (- x) d with
           | Some factor => Some (x + (factor + 1) * d)
           | None => None
           end
         else Some x) with
  | Some x' => go_rem x' d
  | None => None
  end.

(** Auxiliary for the periodic boundary of pfutil/indexPositionConversion.go. *)
Fixpoint wrap (xs dom : list Z) : option (list Z) :=
  match xs, dom with
  | [], _ => Some []
  | x :: xs', d :: dom' =>
      match wrap1 x d, wrap xs' dom' with
      | Some y, Some ys => Some (y :: ys)
      | _, _ => None
      end
  | _ :: _, [] => None
  end.

(** ** Frequencies and conjugate nodes *)

(** pfutil/fftWrap.go:42-54: col, row, depth.  [Dimensions[0]],
    [Dimensions[1]] are the arguments [n0], [n1]; positive extents are assumed
    by every statement, so the divisions do not panic. *)
Definition col (n1 i : Z) : Z := Z.rem i n1.
Definition row (n0 n1 i : Z) : Z := Z.rem (Z.quot i n1) n0.
Definition depth (n0 n1 i : Z) : Z := Z.quot i (n0 * n1).

(** pfutil/fftWrap.go:61-62,66,68-72: one component [float64(c)/float64(n)],
    minus one if above one half.  float64 is modelled by exact rationals. *)
Definition freq1 (c n : Z) : Q :=
  let f := (inject_Z c / inject_Z n)%Q in
  if negb (Qle_bool f (1 # 2)) then (f - 1)%Q else f.

(** pfutil/fftWrap.go:57-74, Freq.  Index-out-of-range panics for one
    dimension; dimensions beyond the third keep frequency zero. *)
Definition freq (dims : list Z) (i : Z) : option (list Q) :=
  match dims with
  | [n0; n1] => Some [freq1 (row n0 n1 i) n0; freq1 (col n1 i) n1]
  | n0 :: n1 :: n2 :: rest =>
      Some (freq1 (row n0 n1 i) n0 :: freq1 (col n1 i) n1
              :: freq1 (depth n0 n1 i) n2 :: map (fun _ => 0%Q) rest)
  | _ => None
  end.

(** pfutil/fftWrap.go:78-95, ConjugateNode. *)
Definition conjugate_node (dims : list Z) (i : Z) : option Z :=
  match dims with
  | n0 :: n1 :: rest =>
      let c := col n1 i in
      let r := row n0 n1 i in
      let conjC := Z.rem (n1 - c) n1 in
      let conjR := Z.rem (n0 - r) n0 in
      let conjD := match rest with
                   | [n2] => Z.rem (n2 - depth n0 n1 i) n2
                   | _ => 0
                   end in
      Some (conjD * n0 * n1 + conjR * n1 + conjC)
  | _ => None
  end.

(** ** Iterators over the spectrum of a real field *)

(** pf/util.go:238 and 272, [tol := 1e-10]. *)
Definition tol : Q := (1 # 10000000000)%Q.

(** Comparison of floats, auxiliary. *)
Definition Qlt_b (a b : Q) : bool := negb (Qle_bool b a).

(** pf/util.go:237-247, includeFreq, called with [split = len(f)-1].  The list
    is in reverse order, so [split] runs over its structure.  An empty list
    panics in the code (index -1). *)
Fixpoint include_freq_rev (f : list Q) : option bool :=
  match f with
  | [] => None
  | [f0] => Some (Qlt_b (- tol) f0)
  | fs :: f' =>
      if Qlt_b (Qabs fs) tol || Qlt_b ((1 # 2) - tol) (Qabs fs) then include_freq_rev f'
      else Some (Qlt_b (- tol) fs)
  end.
Definition include_freq (f : list Q) : option bool := include_freq_rev (rev f).

(** pf/util.go:276-281: all components zero or Nyquist. *)
Definition all_zero_or_nyquist (f : list Q) : bool :=
  forallb (fun x => negb (Qlt_b tol (Qabs x) && Qlt_b (Qabs x) ((1 # 2) - tol))) f.

(** The common loop of pf/util.go:224-234 and 272-288: the first [i >= next]
    below [End] accepted by [accept]; [None] in [accept] is a panic.  The
    fuel is [End - next], one unit per loop round.  The result is the returned
    index (or -1) and the new value of the field [next]. *)
Fixpoint scan (fuel : nat) (accept : Z -> option bool) (nxt i : Z) : option (Z * Z) :=
  match fuel with
  | O => Some (-1, nxt)
  | S fuel' => match accept i with
               | None => None
               | Some true => Some (i, i + 1)
               | Some false => scan fuel' accept nxt (i + 1)
               end
  end.
Definition iter_next (accept : Z -> option bool) (stop nxt : Z) : option (Z * Z) :=
  scan (Z.to_nat (stop - nxt)) accept nxt nxt.

(** pf/util.go:223-235, UniqueFreqIterator.Next with [Freq] of the wrapper. *)
Definition unique_accept (dims : list Z) (i : Z) : option bool :=
  match freq dims i with Some f => include_freq f | None => None end.
(** pf/util.go:270-289, RealAmplitudeIterator.Next (its debug print on stdout
    is not modelled). *)
Definition real_accept (dims : list Z) (i : Z) : option bool :=
  match freq dims i with Some f => Some (all_zero_or_nyquist f) | None => None end.

(** The documented use [for i := it.Next(); i != -1; i = it.Next()]: the list
    of visited nodes, with fuel for the number of calls.
    Documented use of the iterators of pf/util.go:216-290. *)
Fixpoint visit (fuel : nat) (accept : Z -> option bool) (stop nxt : Z) : option (list Z) :=
  match fuel with
  | O => None
  | S fuel' =>
      match iter_next accept stop nxt with
      | None => None
      | Some (i, nxt') => if i =? -1 then Some []
                          else match visit fuel' accept stop nxt' with
                               | None => None
                               | Some l => Some (i :: l)
                               end
      end
  end.
