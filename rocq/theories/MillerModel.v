(** Model of the Miller index helpers and the initial guess explorers. *)
From Verif Require Export IndexModel.
From Coq Require Export Reals.
Open Scope Z_scope.

(** pfc/miller.go:4-6. *)
Definition miller := (Z * Z * Z)%type.
(** pfc/miller.go:9-11, Equal. *)
Definition meq (a b : miller) : bool :=
  let '(h, k, l) := a in let '(h', k', l') := b in (h =? h') && (k =? k') && (l =? l').

(** pfc/miller.go:25-31, factorial. *)
Fixpoint factorial (n : nat) : Z := match n with O => 1 | S n' => factorial n' * Z.of_nat n end.

(** pfc/miller.go:42-68, NumEquivalent3D. *)
Definition num_equivalent_3d (m : miller) : Z :=
  let '(h, k, l) := m in
  let n1 := if h =? 0 then 1 else 2 in
  let n2 := if k =? 0 then n1 else n1 * 2 in
  let n3 := if l =? 0 then n2 else n2 * 2 in
  let e1 := if Z.abs k =? Z.abs h then 2%nat else 1%nat in
  let e2 := if Z.abs l =? Z.abs k then S e1 else e1 in
  n3 * Z.quot (factorial 3) (factorial e2).

(** pfc/miller.go:140-176, EquivalentMillerNoPermutations. *)
Definition signs (x : Z) : list Z := if x =? 0 then [-1] else [-1; 1].
Definition no_permutations (m : miller) : list miller :=
  let '(h, k, l) := m in
  flat_map (fun sh => flat_map (fun sk => map (fun sl => (sh * h, sk * k, sl * l)) (signs l)) (signs k)) (signs h).

(** pfc/miller.go:121-132: the loops that remove equal entries.  The list is
    res[:end]; what is swapped behind [end] is never looked at again.
    [remove_equal x kept rest]: the inner loop for res[i] = x, with [kept] the
    entries between i and j and [rest] those from j on; an equal entry is
    replaced by the last one.  The fuel is the number of entries. *)
Fixpoint remove_equal (fuel : nat) (x : miller) (kept rest : list miller) : list miller :=
  match fuel, rest with
  | S fuel', y :: rest' =>
      if meq x y
      then remove_equal fuel' x kept (match rest' with [] => [] | _ => last rest' y :: removelast rest' end)
      else remove_equal fuel' x (kept ++ [y]) rest'
  | _, _ => kept
  end.
Fixpoint remove_all_equal (fuel : nat) (l : list miller) : list miller :=
  match fuel, l with
  | S fuel', x :: rest => x :: remove_all_equal fuel' (remove_equal (length rest) x [] rest)
  | _, _ => []
  end.

(** pfc/miller.go:94-136, EquivalentMiller. *)
Definition permuted (m : miller) : list miller :=
  let '(h, k, l) := m in [(h, k, l); (h, l, k); (l, h, k); (l, k, h); (k, l, h); (k, h, l)].
Definition equivalent_miller (m : miller) : list miller :=
  let res := flat_map no_permutations (permuted m) in remove_all_equal (length res) res.

(** pfc/miller.go:71-79, NumEquivalent2D, and 82-91, NumEquivalent. *)
Definition num_equivalent_2d (m : miller) : Z :=
  Z.of_nat (length (filter (fun e : miller => snd e =? 0) (equivalent_miller m))).
Definition num_equivalent (m : miller) (dim : Z) : option Z :=
  if dim =? 2 then Some (num_equivalent_2d m) else if dim =? 3 then Some (num_equivalent_3d m) else None.

(** pfc/initialGuessExplorer.go:23-50, HyperOctantExplorer: [h_prod = None]
    before the first call.  Outer None: panic (empty X0 at the second call);
    inner None: nil.  A product of a float64 with plus or minus one is exact,
    so reals do. *)
Record explorer := { h_x0 : list R; h_prod : option product }.
Definition new_explorer (x0 : list R) : explorer := {| h_x0 := x0; h_prod := None |}.
Definition point (x0 : list R) (comb : list Z) : list R :=
  map (fun t => ((2 * IZR (fst t) - 1) * snd t)%R) (combine comb x0).
Definition explorer_next (e : explorer) : option (option (list R) * explorer) :=
  let p := match h_prod e with Some p => p | None => new_product (map (fun _ => 2) (h_x0 e)) end in
  match next p with
  | None => None
  | Some (c, p') => Some (match c with Some comb => Some (point (h_x0 e) comb) | None => None end,
                          {| h_x0 := h_x0 e; h_prod := Some p' |})
  end.
(** Not in the source: the outputs of [n] successive calls (pfc/initialGuessExplorer.go). *)
Fixpoint explorer_calls (n : nat) (e : explorer) : option (list (option (list R))) :=
  match n with
  | O => Some []
  | S n' => match explorer_next e with
            | None => None
            | Some (o, e') => match explorer_calls n' e' with Some os => Some (o :: os) | None => None end
            end
  end.

(** pfc/initialGuessExplorer.go:56-70, SinglePointExplorer: state nextCalled. *)
Definition single_next (x0 : list R) (called : bool) : option (list R) * bool :=
  if called then (None, true) else (Some x0, true).
Fixpoint single_calls (n : nat) (x0 : list R) (called : bool) : list (option (list R)) :=
  match n with O => [] | S n' => let '(o, c) := single_next x0 called in o :: single_calls n' x0 c end.
