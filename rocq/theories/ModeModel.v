(** Model of the mode expansion solver (pfc/mode_solver.go) and of the tensor
    quadrature it uses (pfc/quadrature.go).  float64 is real and arithmetic is
    exact; a Go map is a list of its entries in the order of insertion (sums
    over it are order independent in exact arithmetic). *)
From Verif Require Export MillerModel LatticeModel FileModel EnergyModel.
Open Scope R_scope.

(** The loops "s := 0; for ... { s += f(x) }" and "p := 1; for ... { p *= f(x) }".
    Loops that add up in pfc/mode_solver.go and pfc/quadrature.go. *)
Definition sum_loop {A} (f : A -> R) (l : list A) : R := fold_left (fun s x => s + f x) l 0.
(** Loops that multiply in pfc/mode_solver.go and pfc/quadrature.go. *)
Definition prod_loop {A} (f : A -> R) (l : list A) : R := fold_left (fun s x => s * f x) l 1.

(** pfc/mode_solver.go:30-47, ModeDensity of one mode; [pos] is the scaled
    position (two or three entries). *)
Definition mode_density (m : miller) (pos : list R) : R :=
  fold_left (fun density (e : miller) =>
    let '(h, k, l) := e in
    if (Nat.eqb (length pos) 2 && negb (l =? 0)%Z)%bool then density
    else
      let arg := IZR h * nth 0 pos 0 + IZR k * nth 1 pos 0 in
      let arg := if Nat.eqb (length pos) 3 then arg + IZR l * nth 2 pos 0 else arg in
      density + cos (2 * PI * arg)) (equivalent_miller m) 0.

(** The locations and weights that rule.FixedLocationSingle(n, i, 0, 1) of
    gonum returns for i = 0 .. n-1.
    Locations and weights used in pfc/quadrature.go. *)
Definition rule := list (R * R).
(** pfc/quadrature.go:8-19, QuadSquare. *)
Definition quad_square (q : rule) (f : R -> R -> R) : R :=
  fold_left (fun i (x : R * R) => fold_left (fun i (y : R * R) => i + snd x * snd y * f (fst x) (fst y)) q i) q 0.
(** pfc/quadrature.go:24-38, QuadCube. *)
Definition quad_cube (q : rule) (f : R -> R -> R -> R) : R :=
  fold_left (fun i (x : R * R) => fold_left (fun i (y : R * R) => fold_left (fun i (z : R * R) =>
    i + snd x * snd y * snd z * f (fst x) (fst y) (fst z)) q i) q i) q 0.

(** pfc/mode_solver.go:69-78 and 82-91, the integrand; Miller and powers have
    the same length. *)
Definition integrand (modes : list miller) (powers : list nat) (pos : list R) : R :=
  fold_left (fun res (mp : miller * nat) =>
    if Nat.eqb (snd mp) 0 then res else res * mode_density (fst mp) pos ^ snd mp) (combine modes powers) 1.
(** pfc/mode_solver.go:64-93, UnitcellIntegral; [dim] is the number of rows of
    the reciprocal cell.  None: panic. *)
Definition unitcell_integral (dim : nat) (q : rule) (modes : list miller) (powers : list nat) : option R :=
  if negb (Nat.eqb (length powers) (length modes)) then None
  else if Nat.eqb dim 2 then Some (quad_square q (fun sx sy => integrand modes powers [sx; sy]))
  else Some (quad_cube q (fun sx sy sz => integrand modes powers [sx; sy; sz])).

(** pfc/mode_solver.go:97-100, freeEnergyTerm: ModePowers and Coeff. *)
Definition fterm := (list nat * R)%type.
(** pfc/mode_solver.go:103-109, Power. *)
Definition total_power (t : fterm) : nat := fold_left Nat.add (fst t) 0%nat.
(** pfc/mode_solver.go:115-123, power2key. *)
Fixpoint key_from (i : nat) (powers : list nat) : str :=
  match powers with
  | [] => []
  | p :: powers' =>
      (if Nat.eqb p 0 then [] else lit "m" ++ dec (Z.of_nat i) ++ lit "p" ++ dec (Z.of_nat p)) ++ key_from (S i) powers'
  end.
Definition power2key (powers : list nat) : str := key_from 0 powers.

(** map[string]freeEnergyTerm: look-up and assignment.
    pfc/mode_solver.go:97-100, map[string]freeEnergyTerm. *)
Definition terms := list (str * fterm).
(** Look-up in such a map. *)
Fixpoint tget (k : str) (m : terms) : option fterm :=
  match m with [] => None | (k', v) :: m' => if str_eqb k k' then Some v else tget k m' end.
(** Assignment to an entry of such a map. *)
Fixpoint tset (k : str) (v : fterm) (m : terms) : terms :=
  match m with
  | [] => [(k, v)]
  | (k', v') :: m' => if str_eqb k k' then (k, v) :: m' else (k', v') :: tset k v m'
  end.

(** pfc/mode_solver.go:145, the loop "for idx := comb.Next(); idx != nil; ..":
    the indices it visits.  None: panic, or out of fuel. *)
Fixpoint visited (fuel : nat) (p : product) : option (list (list Z)) :=
  match fuel with
  | O => None
  | S fuel' =>
      match next p with
      | None => None
      | Some (None, _) => Some []
      | Some (Some idx, p') => match visited fuel' p' with Some l => Some (idx :: l) | None => None end
      end
  end.
(** pfc/mode_solver.go:146-149, the powers of a combination of [n] modes. *)
Fixpoint increment (i : nat) (l : list nat) : list nat :=
  match l, i with
  | [], _ => []
  | x :: l', O => S x :: l'
  | x :: l', S i' => x :: increment i' l'
  end.
Definition powers_of (n : nat) (idx : list Z) : list nat :=
  fold_left (fun ps j => increment (Z.to_nat j) ps) idx (repeat 0%nat n).
(** pfc/mode_solver.go:151-165, the body of the loop. *)
Definition add_combination (dim : nat) (q : rule) (modes : list miller) (acc : option terms) (idx : list Z) : option terms :=
  match acc with
  | None => None
  | Some ts =>
      let powers := powers_of (length modes) idx in
      match unitcell_integral dim q modes powers with
      | None => None
      | Some i =>
          let key := power2key powers in
          match tget key ts with
          | Some val => Some (tset key (powers, snd val + i) ts)
          | None => Some (tset key (powers, i) ts)
          end
      end
  end.
(** pfc/mode_solver.go:137-168, build. *)
Definition build_terms (dim : nat) (q : rule) (modes : list miller) (power : nat) : option terms :=
  match visited (S (length modes ^ power)) (new_product (repeat (Z.of_nat (length modes)) power)) with
  | None => None
  | Some l => fold_left (add_combination dim q modes) l (Some [])
  end.
(** pfc/mode_solver.go:171-175, mergeTerms. *)
Definition merge_terms (dst src : terms) : terms := fold_left (fun d kv => tset (fst kv) (snd kv) d) src dst.
(** pfc/mode_solver.go:194-203, the prefactor of the ideal mixture. *)
Definition scale_terms (c : R) (m : terms) : terms := map (fun kv => (fst kv, (fst (snd kv), snd (snd kv) * c))) m.

(** pfc/mode_solver.go:187-208, all terms of the free energy. *)
Definition all_terms (mix : ideal_mix) (dim : nat) (q : rule) (modes : list miller) : option terms :=
  match build_terms dim q modes 3, build_terms dim q modes 4 with
  | Some p3, Some p4 =>
      Some (merge_terms (merge_terms [] (scale_terms (third_prefactor mix) p3)) (scale_terms (fourth_prefactor mix) p4))
  | _, _ => None
  end.
(** pfc/mode_solver.go:211-222, the relative cutoff 1e-4. *)
Definition max_coeff (m : terms) : R :=
  fold_left (fun mx kv => if Rlt_dec mx (Rabs (snd (snd kv))) then Rabs (snd (snd kv)) else mx) m 0.
Definition cut_terms (m : terms) : terms :=
  filter (fun kv => if Rlt_dec (1 / 10000 * max_coeff m) (Rabs (snd (snd kv))) then true else false) m.

(** pfc/mode_solver.go:227-237, Func. *)
Definition amp_prod (amp : list R) (powers : list nat) : R :=
  prod_loop (fun j => nth j amp 0 ^ nth j powers 0%nat) (seq 0 (length amp)).
Definition energy (ts : terms) (amp : list R) : R :=
  sum_loop (fun kv : str * fterm => amp_prod amp (fst (snd kv)) * snd (snd kv)) ts.
(** pfc/mode_solver.go:240-259, Grad, the component [dir]. *)
Definition grad_prod (amp : list R) (powers : list nat) (dir : nat) : R :=
  let p := nth dir powers 0%nat in
  prod_loop (fun j => if Nat.eqb j dir then INR p * nth j amp 0 ^ (p - 1) else nth j amp 0 ^ nth j powers 0%nat) (seq 0 (length amp)).
Definition gradient (ts : terms) (amp : list R) (dir : nat) : R :=
  fold_left (fun g (kv : str * fterm) =>
    let '(powers, coeff) := snd kv in
    if Nat.eqb (nth dir powers 0%nat) 0 then g else g + grad_prod amp powers dir * coeff) ts 0.
(** pfc/mode_solver.go:262-294, Hess; SetSym stores the entry of dir1 <= dir2
    for both orders. *)
Definition hess_prod (amp : list R) (powers : list nat) (dir1 dir2 : nat) : R :=
  prod_loop (fun j =>
    let p := nth j powers 0%nat in
    if (Nat.eqb j dir1 && Nat.eqb j dir2)%bool then
      (if Nat.ltb p 2 then 0 else INR p * (INR p - 1) * nth j amp 0 ^ (p - 2))
    else if (Nat.eqb j dir1 || Nat.eqb j dir2)%bool then
      (if Nat.eqb p 0 then 0 else INR p * nth j amp 0 ^ (p - 1))
    else nth j amp 0 ^ p) (seq 0 (length amp)).
Definition hessian (ts : terms) (amp : list R) (dir1 dir2 : nat) : R :=
  sum_loop (fun kv : str * fterm => hess_prod amp (fst (snd kv)) (Nat.min dir1 dir2) (Nat.max dir1 dir2) * snd (snd kv)) ts.

(** pfc/mode_solver.go:297-303, the explorer used when none is given. *)
Definition default_explorer (modes : list miller) : explorer := new_explorer (repeat (1 / 10) (length modes)).
(** pfc/mode_solver.go:305-319, the loop over the starting points the explorer
    hands out; [minimize] is optimize.Minimize with Newton, of which the
    location (energy, amplitudes) is used. *)
Definition pick_best (minimize : list R -> R * list R) (modes : list miller) (starts : list (list R)) : R * list R :=
  fold_left (fun (best : R * list R) x0 => let opt := minimize x0 in if Rlt_dec (fst opt) (fst best) then opt else best)
    starts (0, repeat 0 (length modes)).

(** ** Elastic properties *)
(** pfc/miller.go:15-22, At: 0 is H, 1 is K, anything else L. *)
Definition mat_ (m : miller) (i : nat) : Z :=
  let '(h, k, l) := m in match i with O => h | S O => k | _ => l end.
Definition mq (m : miller) (i : nat) : R := IZR (mat_ m i).
(** pfc/mode_solver.go:461-477, BulkModWeight; [r] rows. *)
Definition bulk_weight (r : nat) (m : miller) (Q : matrix) : R :=
  let diag := sum_loop (fun i => mq m i * Q i i * mq m i) (seq 0 r) in
  fold_left (fun w i => fold_left (fun w j => w + 2 * mq m i * Q i j * mq m j) (seq (S i) (r - S i)) w) (seq 0 r) diag / 9.
(** pfc/mode_solver.go:484-500, ShearModWeight. *)
Definition shear_weight (r : nat) (m : miller) (Q : matrix) : R :=
  let diag := sum_loop (fun i => mq m i * Q i i * mq m i) (seq 0 r) in
  fold_left (fun w i => fold_left (fun w j => w - mq m i * Q i j * mq m j + 3 * mq m j * Q i i * mq m j) (seq (S i) (r - S i)) w)
    (seq 0 r) diag / 15.
(** pfc/mode_solver.go:506-511, AreaModulusWeight. *)
Definition area_weight (r : nat) (m : miller) (Q : matrix) : R :=
  (mq m 0 * Q 0%nat 0%nat * mq m 0 + mq m 1 * Q 1%nat 1%nat * mq m 1 + 2 * mq m 0 * Q 0%nat 1%nat * mq m 1) / 4.
(** pfc/mode_solver.go:520-525, XYPlaneShearWeight. *)
Definition xyshear_weight (r : nat) (m : miller) (Q : matrix) : R :=
  (mq m 0 * Q 0%nat 0%nat * mq m 0 + mq m 1 * Q 1%nat 1%nat * mq m 1 - 2 * mq m 0 * Q 0%nat 1%nat * mq m 1
   + 4 * mq m 0 * Q 1%nat 1%nat * mq m 0) / 8.
(** pfc/mode_solver.go:375-387, the known properties. *)
Inductive elastic_property := Bulk | ShearP | Area | XYShear.
Definition weight (r : nat) (k : elastic_property) : miller -> matrix -> R :=
  match k with Bulk => bulk_weight r | ShearP => shear_weight r | Area => area_weight r | XYShear => xyshear_weight r end.
Definition property_of_name (s : str) : option elastic_property :=
  if str_eqb s (lit "bulk") then Some Bulk else if str_eqb s (lit "shear") then Some ShearP
  else if str_eqb s (lit "area") then Some Area else if str_eqb s (lit "xyshear") then Some XYShear else None.
(** pfc/mode_solver.go:392-394, Q = C^T C. *)
Definition q_matrix (r : nat) (c : matrix) : matrix := mmul r (mtrans c) c.

(** pfc/mode_solver.go:388-391 and 397-412, the penalty and the objective;
    [props] lists the entries of the map of targets. *)
Definition fit_penalty (props : list (elastic_property * R)) (modes : list miller) : R :=
  if Nat.ltb (length props) (length modes) then 1 / 1000000 else 0.
Definition prediction (r : nat) (modes : list miller) (Q : matrix) (x : list R) (k : elastic_property) : R :=
  sum_loop (fun i => nth i x 0 * nth i x 0 * weight r k (nth i modes (0, 0, 0)%Z) Q) (seq 0 (length x)).
Definition objective (r : nat) (modes : list miller) (Q : matrix) (props : list (elastic_property * R)) (x : list R) : R :=
  let value := sum_loop (fun kv : elastic_property * R => (snd kv - prediction r modes Q x (fst kv)) ^ 2) props in
  fold_left (fun v i => v + fit_penalty props modes * nth i x 0 * nth i x 0 * nth i x 0 * nth i x 0) (seq 0 (length x)) value.
(** pfc/mode_solver.go:413-431, its gradient, component [j]. *)
Definition objective_grad (r : nat) (modes : list miller) (Q : matrix) (props : list (elastic_property * R)) (x : list R) (j : nat) : R :=
  fold_left (fun g (kv : elastic_property * R) =>
      g - 4 * (snd kv - prediction r modes Q x (fst kv)) * nth j x 0 * weight r (fst kv) (nth j modes (0, 0, 0)%Z) Q) props 0
  + 4 * fit_penalty props modes * nth j x 0 * nth j x 0 * nth j x 0.
(** pfc/mode_solver.go:434-439, the starting point: all ones, then entry 0 is
    set to 1 and entry 1 to 0.01.  None: index out of range. *)
Definition set_entry (l : list R) (i : nat) (v : R) : option (list R) :=
  if Nat.ltb i (length l) then Some (firstn i l ++ v :: skipn (S i) l) else None.
Definition fit_start (modes : list miller) : option (list R) :=
  match set_entry (repeat 1 (length modes)) 0 1 with
  | Some x => set_entry x 1 (1 / 100)
  | None => None
  end.
(** pfc/mode_solver.go:374-454, MatchElasticProp: the factors and the fitted
    values; [minimize] is optimize.Minimize.  None: panic. *)
Fixpoint parse_props (l : list (str * R)) : option (list (elastic_property * R)) :=
  match l with
  | [] => Some []
  | (s, v) :: l' => match property_of_name s, parse_props l' with Some k, Some r => Some ((k, v) :: r) | _, _ => None end
  end.
Definition match_elastic (minimize : (list R -> R) -> list R -> list R) (r : nat) (modes : list miller) (c : matrix)
    (props : list (str * R)) : option (list R * list (elastic_property * R)) :=
  match parse_props props with
  | None => None
  | Some props' =>
      let Q := q_matrix r c in
      match fit_start modes with
      | None => None
      | Some x0 =>
          let amp := minimize (objective r modes Q props') x0 in
          Some (amp, map (fun kv => (fst kv, prediction r modes Q amp (fst kv))) props')
      end
  end.
(** pfc/mode_solver.go:536-550, PeakWidths, the widths. *)
Definition peak_width (dim : Z) (m : miller) (a h : R) : option R :=
  match num_equivalent m dim with
  | Some n => Some (sqrt (1 / 2 * IZR n) * Rabs (a / h))
  | None => None
  end.
