(** Vocabulary for the statements about moving, mirroring and exchanging the
    axes of a whole simulation. *)
From Verif Require Export GradSpec.
Open Scope R_scope.

(** The value of a field at a position, and the position a point outside the
    box is equivalent to. *)
Definition at_pos (dom : list Z) (x : data) (p : list Z) : C :=
  match node_idx dom p with Some i => nth (Z.to_nat i) x C0 | None => C0 end.
Fixpoint reduce (dom p : list Z) : list Z :=
  match dom, p with d :: dom', x :: p' => (x mod d)%Z :: reduce dom' p' | _, _ => [] end.

(** [y] is the field [x] after every point p moved to [g] p (periodic). *)
Definition moved (dom : list Z) (g : list Z -> list Z) (x y : data) : Prop :=
  length x = nodes dom /\ length y = nodes dom /\
  forall p, in_box dom p -> at_pos dom y (reduce dom (g p)) = at_pos dom x p.

(** The motions: by a vector of nodes, mirroring along an axis, exchanging two
    neighbouring axes. *)
Fixpoint shift (v p : list Z) : list Z :=
  match v, p with a :: v', x :: p' => (x + a)%Z :: shift v' p' | _, _ => p end.
Fixpoint mirror (axis : nat) (p : list Z) : list Z :=
  match p, axis with
  | [], _ => []
  | x :: p', O => (- x)%Z :: p'
  | x :: p', S a => x :: mirror a p'
  end.
Fixpoint exchange {A} (axis : nat) (p : list A) : list A :=
  match p, axis with
  | x :: y :: p', O => y :: x :: p'
  | x :: p', S a => x :: exchange a p'
  | _, _ => p
  end.

(** A motion of the domain. *)
Inductive motion (dom : list Z) : (list Z -> list Z) -> Prop :=
| by_vector v : length v = length dom -> motion dom (shift v)
| by_mirror axis : (axis < length dom)%nat -> motion dom (mirror axis)
| by_exchange axis : (S axis < length dom)%nat -> exchange axis dom = dom -> motion dom (exchange axis).

(** Amplitudes whose fields in real space are moved. *)
Definition moved_spectrum (dom : list Z) (g : list Z -> list Z) (X Y : data) : Prop :=
  length X = nodes dom /\ length Y = nodes dom /\
  moved dom g (to_real (fftw_transform dom) X) (to_real (fftw_transform dom) Y).
Definition moved_env (dom : list Z) (g : list Z -> list Z) (e e' : env) : Prop :=
  Forall2 (moved_spectrum dom g) (e_fields e) (e_fields e') /\ Forall2 (moved_spectrum dom g) (e_derived e) (e_derived e').

(** Multiplication with [a] before and with [a'] after the motion is the same. *)
Definition moved_coefficient (dom : list Z) (g : list Z -> list Z) (a a' : data) : Prop :=
  length a = nodes dom /\ length a' = nodes dom /\
  forall X Y, moved_spectrum dom g X Y -> moved_spectrum dom g (times a X) (times a' Y).

(** Two terms (implicit coefficients, sources, modifiers) that do the same
    before and after the motion. *)
Definition moved_term (dom : list Z) (g : list Z -> list Z) (nf nd : nat) (f f' : term) : Prop :=
  forall e e' t tmp tmp', sized nf nd e -> moved_env dom g e e' -> moved_spectrum dom g tmp tmp' -> moved_spectrum dom g (f e t tmp) (f' e' t tmp').
Definition moved_denum (dom : list Z) (g : list Z -> list Z) (f f' : term) : Prop :=
  forall e e' t tmp tmp', moved_coefficient dom g tmp tmp' -> moved_coefficient dom g (f e t tmp) (f' e' t tmp').
Definition moved_source (dom : list Z) (g : list Z -> list Z) (s s' : source) : Prop :=
  forall t tmp tmp', moved_spectrum dom g tmp tmp' -> moved_spectrum dom g (s t tmp) (s' t tmp').
Definition moved_modifier (dom : list Z) (g : list Z -> list Z) (m m' : nat * (data -> data)) : Prop :=
  fst m = fst m' /\ forall d d', moved_spectrum dom g d d' -> moved_spectrum dom g (snd m d) (snd m' d').

Record moved_eqn (dom : list Z) (g : list Z -> list Z) (nf nd : nat) (q q' : eqn) : Prop := {
  mq_terms : Forall2 (moved_term dom g nf nd) (q_terms q) (q_terms q');
  mq_denum : Forall2 (moved_denum dom g) (q_denum q) (q_denum q');
  mq_sources : Forall2 (moved_source dom g) (q_sources q) (q_sources q')
}.

(** Two derived fields that are computed alike before and after the motion, from
    the fields and from the [i] derived fields that precede them. *)
Definition moved_calc (dom : list Z) (g : list Z -> list Z) (nf nd i : nat) (c c' : env -> data) : Prop :=
  forall e e', sized nf nd e -> sized nf nd e' ->
    Forall2 (moved dom g) (e_fields e) (e_fields e') -> Forall2 (moved dom g) (firstn i (e_derived e)) (firstn i (e_derived e')) ->
    moved dom g (c e) (c' e').

(** A brick that shows the same before and after the motion. *)
Definition moved_brick (dom : list Z) (g : list Z -> list Z) (nf nd : nat) (u u' : brick) : Prop :=
  forall e e', sized nf nd e -> moved_env dom g e e' -> moved_spectrum dom g (u e) (u' e').

(** A property of the material that is given node by node and moves along. *)
Definition moved_material {A} (dom : list Z) (g : list Z -> list Z) (s s' : nat -> A) : Prop :=
  forall p i j, in_box dom p -> node_idx dom p = Some i -> node_idx dom (reduce dom (g p)) = Some j -> s' (Z.to_nat j) = s (Z.to_nat i).

(** The same model before and after the motion: every ingredient is moved. *)
Record moved_model (dom : list Z) (g : list Z -> list Z) (nf : nat) (p p' : pde) : Prop := {
  mm_calc_count : length (p_calc p') = length (p_calc p);
  mm_calc : forall i c c', nth_error (p_calc p) i = Some c -> nth_error (p_calc p') i = Some c' -> moved_calc dom g nf (length (p_calc p)) i c c';
  mm_eqns : Forall2 (moved_eqn dom g nf (length (p_calc p))) (p_eqns p) (p_eqns p');
  mm_mods : Forall2 (moved_modifier dom g) (p_mods p) (p_mods p')
}.

(** A derived field that is computed node by node: [h] maps the node, the values
    of the fields there and those of the first [reads] derived fields there. *)
Definition node_by_node (dom : list Z) (nf : nat) (h : nat -> list C -> list C -> C) (reads : nat) : env -> data :=
  fun e => map (fun j => h j (map (fun d => nth j d C0) (firstn nf (e_fields e))) (map (fun d => nth j d C0) (firstn reads (e_derived e)))) (seq 0 (nodes dom)).

(** A field with one value. *)
Definition uniform (dom : list Z) (y : C) : data := repeat y (nodes dom).

(** The point [r] moved by the vector [v]. *)
Fixpoint point_plus (r : list R) (v : list Z) : list R :=
  match r, v with x :: r', a :: v' => (x + IZR a) :: point_plus r' v' | _, _ => r end.

(** * Uniform fields *)

(** A model that does not change when it is moved by any vector. *)
Definition translation_invariant (dom : list Z) (nf : nat) (p : pde) : Prop :=
  forall v, length v = length dom -> moved_model dom (shift v) nf p p.

(** Reactions: derived fields are functions of the values at the node; an
    equation is a sum of c LAP^k (field or derived field), and implicitly a sum of
    a LAP^m times its own field. *)
Inductive shown := of_field (i : nat) | of_derived (i : nat).
Definition shown_brick (s : shown) : brick := match s with of_field i => field_brick i | of_derived i => derived_brick i end.
Record reaction := { re_explicit : list (R * nat * shown); re_implicit : list (R * nat) }.
Definition reaction_eqn (dom : list Z) (r : reaction) : eqn :=
  {| q_terms := map (fun x => brick_term (fftw_transform dom) (fst (fst x)) (snd (fst x)) (shown_brick (snd x))) (re_explicit r);
     q_denum := map (fun x => coeff_term (fftw_transform dom) (fst x) (snd x)) (re_implicit r);
     q_sources := [] |}.
Fixpoint reaction_calcs (dom : list Z) (nf i : nat) (hs : list (list C -> list C -> C)) : list (env -> data) :=
  match hs with [] => [] | h :: hs' => node_by_node dom nf (fun _ => h) i :: reaction_calcs dom nf (S i) hs' end.
Definition reaction_model (dom : list Z) (nf : nat) (hs : list (list C -> list C -> C)) (rs : list reaction) : pde :=
  {| p_calc := reaction_calcs dom nf 0 hs; p_eqns := map (reaction_eqn dom) rs; p_mods := [] |}.

(** The same reactions as ordinary differential equations for numbers. *)
Definition ode_shown (ys ds : list C) (s : shown) : C := match s with of_field i => nth i ys C0 | of_derived i => nth i ds C0 end.
Definition ode_rate (ys ds : list C) (r : reaction) : C :=
  Csum (map (fun x => match snd (fst x) with O => Cmul (RtoC (fst (fst x))) (ode_shown ys ds (snd x)) | S _ => C0 end) (re_explicit r)).
Definition ode_decay (r : reaction) : C :=
  Csum (map (fun x => match snd x with O => RtoC (fst x) | S _ => C0 end) (re_implicit r)).
Fixpoint ode_derived (hs : list (list C -> list C -> C)) (ys ds : list C) : list C :=
  match hs with [] => ds | h :: hs' => ode_derived hs' ys (ds ++ [h ys ds]) end.
Fixpoint ode_fields (dt : R) (f : C) (ds : list C) (rs : list reaction) (i : nat) (ys : list C) : list C :=
  match rs with
  | [] => ys
  | r :: rs' => ode_fields dt f ds rs' (S i)
      (set_nth i (Cmul f (Cdiv (Cadd (nth i ys C0) (Cmul (RtoC dt) (ode_rate ys ds r))) (Csub C1 (Cmul (RtoC dt) (ode_decay r))))) ys)
  end.
Definition ode_step (dt : R) (filt : option (R -> R)) (hs : list (list C -> list C -> C)) (rs : list reaction) (ys : list C) : list C :=
  ode_fields dt (match filt with None => C1 | Some g => RtoC (g 0) end) (ode_derived hs ys []) rs 0 ys.
Fixpoint ode_steps (dt : R) (filt : option (R -> R)) (hs : list (list C -> list C -> C)) (rs : list reaction) (m : nat) (ys : list C) : list C :=
  match m with O => ys | S m' => ode_steps dt filt hs rs m' (ode_step dt filt hs rs ys) end.
