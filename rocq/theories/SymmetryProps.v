(** Properties C84 - C86: moving, mirroring and exchanging the axes of a whole
    simulation, and uniform fields. *)
From Verif Require Import SymmetrySpec SymmetryProofs SymmetryProofs2 SymmetryProofs3 SymmetryProofs4 SymmetryProofs5 SymmetryProofs6 DftProofs IndexProofs Vec CVec Complex.
From Coq Require Import Lra Lia.
Open Scope R_scope.

(** ** C84 *)

(** A simulation that is moved as a whole by a vector of nodes (fields,
    sources, materials) gives the moved result, step by step, with Euler and
    with RK4, with or without a filter. *)
Theorem C84_moved_euler : forall dom v nf p p' filt dt m k e e' e1 k1, valid_domain dom -> square_layout dom -> length v = length dom ->
  moved_model dom (shift v) nf p p' -> sized nf (length (p_calc p)) e -> sized nf (length (p_calc p)) e' ->
  Forall2 (moved dom (shift v)) (e_fields e) (e_fields e') ->
  euler_propagate p (fftw_transform dom) filt dt m k e = Some (e1, k1) ->
  exists e1', euler_propagate p' (fftw_transform dom) filt dt m k e' = Some (e1', k1) /\ Forall2 (moved dom (shift v)) (e_fields e1) (e_fields e1').
Proof.
  intros dom v nf p p' filt dt m k e e' e1 k1 Hv Hs Lv M S S' H E. pose proof (by_vector dom v Lv) as Mo.
  destruct (motion_symmetry dom Hv _ Hs Mo) as (tau & w & Sy).
  exact (euler_propagate_moved dom _ tau w Hv Mo Sy nf p p' filt dt M m k e e' e1 k1 H S S' E).
Qed.
Print Assumptions C84_moved_euler.
Theorem C84_moved_rk4 : forall dom v nf p p' filt dt m k e e' e1 k1, valid_domain dom -> square_layout dom -> length v = length dom ->
  moved_model dom (shift v) nf p p' -> sized nf (length (p_calc p)) e -> sized nf (length (p_calc p)) e' ->
  Forall2 (moved dom (shift v)) (e_fields e) (e_fields e') ->
  rk4_propagate p (fftw_transform dom) filt dt m k e = Some (e1, k1) ->
  exists e1', rk4_propagate p' (fftw_transform dom) filt dt m k e' = Some (e1', k1) /\ Forall2 (moved dom (shift v)) (e_fields e1) (e_fields e1').
Proof.
  intros dom v nf p p' filt dt m k e e' e1 k1 Hv Hs Lv M S S' H E. pose proof (by_vector dom v Lv) as Mo.
  destruct (motion_symmetry dom Hv _ Hs Mo) as (tau & w & Sy).
  exact (rk4_propagate_moved dom _ tau w Hv Mo Sy nf p p' filt dt M m k e e' e1 k1 H S S' E).
Qed.
Print Assumptions C84_moved_rk4.

(** The terms of the package are ingredients of such a simulation: written
    terms, SquaredGradient, DivGrad, Advection, WeightedLaplacian, and
    ChargeTransport with the conductivities moved along. *)
Theorem C84_terms : forall dom v nf nd, valid_domain dom -> square_layout dom -> length v = length dom ->
  let ft := fftw_transform dom in let g := shift v in
  (forall i, (i < nf)%nat -> moved_brick dom g nf nd (field_brick i) (field_brick i)) /\
  (forall i, (i < nd)%nat -> moved_brick dom g nf nd (derived_brick i) (derived_brick i)) /\
  (forall c k u, moved_brick dom g nf nd u u -> moved_term dom g nf nd (brick_term ft c k u) (brick_term ft c k u)) /\
  (forall k f f', moved_term dom g nf nd f f' -> moved_term dom g nf nd (laplacian_term ft k f) (laplacian_term ft k f')) /\
  (forall c dim u, moved_brick dom g nf nd u u -> moved_term dom g nf nd (sqgrad_term ft c dim u) (sqgrad_term ft c dim u)) /\
  (forall u F, moved_brick dom g nf nd u u -> moved_brick dom g nf nd F F -> moved_term dom g nf nd (weighted_laplacian_term ft u F) (weighted_laplacian_term ft u F)) /\
  (forall base dim, (base + 2 * dim <= nd)%nat -> moved_term dom g nf nd (divgrad_term ft base dim) (divgrad_term ft base dim)) /\
  (forall base dim, (base + dim < nd)%nat -> moved_term dom g nf nd (advection_term base dim) (advection_term base dim)) /\
  (forall ext sigma sigma' u, moved_material dom g sigma sigma' -> moved_brick dom g nf nd u u ->
     moved_term dom g nf nd (charge_term ft ext sigma (length dom) u) (charge_term ft ext sigma' (length dom) u)) /\
  (forall c k, moved_denum dom g (coeff_term ft c k) (coeff_term ft c k)) /\
  (forall K, moved_denum dom g (hessian_term ft K) (hessian_term ft K)) /\
  (forall f r, length r = length dom -> moved_source dom g (source_eval ft r f) (source_eval ft (point_plus r v) f)).
Proof.
  intros dom v nf nd Hv Hs Lv ft g. pose proof (by_vector dom v Lv) as Mo. destruct (motion_symmetry dom Hv _ Hs Mo) as (tau & w & Sy).
  repeat match goal with |- _ /\ _ => split end.
  - intros i Hi. apply field_brick_moved, Hi.
  - intros i Hi. apply derived_brick_moved, Hi.
  - intros c k u Hu. exact (brick_term_moved dom _ tau w Hv Mo Sy nf nd c k u u Hu).
  - intros k f f' Hf. exact (laplacian_term_moved dom _ tau w Hv Mo Sy nf nd k f f' Hf).
  - intros c dim u Hu. exact (sqgrad_moved dom v Hv Hs Lv nf nd c dim u u Hu).
  - intros u F Hu HF. exact (weighted_laplacian_moved dom _ tau w Hv Mo Sy nf nd u u F F Hu HF).
  - intros base dim Hb. exact (divgrad_moved dom v Hv Hs Lv nf nd base dim Hb).
  - intros base dim Hb. exact (advection_moved dom v Hv Hs Lv nf nd base dim Hb).
  - intros ext sigma sigma' u Hm Hu. exact (charge_moved dom v Hv Hs Lv nf nd ext sigma sigma' u u Hm Hu).
  - intros c k. exact (coeff_term_moved dom _ tau w Hv Mo Sy c k).
  - intros K. exact (hessian_moved dom v Hv Hs Lv K).
  - intros f r Lr. exact (source_moved dom v Hv Hs Lv f r Lr).
Qed.
Print Assumptions C84_terms.

(** The derived fields these terms register are moved too. *)
Theorem C84_derived : forall dom v nf nd i, valid_domain dom -> square_layout dom -> length v = length dom ->
  let ft := fftw_transform dom in let g := shift v in
  (forall k, (k < nf)%nat -> moved_calc dom g nf nd i (field_brick k) (field_brick k)) /\
  (forall k, (k < i)%nat -> (i <= nd)%nat -> moved_calc dom g nf nd i (derived_brick k) (derived_brick k)) /\
  (forall c u, moved_calc dom g nf nd i u u -> moved_calc dom g nf nd i (gradient_calc ft c u) (gradient_calc ft c u)) /\
  (forall h h' u, moved_material dom g h h' -> moved_calc dom g nf nd i u u ->
     moved_calc dom g nf nd i (weighted_calc (fun j e => h j (map (fun d => nth j d C0) (e_fields e))) u) (weighted_calc (fun j e => h' j (map (fun d => nth j d C0) (e_fields e))) u)) /\
  (forall vs gs, Forall2 (moved_calc dom g nf nd i) vs vs -> Forall2 (moved_calc dom g nf nd i) gs gs ->
     moved_calc dom g nf nd i (fun e => dot_calc vs gs e (repeat C0 (nodes dom))) (fun e => dot_calc vs gs e (repeat C0 (nodes dom)))) /\
  (forall h h' reads, moved_material dom g h h' -> (reads <= i)%nat -> moved_calc dom g nf nd i (node_by_node dom nf h reads) (node_by_node dom nf h' reads)).
Proof.
  intros dom v nf nd i Hv Hs Lv ft g. pose proof (by_vector dom v Lv) as Mo. destruct (motion_symmetry dom Hv _ Hs Mo) as (tau & w & Sy).
  repeat match goal with |- _ /\ _ => split end.
  - intros k Hk. apply moved_calc_field; assumption.
  - intros k Hk Hi. apply moved_calc_derived; assumption.
  - intros c u Hu. exact (gradient_calc_moved dom v Hv Hs Lv nf nd i c u u Hu).
  - intros h h' u Hh Hu. exact (weighted_calc_moved dom v Hv Hs Lv nf nd i h h' u u Hh Hu).
  - intros vs gs H1 H2. exact (dot_product_moved dom v Hv Hs Lv nf nd i vs vs gs gs H1 H2).
  - intros h h' reads Hh Hr. exact (node_by_node_moved dom _ tau w Hv Mo Sy nf nd h h' reads i Hh Hr).
Qed.
Print Assumptions C84_derived.

(** A reaction-diffusion model with a source that is not at a node, moved by
    one node; the moved field is the one a user expects. *)
Definition symmetry_dom : list Z := [3; 2]%Z.
Lemma symmetry_valid : valid_domain symmetry_dom. Proof. split; [left; reflexivity|repeat constructor; lia]. Qed.
Definition square_value (ys ds : list C) : C := Cmul (nth 0 ys C0) (nth 0 ys C0).
Definition spot_reaction : reaction := {| re_explicit := [(1, 0%nat, of_derived 0); (2, 1%nat, of_field 0)]; re_implicit := [(-1, 2%nat); (-3, 0%nat)] |}.
Definition spot_model (r : list R) : pde :=
  {| p_calc := reaction_calcs symmetry_dom 1 0 [square_value];
     p_eqns := [{| q_terms := q_terms (reaction_eqn symmetry_dom spot_reaction); q_denum := q_denum (reaction_eqn symmetry_dom spot_reaction);
                   q_sources := [source_eval (fftw_transform symmetry_dom) r (fun t => t + 1)] |}];
     p_mods := [] |}.
Definition spot (j : nat) : env := {| e_fields := [unit_at 6 j]; e_derived := [[]] |}.
Example C84_nonvacuous :
  moved_model symmetry_dom (shift [1; 0]%Z) 1 (spot_model [1 / 2; 0]) (spot_model [3 / 2; 0]) /\
  Forall2 (moved symmetry_dom (shift [1; 0]%Z)) (e_fields (spot 0)) (e_fields (spot 2)) /\
  (exists e1, euler_propagate (spot_model [1 / 2; 0]) (fftw_transform symmetry_dom) None 1 2 0 (spot 0) = Some (e1, 2%nat)) /\
  (exists e1, rk4_propagate (spot_model [1 / 2; 0]) (fftw_transform symmetry_dom) None 1 1 0 (spot 0) = Some (e1, 1%nat)).
Proof.
  pose proof (by_vector symmetry_dom [1; 0]%Z eq_refl) as Mo. destruct (motion_symmetry _ symmetry_valid _ I Mo) as (tau & w & Sy).
  split; [|split; [|split]].
  - destruct (C84_terms symmetry_dom [1; 0]%Z 1 1 symmetry_valid I eq_refl) as (A1 & A2 & A3 & _ & _ & _ & _ & _ & _ & A4 & _ & A5).
    constructor; [reflexivity| | |constructor].
    + intros [|i] c c' H1 H2; [|destruct i; discriminate H1]. cbn in H1, H2. injection H1 as <-. injection H2 as <-.
      apply C84_derived; [exact symmetry_valid|exact I|reflexivity|intros ? ? ? _ _ _; reflexivity|lia].
    + constructor; [|constructor]. constructor; cbn [q_terms q_denum q_sources spot_model spot_reaction reaction_eqn re_explicit re_implicit map fst snd shown_brick p_calc reaction_calcs length].
      * constructor; [apply A3, A2; lia|]. constructor; [apply A3, A1; lia|constructor].
      * constructor; [apply A4|]. constructor; [apply A4|constructor].
      * constructor; [|constructor]. pose proof (A5 (fun t => t + 1) [1 / 2; 0] eq_refl) as H. cbn [point_plus] in H.
        replace (1 / 2 + 1) with (3 / 2) in H by lra. replace (0 + 0) with 0 in H by lra. exact H.
  - constructor; [|constructor]. split; [reflexivity|]. split; [reflexivity|]. intros p B. unfold symmetry_dom in *.
    inversion B as [|d x ? p1 Hx B1]; subst. inversion B1 as [|d2 y ? p2 Hy B2]; subst. inversion B2; subst.
    assert (Ex : (x = 0 \/ x = 1 \/ x = 2)%Z) by lia. assert (Ey : (y = 0 \/ y = 1)%Z) by lia.
    destruct Ex as [->|[->| ->]], Ey as [->| ->]; reflexivity.
  - eexists. reflexivity.
  - eexists. reflexivity.
Qed.

(** ** C85 *)

(** The same for mirroring along an axis and for exchanging two neighbouring
    axes of equal extent (and for any other motion): Euler and RK4. *)
Theorem C85_motion_euler : forall dom g nf p p' filt dt m k e e' e1 k1, valid_domain dom -> square_layout dom -> motion dom g ->
  moved_model dom g nf p p' -> sized nf (length (p_calc p)) e -> sized nf (length (p_calc p)) e' ->
  Forall2 (moved dom g) (e_fields e) (e_fields e') ->
  euler_propagate p (fftw_transform dom) filt dt m k e = Some (e1, k1) ->
  exists e1', euler_propagate p' (fftw_transform dom) filt dt m k e' = Some (e1', k1) /\ Forall2 (moved dom g) (e_fields e1) (e_fields e1').
Proof.
  intros dom g nf p p' filt dt m k e e' e1 k1 Hv Hs Mo M S S' H E. destruct (motion_symmetry dom Hv _ Hs Mo) as (tau & w & Sy).
  exact (euler_propagate_moved dom _ tau w Hv Mo Sy nf p p' filt dt M m k e e' e1 k1 H S S' E).
Qed.
Print Assumptions C85_motion_euler.
Theorem C85_motion_rk4 : forall dom g nf p p' filt dt m k e e' e1 k1, valid_domain dom -> square_layout dom -> motion dom g ->
  moved_model dom g nf p p' -> sized nf (length (p_calc p)) e -> sized nf (length (p_calc p)) e' ->
  Forall2 (moved dom g) (e_fields e) (e_fields e') ->
  rk4_propagate p (fftw_transform dom) filt dt m k e = Some (e1, k1) ->
  exists e1', rk4_propagate p' (fftw_transform dom) filt dt m k e' = Some (e1', k1) /\ Forall2 (moved dom g) (e_fields e1) (e_fields e1').
Proof.
  intros dom g nf p p' filt dt m k e e' e1 k1 Hv Hs Mo M S S' H E. destruct (motion_symmetry dom Hv _ Hs Mo) as (tau & w & Sy).
  exact (rk4_propagate_moved dom _ tau w Hv Mo Sy nf p p' filt dt M m k e e' e1 k1 H S S' E).
Qed.
Print Assumptions C85_motion_rk4.

(** Written terms (powers of the Laplacian of fields and of functions of the
    fields), WeightedLaplacian and sources at nodes are ingredients. *)
Theorem C85_terms : forall dom g nf nd, valid_domain dom -> square_layout dom -> motion dom g ->
  let ft := fftw_transform dom in
  (forall i, (i < nf)%nat -> moved_brick dom g nf nd (field_brick i) (field_brick i)) /\
  (forall i, (i < nd)%nat -> moved_brick dom g nf nd (derived_brick i) (derived_brick i)) /\
  (forall c k u, moved_brick dom g nf nd u u -> moved_term dom g nf nd (brick_term ft c k u) (brick_term ft c k u)) /\
  (forall k f f', moved_term dom g nf nd f f' -> moved_term dom g nf nd (laplacian_term ft k f) (laplacian_term ft k f')) /\
  (forall u F, moved_brick dom g nf nd u u -> moved_brick dom g nf nd F F -> moved_term dom g nf nd (weighted_laplacian_term ft u F) (weighted_laplacian_term ft u F)) /\
  (forall c k, moved_denum dom g (coeff_term ft c k) (coeff_term ft c k)) /\
  (forall i h h' reads, moved_material dom g h h' -> (reads <= i)%nat -> moved_calc dom g nf nd i (node_by_node dom nf h reads) (node_by_node dom nf h' reads)) /\
  (forall f p i j, in_box dom p -> node_idx dom p = Some i -> node_idx dom (reduce dom (g p)) = Some j ->
     moved_source dom g (source_eval ft (map IZR p) f) (source_eval ft (map IZR (reduce dom (g p))) f)).
Proof.
  intros dom g nf nd Hv Hs Mo ft. destruct (motion_symmetry dom Hv _ Hs Mo) as (tau & w & Sy).
  repeat match goal with |- _ /\ _ => split end.
  - intros i Hi. apply field_brick_moved, Hi.
  - intros i Hi. apply derived_brick_moved, Hi.
  - intros c k u Hu. exact (brick_term_moved dom _ tau w Hv Mo Sy nf nd c k u u Hu).
  - intros k f f' Hf. exact (laplacian_term_moved dom _ tau w Hv Mo Sy nf nd k f f' Hf).
  - intros u F Hu HF. exact (weighted_laplacian_moved dom _ tau w Hv Mo Sy nf nd u u F F Hu HF).
  - intros c k. exact (coeff_term_moved dom _ tau w Hv Mo Sy c k).
  - intros i h h' reads Hh Hr. exact (node_by_node_moved dom _ tau w Hv Mo Sy nf nd h h' reads i Hh Hr).
  - intros f p i j B Ni Nj. destruct (node_of_pos dom Hv p B) as (a & Na & Ha & Pa). destruct (node_map_spec dom Hv g a p Mo Ha Pa B) as (_ & Pb & _).
    pose proof (source_node_moved dom g tau w Hv Mo Sy f a Hs Ha) as H. unfold node_point in H. rewrite Pa, Pb in H. exact H.
Qed.
Print Assumptions C85_terms.

(** Reaction-diffusion models are isotropic: mirrored and axis-exchanged
    initial fields give mirrored and axis-exchanged results. *)
Theorem C85_reactions : forall dom nf hs rs g, valid_domain dom -> square_layout dom -> motion dom g ->
  (forall r x, In r rs -> In x (re_explicit r) -> match snd x with of_field i => (i < nf)%nat | of_derived i => (i < length hs)%nat end) ->
  moved_model dom g nf (reaction_model dom nf hs rs) (reaction_model dom nf hs rs).
Proof. intros dom nf hs rs g Hv Hs Mo Hi. exact (reaction_moved dom Hv Hs nf hs rs Hi g Mo). Qed.
Print Assumptions C85_reactions.

Example C85_nonvacuous : exists e1, motion [3; 3]%Z (exchange 0) /\ motion [3; 2]%Z (mirror 0) /\
  moved_model [3; 3]%Z (exchange 0) 1 (reaction_model [3; 3]%Z 1 [square_value] [spot_reaction]) (reaction_model [3; 3]%Z 1 [square_value] [spot_reaction]) /\
  Forall2 (moved [3; 3]%Z (exchange 0)) [unit_at 9 1] [unit_at 9 3] /\
  Forall2 (moved [3; 2]%Z (mirror 0)) [unit_at 6 2] [unit_at 6 4] /\
  euler_propagate (reaction_model [3; 3]%Z 1 [square_value] [spot_reaction]) (fftw_transform [3; 3]%Z) None 1 2 0 {| e_fields := [unit_at 9 1]; e_derived := [[]] |} = Some (e1, 2%nat).
Proof.
  eexists. assert (Mo : motion [3; 3]%Z (exchange 0)) by (apply by_exchange; [cbn; lia|reflexivity]). assert (V : valid_domain [3; 3]%Z) by (split; [left; reflexivity|repeat constructor; lia]).
  repeat match goal with |- _ /\ _ => split end.
  - exact Mo.
  - apply by_mirror. cbn. lia.
  - apply C85_reactions; [exact V|exact I|exact Mo|]. intros r x [<-|[]] [<-|[<-|[]]]; cbn; lia.
  - constructor; [|constructor]. split; [reflexivity|]. split; [reflexivity|]. intros p B.
    inversion B as [|d x ? p1 Hx B1]; subst. inversion B1 as [|d2 y ? p2 Hy B2]; subst. inversion B2; subst.
    assert (Ex : (x = 0 \/ x = 1 \/ x = 2)%Z) by lia. assert (Ey : (y = 0 \/ y = 1 \/ y = 2)%Z) by lia.
    destruct Ex as [->|[->| ->]], Ey as [->|[->| ->]]; reflexivity.
  - constructor; [|constructor]. split; [reflexivity|]. split; [reflexivity|]. intros p B.
    inversion B as [|d x ? p1 Hx B1]; subst. inversion B1 as [|d2 y ? p2 Hy B2]; subst. inversion B2; subst.
    assert (Ex : (x = 0 \/ x = 1 \/ x = 2)%Z) by lia. assert (Ey : (y = 0 \/ y = 1)%Z) by lia.
    destruct Ex as [->|[->| ->]], Ey as [->| ->]; reflexivity.
  - reflexivity.
Qed.

(** ** C86 *)

(** Uniform fields stay uniform in every model that does not depend on the
    position, with Euler and with RK4. *)
Theorem C86_uniform_stays_uniform : forall dom nf p filt dt m k e e1 k1, valid_domain dom -> square_layout dom ->
  translation_invariant dom nf p -> sized nf (length (p_calc p)) e -> Forall (fun d => exists y, d = uniform dom y) (e_fields e) ->
  (euler_propagate p (fftw_transform dom) filt dt m k e = Some (e1, k1) -> Forall (fun d => exists y, d = uniform dom y) (e_fields e1)) /\
  (rk4_propagate p (fftw_transform dom) filt dt m k e = Some (e1, k1) -> Forall (fun d => exists y, d = uniform dom y) (e_fields e1)).
Proof.
  intros dom nf p filt dt m k e e1 k1 Hv Hs HT HS Hu. split; intros E.
  - exact (uniform_euler dom Hv Hs nf p filt dt m k e e1 k1 HT HS Hu E).
  - exact (uniform_rk4 dom Hv Hs nf p filt dt m k e e1 k1 HT HS Hu E).
Qed.
Print Assumptions C86_uniform_stays_uniform.

(** The uniform values of a reaction-diffusion model follow the semi-implicit
    Euler scheme of the ordinary differential equations: diffusion drops out. *)
Theorem C86_uniform_follows_the_ode : forall dom nf hs rs filt dt m k ys e, valid_domain dom -> square_layout dom -> length rs = nf ->
  (forall r x, In r rs -> In x (re_explicit r) -> match snd x with of_field i => (i < nf)%nat | of_derived i => (i < length hs)%nat end) ->
  length ys = nf -> e_fields e = map (uniform dom) ys -> length (e_derived e) = length hs ->
  exists e1, euler_propagate (reaction_model dom nf hs rs) (fftw_transform dom) filt dt m k e = Some (e1, (k + m)%nat)
    /\ e_fields e1 = map (uniform dom) (ode_steps dt filt hs rs m ys).
Proof. intros dom nf hs rs filt dt m k ys e Hv Hs Hl Hi Ly He Ld. exact (reaction_steps dom Hv nf hs rs filt dt Hl Hi m k ys e Ly He Ld). Qed.
Print Assumptions C86_uniform_follows_the_ode.

(** One step of y' = y^2 - 3 y with dt = 1 from y = 2: (2 + 4) / (1 + 3). *)
Example C86_nonvacuous : translation_invariant [3; 2]%Z 1 (reaction_model [3; 2]%Z 1 [square_value] [spot_reaction]) /\
  ode_steps 1 None [square_value] [spot_reaction] 1 [RtoC 2] = [RtoC (3 / 2)].
Proof.
  split.
  - intros v Lv. apply C85_reactions; [exact symmetry_valid|exact I|apply by_vector, Lv|]. intros r x [<-|[]] [<-|[<-|[]]]; cbn; lia.
  - unfold ode_steps, ode_step. cbn [ode_derived app ode_fields nth set_nth]. apply f_equal2; [|reflexivity].
    unfold square_value, ode_rate, ode_decay, spot_reaction. cbn [re_explicit re_implicit map Csum fst snd ode_shown nth].
    match goal with |- Cmul _ (Cdiv ?a ?b) = _ => replace a with (RtoC 6) by (apply C_eq; cbn; ring); replace b with (RtoC 4) by (apply C_eq; cbn; ring) end.
    unfold Cdiv. rewrite <- RtoC_inv by lra. apply C_eq; cbn; field.
Qed.
