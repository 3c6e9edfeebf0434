(** Property C61: real fields stay real. *)
From Verif Require Import GradSpec RealProofs RealProofs2 RealProofs3 GradProofs GradProofs2 GradProofs3 GradProofs4 GradProofs5 DftProofs StepProofs EnergyProofs3 Vec CVec Complex.
From Coq Require Import Lra Lia Qreals.
Open Scope R_scope.

(** C61. A field is real exactly when its amplitudes at ConjugateNode are
    conjugates. *)
Theorem C61_real_iff_conjugate_amplitudes : forall dom x, valid_domain dom -> square_layout dom -> length x = nodes dom ->
  (real_field x <-> hermitian dom (fft (fftw_transform dom) x)).
Proof. exact real_iff_hermitian. Qed.
Print Assumptions C61_real_iff_conjugate_amplitudes.

(** Any number of Euler steps of a model with real ingredients keeps every
    field real, with or without a filter. *)
Theorem C61_euler_keeps_fields_real : forall dom nf p filt dt nsteps step e e' step',
  valid_domain dom -> square_layout dom -> real_model dom nf p ->
  real_fields dom (e_fields e) -> length (e_fields e) = nf -> length (e_derived e) = length (p_calc p) ->
  euler_propagate p (fftw_transform dom) filt dt nsteps step e = Some (e', step') -> real_fields dom (e_fields e').
Proof. intros dom nf p filt dt nsteps step e e' step' Hv Hs M He L1 L2. exact (euler_propagate_real dom nf p filt dt Hv Hs (real_model_parts dom nf p Hv M) nsteps step e e' step' He (conj L1 L2)). Qed.
Print Assumptions C61_euler_keeps_fields_real.

(** The same for RK4, when the implicit coefficients do not depend on the
    fields being real. *)
Theorem C61_rk4_keeps_fields_real : forall dom nf p filt dt nsteps step e e' step',
  valid_domain dom -> square_layout dom -> real_model dom nf p ->
  (forall q f e t tmp, In q (p_eqns p) -> In f (q_denum q) -> length tmp = nodes dom -> hermitian dom tmp ->
     length (f e t tmp) = nodes dom /\ hermitian dom (f e t tmp)) ->
  real_fields dom (e_fields e) -> length (e_fields e) = nf -> length (e_derived e) = length (p_calc p) ->
  rk4_propagate p (fftw_transform dom) filt dt nsteps step e = Some (e', step') -> real_fields dom (e_fields e').
Proof. intros dom nf p filt dt nsteps step e e' step' Hv Hs M HD He L1 L2. exact (rk4_propagate_real dom nf p filt dt Hv Hs (real_model_parts dom nf p Hv M) (herm_denum_any dom p Hv HD) nsteps step e e' step' He (conj L1 L2)). Qed.
Print Assumptions C61_rk4_keeps_fields_real.

(** Terms built by the equation parser are real: scalars times a field or a
    derived field, with any power of the Laplacian. *)
Theorem C61_parsed_terms_are_real : forall dom nf nd c k i, valid_domain dom ->
  ((i < nf)%nat -> real_term dom nf nd (brick_term (fftw_transform dom) c k (field_brick i))) /\
  ((i < nd)%nat -> real_term dom nf nd (brick_term (fftw_transform dom) c k (derived_brick i))) /\
  (forall e t tmp, length tmp = nodes dom ->
     length (coeff_term (fftw_transform dom) c k e t tmp) = nodes dom /\ hermitian dom (coeff_term (fftw_transform dom) c k e t tmp)).
Proof.
  intros dom nf nd c k i Hv. split; [|split].
  - intros Hi. apply (brick_term_real dom nf nd Hv), field_brick_real, Hi.
  - intros Hi. apply (brick_term_real dom nf nd Hv), derived_brick_real, Hi.
  - exact (coeff_term_real dom Hv c k).
Qed.
Print Assumptions C61_parsed_terms_are_real.

(** The term types that come with the package are real on moderate domains. *)
Theorem C61_package_terms_are_real : forall dom nf nd, valid_domain dom -> square_layout dom -> moderate dom ->
  (forall u w, real_brick dom nf nd u -> real_brick dom nf nd w -> real_term dom nf nd (weighted_laplacian_term (fftw_transform dom) u w)) /\
  (forall c dim u, real_brick dom nf nd u -> real_term dom nf nd (sqgrad_term (fftw_transform dom) c dim u)) /\
  (forall ext sigma rho, real_brick dom nf nd rho -> real_term dom nf nd (charge_term (fftw_transform dom) ext sigma (length dom) rho)) /\
  (forall base dim, (base + dim < nd)%nat -> real_term dom nf nd (advection_term base dim)) /\
  (forall dim flux, (forall d t, (d < dim)%nat -> real_brick dom nf nd (fun e => flux e t d)) ->
     real_term dom nf nd (flux_term noise_mult (fftw_transform dom) dim flux)) /\
  (forall K e t tmp, length tmp = nodes dom -> (forall i j, (i < j)%nat -> (j < length dom)%nat -> hess_coeff K i j = 0) ->
     length (hessian_term (fftw_transform dom) K e t tmp) = nodes dom /\ hermitian dom (hessian_term (fftw_transform dom) K e t tmp)) /\
  (forall f t tmp j, length tmp = nodes dom -> (j < nodes dom)%nat ->
     length (source_eval (fftw_transform dom) (node_point dom j) f t tmp) = nodes dom /\
     hermitian dom (source_eval (fftw_transform dom) (node_point dom j) f t tmp)).
Proof.
  intros dom nf nd Hv Hs Hm. split; [exact (weighted_laplacian_real dom nf nd Hv Hs)|]. split; [exact (sqgrad_real dom nf nd Hv Hs Hm)|].
  split; [exact (charge_term_real dom nf nd Hv Hs Hm)|]. split; [exact (advection_term_real dom nf nd Hv)|].
  split; [exact (noise_term_real dom nf nd Hv)|]. split; [exact (hessian_diagonal_real dom Hv)|exact (source_node_real dom Hv Hs)].
Qed.
Print Assumptions C61_package_terms_are_real.

(** DivGrad and TensorialHessian with cross terms are real when every extent
    is odd. *)
Theorem C61_divgrad_and_hessian_partial : forall dom nf nd, valid_domain dom -> odd_domain dom ->
  (forall base dim, (base + 2 * dim <= nd)%nat -> real_term dom nf nd (divgrad_term (fftw_transform dom) base dim)) /\
  (forall K e t tmp, length tmp = nodes dom ->
     length (hessian_term (fftw_transform dom) K e t tmp) = nodes dom /\ hermitian dom (hessian_term (fftw_transform dom) K e t tmp)).
Proof.
  intros dom nf nd Hv Ho. split.
  - intros base dim H. exact (divgrad_term_real dom nf nd Hv base dim Ho H).
  - intros K e t tmp L. exact (hessian_odd_real dom Hv K e t tmp L Ho).
Qed.
Print Assumptions C61_divgrad_and_hessian_partial.

(** On a 4 x 1 domain DivGrad turns a real field and a real weight into a
    right-hand side with an imaginary part. *)
Theorem C61_divgrad_even_refuted :
  ~ real_field (to_real (fftw_transform [4; 1]%Z) (divgrad_term (fftw_transform [4; 1]%Z) 0 2
      (spectrum divgrad_model (fftw_transform [4; 1]%Z) {| e_fields := [unit_at 4 0]; e_derived := [[]; []; []; []] |}) 0 (repeat C0 4))).
Proof. exact divgrad_even_not_real. Qed.
Print Assumptions C61_divgrad_even_refuted.

(** On a 2 x 3 domain a symmetric tensorial Hessian with cross terms turns a
    real field into a field with an imaginary part. *)
Theorem C61_hessian_even_refuted : exists K x, length K = 4%nat /\ (forall i j, (i < 2)%nat -> (j < 2)%nat -> hess_coeff K i j = hess_coeff K j i) /\
  length x = 6%nat /\ real_field x /\
  forall e t, ~ real_field (to_real (fftw_transform [2; 3]%Z) (map2 Cmul (hessian_term (fftw_transform [2; 3]%Z) K e t (repeat C0 6)) (fft (fftw_transform [2; 3]%Z) x))).
Proof. exact hess_not_real. Qed.
Print Assumptions C61_hessian_even_refuted.

(** A source between two nodes of an even domain is not real. *)
Theorem C61_source_between_nodes_refuted :
  ~ real_field (to_real (fftw_transform [2; 2]%Z) (source_eval (fftw_transform [2; 2]%Z) [1 / 2; 0] (fun _ => 1) 0 (repeat C0 4))).
Proof. exact source_between_nodes. Qed.
Print Assumptions C61_source_between_nodes_refuted.

(** A Cahn-Hilliard model with a point source: one field c, the derived field
    c^3, dc/dt = LAP c^3 - c - LAP^2 c. *)
Definition cahn_hilliard (dom : list Z) : pde :=
  {| p_calc := [fun e => map (fun z => Cmul z (Cmul z z)) (field_brick 0 e)];
     p_eqns := [{| q_terms := [brick_term (fftw_transform dom) 1 1 (derived_brick 0); sqgrad_term (fftw_transform dom) 2 2 (field_brick 0)];
                   q_denum := [coeff_term (fftw_transform dom) (-1) 1; coeff_term (fftw_transform dom) (-1) 2];
                   q_sources := [source_eval (fftw_transform dom) (node_point dom 0) (fun t => t)] |}];
     p_mods := [] |}.
Example C61_nonvacuous : forall dom, valid_domain dom -> square_layout dom -> moderate dom -> (0 < nodes dom)%nat ->
  real_model dom 1 (cahn_hilliard dom) /\
  (forall q f e t tmp, In q (p_eqns (cahn_hilliard dom)) -> In f (q_denum q) -> length tmp = nodes dom -> hermitian dom tmp ->
     length (f e t tmp) = nodes dom /\ hermitian dom (f e t tmp)).
Proof.
  intros dom Hv Hs Hm Hn. assert (D : forall q f e t tmp, In q (p_eqns (cahn_hilliard dom)) -> In f (q_denum q) -> length tmp = nodes dom -> hermitian dom tmp ->
     length (f e t tmp) = nodes dom /\ hermitian dom (f e t tmp)).
  { intros q f e t tmp [<-|[]] [<-|[<-|[]]] L _; apply (coeff_term_real dom Hv); exact L. }
  split; [|exact D]. constructor.
  - intros [|[|i]] c e Hc [S1 S2] H _; cbn in Hc; try discriminate. injection Hc as <-. unfold field_brick.
    destruct (Forall_nth_error _ 0 (nth 0 (e_fields e) []) _ H) as [L R]; [apply nth_error_nth'; lia|].
    split; [rewrite map_length; exact L|]. apply real_field_nth. rewrite map_length. intros j Hj. rewrite nth_map_data by exact Hj.
    pose proof (proj1 (real_field_nth _) R j Hj) as R1. destruct (nth j (nth 0 (e_fields e) []) C0) as [a b]. cbn in *. rewrite R1. ring.
  - intros q f [<-|[]] [[<-|[<-|[]]]|Hd].
    + apply (brick_term_real dom _ _ Hv), derived_brick_real. cbn. lia.
    + apply (sqgrad_real dom _ _ Hv Hs Hm), field_brick_real. lia.
    + intros e t tmp _ _ _ L H. exact (D _ f e t tmp (or_introl eq_refl) Hd L H).
  - intros q s t tmp [<-|[]] [<-|[]] L _. exact (source_node_real dom Hv Hs _ t tmp 0 L Hn).
  - intros m d [].
Qed.
