(** Properties C20, C22, C23, C24: right-hand sides and time steppers. *)
From Verif Require Import ListAux StepModel StepSpec StepProofs ConserveProofs.

(** C20. Terms and sources that fill the slice they are given are summed node
    by node; then the modifiers registered for this equation are applied, first
    registered first.  Registrations for other equations have no effect. *)
Theorem C20_rhs_is_sum_then_modifiers :
  forall (p : pde) (regs : list (nat * (data -> data))) (e : env) (i : nat) (t : R) (n : nat) (q : eqn) (tv sv : list data),
  p_mods p = [] -> nth_error (p_eqns p) i = Some q ->
  Forall2 (fun f v => writes n (f e t) v) (q_terms q) tv ->
  Forall2 (fun s v => writes n (s t) v) (q_sources q) sv ->
  get_rhs (fold_left (fun p r => register_modifier p (fst r) (snd r)) regs p) e i t n =
  Some (fold_left (fun d m => m d) (modifiers_for i regs) (node_sum n (tv ++ sv))).
Proof. exact get_rhs_sum. Qed.
Print Assumptions C20_rhs_is_sum_then_modifiers.

Theorem C20_denum_is_sum : forall (p : pde) (e : env) (i : nat) (t : R) (n : nat) (q : eqn) (tv : list data),
  nth_error (p_eqns p) i = Some q ->
  Forall2 (fun f v => writes n (f e t) v) (q_denum q) tv ->
  get_denum p e i t n = Some (node_sum n tv).
Proof. exact get_denum_sum. Qed.
Print Assumptions C20_denum_is_sum.

(** A diffusion model on two nodes with a cubic derived field, a Laplacian
    explicit term, a fourth order implicit term and one modifier on another equation. *)
Definition cube2 : env -> data := fun e => map (fun j => Cpow (nth j (nth 0 (e_fields e) []) C0) 3) (seq 0 2).
Definition read_derived (k : nat) : term := fun e _ tmp => mapi_from 0 (fun j _ => nth j (nth k (e_derived e) []) C0) tmp.
Definition const_term (c : C) : term := fun _ _ tmp => map (fun _ => c) tmp.
Definition pde2 : pde := {|
  p_calc := [cube2];
  p_eqns := [{| q_terms := [laplacian_term ft2 1 (read_derived 0)];
                q_denum := [laplacian_term ft2 2 (const_term (RtoC (-1)))];
                q_sources := [] |}];
  p_mods := [(7%nat, fun d => map Copp d)] |}.

Lemma pde2_lengths : keeps_length 2 pde2.
Proof.
  constructor.
  - intros c e [<-|[]]. reflexivity.
  - intros q f e t tmp [<-|[]] [[<-|[]]|[<-|[]]] H; unfold laplacian_term, read_derived, const_term;
      rewrite ?mapi_from_length, ?map_length; exact H.
  - intros q s t tmp [<-|[]] [].
  - intros m d [<-|[]] H. cbn. rewrite map_length. exact H.
Qed.

Lemma pde2_conserved : conserved 2 pde2 0.
Proof.
  apply (conserved_by_terms 2 pde2 0 _ pde2_lengths eq_refl eq_refl).
  - intros f [[<-|[]]|[<-|[]]]; apply laplacian_vanishes; try lia; apply (gt_freq0 2 ft2 ft2_good).
  - intros m d [<-|[]] H. discriminate H.
Qed.

Lemma pde2_denum : constant_denum pde2.
Proof. intros e e' [|[|i]] t n; reflexivity. Qed.

Lemma pde2_derived : derived_from_fields pde2.
Proof.
  intros fs d d' H H'. destruct d as [|x [|? ?]]; try discriminate H. destruct d' as [|y [|? ?]]; try discriminate H'.
  reflexivity.
Qed.

Definition env2 : env := {| e_fields := [[C1; Cadd C1 C1]]; e_derived := [[C0; C0]] |}.

Example C20_nonvacuous :
  Forall2 (fun f v => writes 2 (f env2 0) v) [read_derived 0; const_term C1] [[C0; C0]; [C1; C1]] /\
  Forall2 (fun s v => writes 2 (s 0) v) [fun _ tmp => map (fun _ => Ci) tmp] [[Ci; Ci]].
Proof.
  repeat constructor; intros [|a [|b [|c tmp]]] H; try discriminate H; reflexivity.
Qed.

(** C22. Whatever the coupling, the fields are advanced one after the other:
    field [i] solves the semi-implicit scheme with the earlier fields already at
    their new amplitudes and the later ones at their old. *)
Theorem C22_euler_sequential_scheme :
  forall (p : pde) (ft : transform) (filt : option (R -> R)) (dt t : R) (e : env),
  let s := spectrum p ft e in
  (length (e_fields e) <= length (p_eqns p))%nat ->
  exists e' Y', euler_step p ft filt dt t e = Some e' /\ e_fields e' = map (to_real ft) Y' /\
    length Y' = length (e_fields e) /\
    forall i y, nth_error (e_fields s) i = Some y ->
      let mix := {| e_fields := firstn i Y' ++ skipn i (e_fields s); e_derived := e_derived s |} in
      exists r a, get_rhs p mix i t (length y) = Some r /\ get_denum p mix i t (length y) = Some a /\
        nth_error Y' i = Some (apply_filter filt ft (map3 (semi_implicit dt) y r a)).
Proof. exact euler_step_sequential. Qed.
Print Assumptions C22_euler_sequential_scheme.

(** The documented scheme: all right-hand sides at the fields at the start of
    the step.  It holds when no equation reads a field placed before its own. *)
Theorem C22_euler_documented_scheme_partial :
  forall (p : pde) (ft : transform) (filt : option (R -> R)) (dt t : R) (e : env),
  let s := spectrum p ft e in
  (length (e_fields e) <= length (p_eqns p))%nat -> unaffected_by_earlier p t s ->
  exists e', euler_step p ft filt dt t e = Some e' /\
    length (e_fields e') = length (e_fields e) /\
    forall i y r a, nth_error (e_fields s) i = Some y ->
      get_rhs p s i t (length y) = Some r -> get_denum p s i t (length y) = Some a ->
      nth_error (e_fields e') i = Some (to_real ft (apply_filter filt ft (map3 (semi_implicit dt) y r a))).
Proof. exact euler_step_scheme. Qed.
Print Assumptions C22_euler_documented_scheme_partial.

(** In particular for every model with one field. *)
Theorem C22_euler_single_field :
  forall (p : pde) (ft : transform) (filt : option (R -> R)) (dt t : R) (f0 : data) (ds : list data),
  let e := {| e_fields := [f0]; e_derived := ds |} in
  let s := spectrum p ft e in
  (1 <= length (p_eqns p))%nat ->
  exists e' r a, get_rhs p s 0 t (length (fft ft f0)) = Some r /\ get_denum p s 0 t (length (fft ft f0)) = Some a /\
    euler_step p ft filt dt t e = Some e' /\
    e_fields e' = [to_real ft (apply_filter filt ft (map3 (semi_implicit dt) (fft ft f0) r a))].
Proof.
  intros p ft filt dt t f0 ds e s H.
  destruct (get_rhs_some p t s 0 (length (fft ft f0))) as (r & Hr); [lia|].
  destruct (get_denum_some p t s 0 (length (fft ft f0))) as (a & Ha); [lia|].
  destruct (euler_step_scheme p ft filt dt t e) as (e' & E & L & N); [exact H|apply single_field_unaffected; reflexivity|].
  exists e', r, a. split; [exact Hr|]. split; [exact Ha|]. split; [exact E|].
  specialize (N 0%nat (fft ft f0) r a eq_refl Hr Ha). cbn in L.
  destruct (e_fields e') as [|x [|? ?]]; try discriminate L. cbn in N. congruence.
Qed.
Print Assumptions C22_euler_single_field.

(** The update of a node is the solution of y' = y + dt (A y' + N). *)
Theorem C22_update_is_semi_implicit : forall (h : R) (y k a : C),
  Csub C1 (Cmul (RtoC h) a) <> C0 ->
  semi_implicit h y k a = Cadd y (Cmul (RtoC h) (Cadd (Cmul a (semi_implicit h y k a)) k)).
Proof. exact semi_implicit_solves. Qed.
Print Assumptions C22_update_is_semi_implicit.

(** Two coupled fields: x' = y, y' = x on a single node. *)
Definition read_field (k : nat) : term := fun e _ tmp => mapi_from 0 (fun j _ => nth j (nth k (e_fields e) []) C0) tmp.
Definition pde_coupled : pde := {|
  p_calc := [];
  p_eqns := [{| q_terms := [read_field 1]; q_denum := []; q_sources := [] |};
             {| q_terms := [read_field 0]; q_denum := []; q_sources := [] |}];
  p_mods := [] |}.
Definition ft1 : transform := {| fft := fun x => x; ifft := fun x => x; tfreq := fun _ => [0] |}.

(** For coupled fields the documented scheme is false. *)
Theorem C22_euler_coupled_refuted :
  ~ (forall (n : nat) (p : pde) (ft : transform) (dt t : R) (e e' : env) i y r a,
      good_transform n ft -> keeps_length n p -> all_length n (e_fields e) ->
      euler_step p ft None dt t e = Some e' ->
      nth_error (e_fields (spectrum p ft e)) i = Some y ->
      get_rhs p (spectrum p ft e) i t (length y) = Some r ->
      get_denum p (spectrum p ft e) i t (length y) = Some a ->
      nth_error (e_fields e') i = Some (to_real ft (map3 (semi_implicit dt) y r a))).
Proof.
  intros H.
  assert (D1 : forall z, Cdiv z (RtoC (INR 1)) = z).
  { intros z. change (INR 1) with 1. change (RtoC 1) with C1. field. exact C1_neq_0. }
  assert (G : good_transform 1 ft1).
  { constructor; cbn; auto.
    - intros [|x [|? ?]] E; try discriminate E. unfold to_real. cbn [ft1 ifft div_real map length]. rewrite D1. reflexivity.
    - intros [|x [|? ?]] E; try discriminate E. unfold to_real. cbn [ft1 ifft div_real map length]. rewrite D1. reflexivity.
    - intros [|x [|? ?]] E; try discriminate E. cbn. ring.
    - ring. }
  assert (K : keeps_length 1 pde_coupled).
  { constructor; cbn.
    - tauto.
    - intros q f e t tmp [<-|[<-|[]]] [[<-|[]]|[]] E; unfold read_field; rewrite mapi_from_length; exact E.
    - intros q s t tmp [<-|[<-|[]]] [].
    - tauto. }
  set (e := {| e_fields := [[C0]; [C1]]; e_derived := [] |}).
  assert (S : exists e' z, euler_step pde_coupled ft1 None 1 0 e = Some e' /\ nth_error (e_fields e') 1 = Some [z] /\ Re z = 2).
  { eexists _, _. split; [reflexivity|]. split; [reflexivity|]. rewrite D1. unfold semi_implicit.
    cbn [map3 mapi_from nth e_fields set_field set_nth]. unfold semi_implicit.
    replace (RtoC 1) with C1 by reflexivity. rewrite !Cdiv_one. cbn. replace (Cnorm2 (Csub C1 (Cmul C1 C0))) with 1 by (unfold Cnorm2; cbn; ring). field. }
  destruct S as (e' & z & S1 & S2 & S3).
  specialize (H 1%nat pde_coupled ft1 1 0 e e' 1%nat [C1] [Cadd C0 C0] [C0] G K ltac:(repeat constructor) S1 eq_refl eq_refl eq_refl).
  rewrite S2 in H. injection H as H. change (length _) with 1%nat in H. rewrite D1 in H.
  unfold semi_implicit in H. rewrite Cdiv_one in H. subst z. cbn in S3. lra.
Qed.
Print Assumptions C22_euler_coupled_refuted.

Example C22_nonvacuous : (length (e_fields env2) <= length (p_eqns pde2))%nat /\
  unaffected_by_earlier pde2 0 (spectrum pde2 ft2 env2).
Proof. split; [cbn; lia|]. apply single_field_unaffected. reflexivity. Qed.

(** C23. *)
Theorem C23_rk4_scheme_partial :
  forall (n : nat) (p : pde) (ft : transform) (filt : option (R -> R)) (dt t : R),
  good_transform n ft -> keeps_length n p -> constant_denum p -> derived_from_fields p ->
  forall e : env, all_length n (e_fields e) -> (length (e_fields e) <= length (p_eqns p))%nat ->
  length (e_derived e) = length (p_calc p) ->
  let Y := map (fft ft) (e_fields e) in
  exists k1 s2 k2 s3 k3 s4 k4 e',
    nonlinear_part p ft t (e_derived e) Y k1 /\
    implicit_stage p (dt / 2) t e Y k1 s2 /\ nonlinear_part p ft t (e_derived e) s2 k2 /\
    implicit_stage p (dt / 2) t e Y k2 s3 /\ nonlinear_part p ft t (e_derived e) s3 k3 /\
    implicit_stage p dt t e Y k3 s4 /\ nonlinear_part p ft t (e_derived e) s4 k4 /\
    rk4_step p ft filt dt t e = Some e' /\ length (e_fields e') = length (e_fields e) /\
    length (e_derived e') = length (e_derived e) /\
    forall i y a r1 r2 r3 r4, nth_error Y i = Some y -> get_denum p e i t (length y) = Some a ->
      nth_error k1 i = Some r1 -> nth_error k2 i = Some r2 -> nth_error k3 i = Some r3 -> nth_error k4 i = Some r4 ->
      nth_error (e_fields e') i = Some (to_real ft (apply_filter filt ft
        (map (fun j => Cdiv (combine4 dt (nth j y C0) (nth j r1 C0) (nth j r2 C0) (nth j r3 C0) (nth j r4 C0))
                            (Csub C1 (Cmul (RtoC dt) (nth j a C0)))) (seq 0 n)))).
Proof. exact rk4_step_scheme. Qed.
Print Assumptions C23_rk4_scheme_partial.

(** Propagate advances the step counter, and so the time, by one step each. *)
Theorem C23_propagate_time : forall p ft filt dt nsteps step e e' step',
  (euler_propagate p ft filt dt nsteps step e = Some (e', step') -> time_of dt step' = time_of dt step + INR nsteps * dt) /\
  (rk4_propagate p ft filt dt nsteps step e = Some (e', step') -> time_of dt step' = time_of dt step + INR nsteps * dt).
Proof.
  intros. unfold time_of.
  split; intros H; [apply euler_time in H|apply rk4_time in H]; subst step'; rewrite plus_INR; ring.
Qed.
Print Assumptions C23_propagate_time.

Example C23_nonvacuous : good_transform 2 ft2 /\ keeps_length 2 pde2 /\ constant_denum pde2 /\ derived_from_fields pde2 /\
  all_length 2 (e_fields env2) /\ (length (e_fields env2) <= length (p_eqns pde2))%nat /\
  length (e_derived env2) = length (p_calc pde2).
Proof.
  split; [exact ft2_good|]. split; [exact pde2_lengths|]. split; [exact pde2_denum|]. split; [exact pde2_derived|].
  split; [repeat constructor|]. split; [cbn; lia|reflexivity].
Qed.

(** C24. If the right-hand side and the implicit coefficient of field [i]
    vanish at zero frequency, no number of Euler steps changes its average. *)
Theorem C24_euler_conserves_mean :
  forall (n : nat) (p : pde) (ft : transform) (filt : option (R -> R)) (dt : R) (i : nat),
  (0 < n)%nat -> good_transform n ft -> keeps_length n p -> keeps_zero filt -> conserved n p i ->
  forall (nsteps step : nat) (e : env), all_length n (e_fields e) ->
  (length (e_fields e) <= length (p_eqns p))%nat ->
  exists e' step', euler_propagate p ft filt dt nsteps step e = Some (e', step') /\
    forall d, nth_error (e_fields e) i = Some d ->
      exists d', nth_error (e_fields e') i = Some d' /\ mean d' = mean d.
Proof. exact euler_conserves. Qed.
Print Assumptions C24_euler_conserves_mean.

Theorem C24_rk4_conserves_mean :
  forall (n : nat) (p : pde) (ft : transform) (filt : option (R -> R)) (dt : R) (i : nat),
  (0 < n)%nat -> good_transform n ft -> keeps_length n p -> keeps_zero filt -> conserved n p i ->
  constant_denum p -> derived_from_fields p ->
  forall (nsteps step : nat) (e : env), all_length n (e_fields e) ->
  (length (e_fields e) <= length (p_eqns p))%nat -> length (e_derived e) = length (p_calc p) ->
  exists e' step', rk4_propagate p ft filt dt nsteps step e = Some (e', step') /\
    forall d, nth_error (e_fields e) i = Some d ->
      exists d', nth_error (e_fields e') i = Some d' /\ mean d' = mean d.
Proof. exact rk4_conserves. Qed.
Print Assumptions C24_rk4_conserves_mean.

(** An equation whose terms all vanish at zero frequency qualifies ... *)
Theorem C24_terms_suffice : forall n p i q, keeps_length n p ->
  nth_error (p_eqns p) i = Some q -> q_sources q = [] ->
  (forall f, In f (q_terms q) \/ In f (q_denum q) -> vanishes_at_zero n f) ->
  (forall (m : nat * (data -> data)) (d : data), In m (p_mods p) -> fst m = i -> nth 0 d C0 = C0 -> nth 0 (snd m d) C0 = C0) ->
  conserved n p i.
Proof. exact conserved_by_terms. Qed.
Print Assumptions C24_terms_suffice.

(** ... and Laplacians, div-grad terms, charge transport and conservative noise do. *)
Theorem C24_conservative_terms : forall n ft, norm_sq (tfreq ft 0) = 0 ->
  (forall k body, (0 < k)%nat -> vanishes_at_zero n (laplacian_term ft k body)) /\
  (forall dim flux, vanishes_at_zero n (flux_term divgrad_mult ft dim flux) /\
                    vanishes_at_zero n (flux_term charge_mult ft dim flux) /\
                    vanishes_at_zero n (flux_term noise_mult ft dim flux)).
Proof.
  intros n ft H. split; [intros; apply laplacian_vanishes; assumption|].
  intros. destruct flux_mults as (A & B & D). repeat split; apply flux_vanishes; assumption.
Qed.
Print Assumptions C24_conservative_terms.

Example C24_nonvacuous : good_transform 2 ft2 /\ keeps_length 2 pde2 /\ keeps_zero (Some (fun x => 1 - x)) /\
  conserved 2 pde2 0 /\ all_length 2 (e_fields env2).
Proof.
  split; [exact ft2_good|]. split; [exact pde2_lengths|]. split; [cbn; ring|]. split; [exact pde2_conserved|repeat constructor].
Qed.
