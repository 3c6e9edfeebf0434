(** C76-C80: terms that prepare the model, noise, implicit terms, setting up a
    solver, copies of fields and scalars. *)
From Verif Require Import DftSpec DftProofs SetupSpec SetupProofs SetupProofs2 SetupProofs3 SetupProofs4 CVec Vec.
From Verif Require Import Complex.
From Coq Require Import Permutation Lra.
Open Scope nat_scope.

(** ** C76 *)

(** A model with any history of registrations is prepared for an advection
    term; further fields and terms are registered under other names.  Then
    after every update of the derived fields the brick of the term is the
    scalar product of the velocity and the gradient of the field, all at their
    present values, provided no velocity has the name of a gradient. *)
Theorem C76_advection : forall grad rs m1 m2 dim field vels new mem i,
  let m := run_regs new_dmodel rs in
  let now := sync_derived m2 mem in
  dim <= 10 -> below m new ->
  adv_prepare grad (brick_slice m2) dim m field vels new = Some m1 ->
  later (new + dim + 1) m1 m2 ->
  (forall v, In v vels -> v <> adv_name field vels /\ forall d, d < dim -> v <> adv_grad_name field d) ->
  brick_get m2 now (adv_name field vels) i = Some (advected grad (shown m2 now field) (map (shown m2 now) vels) i)
  /\ adv_term (brick_slice m2) now field vels i = Copp (advected grad (shown m2 now field) (map (shown m2 now) vels) i).
Proof.
  intros grad rs m1 m2 dim field vels new mem i m now Hd Hb Hp Hl Hv.
  assert (Q := adv_prepared grad m m1 m2 dim field vels new mem i (wf_regs rs _ wf_new) Hb Hd Hp Hl Hv). fold now in Q.
  split; [exact Q|]. unfold adv_term, get_by_name. unfold brick_get in Q.
  destruct (brick_slice m2 (adv_name field vels)); congruence.
Qed.
Print Assumptions C76_advection.

(** It is refused exactly when the number of velocities is not the dimension
    or a field is missing. *)
Theorem C76_advection_accepted_partial : forall grad look dim m field vels new,
  (exists m1, adv_prepare grad look dim m field vels new = Some m1) <->
  length vels = dim /\ forall n, In n (field :: vels) -> exists s, brick_slice m n = Some s.
Proof.
  intros grad look dim m field vels new. unfold adv_prepare. split.
  - intros (m1 & H). destruct (Nat.eqb_spec (length vels) dim) as [E|]; [|discriminate H]. cbn [negb] in H. split; [exact E|].
    destruct (adv_all_exist m field vels) eqn:Ex; [|discriminate H]. unfold adv_all_exist in Ex. apply andb_true_iff in Ex.
    destruct Ex as [Ev Ef]. intros n [<-|Hn]; [apply exists_slice, Ef|]. rewrite forallb_forall in Ev. apply exists_slice, Ev, Hn.
  - intros [<- H]. rewrite Nat.eqb_refl. cbn [negb].
    assert (G : forall n, In n (field :: vels) -> is_brick_name m n = true).
    { intros n Hn. destruct (H n Hn) as (s & Hs). unfold brick_slice in Hs. unfold is_brick_name. destruct (lookup (dm_bricks m) n); [reflexivity|discriminate Hs]. }
    assert (Ex : adv_all_exist m field vels = true).
    { unfold adv_all_exist. rewrite (G field (or_introl eq_refl)), andb_true_r. apply forallb_forall. intros n Hn. apply G. right. exact Hn. }
    rewrite Ex. cbn [negb]. destruct (H field (or_introl eq_refl)) as (s & ->). eauto.
Qed.
Print Assumptions C76_advection_accepted_partial.

(** Registering derived fields under new names is such a later registration. *)
Theorem C76_later_registrations : forall rs ds b,
  let m := run_regs new_dmodel rs in
  (forall d, In d ds -> brick_slice m (df_name d) = None /\ b <= df_slice d) ->
  later b m (run_regs m (map RDerived ds)).
Proof.
  intros rs ds b m H. assert (E : forall l mm, run_regs mm (map RDerived l) = register_all mm l).
  { induction l as [|d l IH]; intros mm; [reflexivity|]. cbn [map run_regs run_reg register_all]. apply IH. }
  rewrite E. apply later_register_all; [apply wf_regs, wf_new|exact H].
Qed.
Print Assumptions C76_later_registrations.

(** A field v with velocities v_0 and v_1: the velocities are never used, the
    term is the squared length of the gradient. *)
Theorem C76_shadowed_velocity_refuted : forall grad mem i, exists m1,
  adv_prepare grad (brick_slice m1) 2 (run_regs new_dmodel [RField (lit "v") 0; RField (lit "v_0") 1; RField (lit "v_1") 2])
    (lit "v") [lit "v_0"; lit "v_1"] 3 = Some m1 /\
  brick_get m1 (sync_derived m1 mem) (adv_name (lit "v") [lit "v_0"; lit "v_1"]) i
  = Some (Cadd (Cmul (grad 0 (mem 0) i) (grad 0 (mem 0) i)) (Cmul (grad 1 (mem 0) i) (grad 1 (mem 0) i))).
Proof. exact shadowed. Qed.
Print Assumptions C76_shadowed_velocity_refuted.

(** Two advection terms of the same field: the first one multiplies its
    velocity with what the slices of the second gradient held before the
    update (slices 8 and 9), not with the gradient of the present field. *)
Theorem C76_second_advection_refuted : forall grad mem i, exists m1 m2,
  adv_prepare grad (brick_slice m2) 2
    (run_regs new_dmodel [RField (lit "u") 0; RField (lit "a") 1; RField (lit "b") 2; RField (lit "c") 3; RField (lit "d") 4])
    (lit "u") [lit "a"; lit "b"] 5 = Some m1 /\
  adv_prepare grad (brick_slice m2) 2 m1 (lit "u") [lit "c"; lit "d"] 8 = Some m2 /\
  brick_get m2 (sync_derived m2 mem) (adv_name (lit "u") [lit "a"; lit "b"]) i
  = Some (Cadd (Cmul (mem 1 i) (mem 8 i)) (Cmul (mem 2 i) (mem 9 i))).
Proof. exact second_advection_stale. Qed.
Print Assumptions C76_second_advection_refuted.

(** Velocities ab, c and a, bc give two terms of the same name: the first term
    uses the velocities of the second. *)
Theorem C76_joined_names_refuted : forall grad mem i, exists m1 m2,
  adv_prepare grad (brick_slice m2) 2
    (run_regs new_dmodel [RField (lit "u") 0; RField (lit "ab") 1; RField (lit "c") 2; RField (lit "a") 3; RField (lit "bc") 4])
    (lit "u") [lit "ab"; lit "c"] 5 = Some m1 /\
  adv_prepare grad (brick_slice m2) 2 m1 (lit "u") [lit "a"; lit "bc"] 8 = Some m2 /\
  brick_get m2 (sync_derived m2 mem) (adv_name (lit "u") [lit "ab"; lit "c"]) i
  = Some (Cadd (Cmul (mem 3 i) (grad 0 (mem 0) i)) (Cmul (mem 4 i) (grad 1 (mem 0) i))).
Proof. exact clash. Qed.
Print Assumptions C76_joined_names_refuted.

(** DivGrad: every flux the term reads is F times the gradient component. *)
Theorem C76_divgrad : forall grad rs F m1 m2 dim field new mem d i,
  let m := run_regs new_dmodel rs in
  let now := sync_derived m2 mem in
  below m new -> dg_prepare grad (brick_slice m2) F dim m field new = Some m1 ->
  later (new + 2 * dim) m1 m2 -> depends_only_on (fun s => s < new) F -> d < dim ->
  dg_flux (brick_slice m2) now field d i = Cmul (F now i) (grad d (shown m2 now field) i).
Proof.
  intros grad rs F m1 m2 dim field new mem d i m now Hb Hp Hl HF Hd.
  assert (Q := dg_prepared grad F m m1 m2 dim field new mem d i (wf_regs rs _ wf_new) Hb Hp Hl HF Hd). fold now in Q.
  unfold dg_flux, get_by_name. unfold brick_get in Q. destruct (brick_slice m2 (dg_flux_name field d)); congruence.
Qed.
Print Assumptions C76_divgrad.

(** Terms of different fields never share a name ... *)
Theorem C76_divgrad_names : forall f d f' d', d < 10 -> d' < 10 -> dg_flux_name f d = dg_flux_name f' d' -> f = f' /\ d = d'.
Proof. exact dg_flux_name_inj. Qed.
Print Assumptions C76_divgrad_names.

(** ... but two terms of one field do: both then use the function of the
    second. *)
Theorem C76_second_divgrad_refuted : forall grad rs F1 F2 m1 m2 dim field new1 new2 mem d i,
  let m := run_regs new_dmodel rs in
  let now := sync_derived m2 mem in
  below m new1 -> new1 + 2 * dim <= new2 ->
  dg_prepare grad (brick_slice m2) F1 dim m field new1 = Some m1 ->
  dg_prepare grad (brick_slice m2) F2 dim m1 field new2 = Some m2 ->
  depends_only_on (fun s => s < new2) F2 -> d < dim ->
  dg_flux (brick_slice m2) now field d i = Cmul (F2 now i) (grad d (shown m2 now field) i).
Proof.
  intros grad rs F1 F2 m1 m2 dim field new1 new2 mem d i m now Hb Hn H1 H2 HF Hd.
  exact (dg_second_wins grad F1 F2 m m1 m2 dim field new1 new2 mem d i (wf_regs rs _ wf_new) Hb Hn H1 H2 HF Hd).
Qed.
Print Assumptions C76_second_divgrad_refuted.

(** A case that meets the hypotheses of C76_advection and C76_divgrad: an
    advection term and then a DivGrad term of the field u. *)
Example C76_nonvacuous : forall grad F, exists m1 m2,
  let m := run_regs new_dmodel [RField (lit "u") 0; RField (lit "vx") 1; RField (lit "vy") 2] in
  below m 3 /\ adv_prepare grad (brick_slice m2) 2 m (lit "u") [lit "vx"; lit "vy"] 3 = Some m1 /\
  dg_prepare grad (brick_slice m2) F 2 m1 (lit "u") 6 = Some m2 /\ later (3 + 2 + 1) m1 m2 /\
  (forall v, In v [lit "vx"; lit "vy"] -> v <> adv_name (lit "u") [lit "vx"; lit "vy"] /\ forall d, d < 2 -> v <> adv_grad_name (lit "u") d).
Proof.
  intros grad F. set (m := run_regs new_dmodel [RField (lit "u") 0; RField (lit "vx") 1; RField (lit "vy") 2]).
  set (l0 := fun _ : str => @None nat).
  set (m0 := register_all (register_all m (adv_fields grad l0 (lit "u") [lit "vx"; lit "vy"] 0 3)) (dg_fields grad l0 F (lit "u") 0 0 2 6)).
  set (l := brick_slice m0).
  exists (register_all m (adv_fields grad l (lit "u") [lit "vx"; lit "vy"] 0 3)).
  exists (register_all (register_all m (adv_fields grad l (lit "u") [lit "vx"; lit "vy"] 0 3)) (dg_fields grad l F (lit "u") 0 0 2 6)).
  split; [|split; [reflexivity|split; [reflexivity|split]]].
  - split; [|intros d []]. intros n s Hs.
    unfold brick_slice in Hs. cbn [m run_regs run_reg add_field dm_bricks dm_cells new_dmodel lookup] in Hs.
    destruct (str_eqb (lit "vy") n); [injection Hs as <-; vm_compute; lia|].
    destruct (str_eqb (lit "vx") n); [injection Hs as <-; vm_compute; lia|].
    destruct (str_eqb (lit "u") n); [injection Hs as <-; vm_compute; lia|discriminate Hs].
  - apply later_register_all.
    + apply wf_register_all, wf_regs, wf_new.
    + intros d Hd. apply dg_fields_in in Hd. destruct Hd as (k & Hk & [->| ->]).
      * split; [|cbn [dg_grad_at grad_field df_slice]; lia]. destruct k as [|[|k]]; [reflexivity|reflexivity|lia].
      * split; [|cbn [dg_flux_at df_slice]; lia]. destruct k as [|[|k]]; [reflexivity|reflexivity|lia].
  - intros v [<-|[<-|[]]]; (split; [discriminate|]); intros [|[|d]] Hd; try discriminate; lia.
Qed.

(** ** C77 *)

(** Currents registered one by one with RegisterDerivedField: Construct finds
    them all, and each shows its own noise. *)
Theorem C77_currents_partial : forall rs prefix dim new noise mem c i,
  let m := register_all (run_regs new_dmodel rs) (noise_fields prefix dim new noise) in
  c < dim -> currents_registered m prefix dim = true /\
  brick_get m (sync_derived m mem) (current_name prefix c) i = Some (noise c i).
Proof. intros rs prefix dim new noise mem c i m Hc. exact (noise_separate _ prefix dim new noise mem c i (wf_regs rs _ wf_new) Hc). Qed.
Print Assumptions C77_currents_partial.

(** Registered together with the term they all read the last one: the
    components of the random current are equal. *)
Theorem C77_term_currents_refuted : forall m prefix dim new noise mem c i,
  (forall k, k < dim -> is_field_name m (current_name prefix k) = false) -> c < dim ->
  let m1 := run_reg m (RTerm (noise_fields prefix dim new noise)) in
  brick_get m1 mem (current_name prefix c) i = brick_get m1 mem (current_name prefix (dim - 1)) i.
Proof.
  intros m prefix dim new noise mem c i Hn Hc m1. unfold brick_get, m1.
  rewrite (noise_shared m prefix dim new noise c Hn Hc). rewrite (noise_shared m prefix dim new noise (dim - 1) Hn) by lia. reflexivity.
Qed.
Print Assumptions C77_term_currents_refuted.

Open Scope R_scope.

(** du/dt = WhiteNoise with the Euler stepper: after any number of steps the
    field is the initial one plus dt sqrt(2 Strength) times the sum of the
    numbers drawn at the node. *)
Theorem C77_white_noise_run : forall n ft dt strength x f d0 steps, unitary_transform n ft -> length f = n ->
  exists e' g, noise_run ft dt strength x n steps {| e_fields := [f]; e_derived := [d0] |} = Some e' /\ e_fields e' = [g] /\
    forall j, (j < n)%nat -> nth j g C0 = Cadd (nth j f C0) (RtoC (dt * sqrt (2 * strength) * rsum steps (fun k => x k j))).
Proof.
  intros n ft dt strength x f d0 steps U Lf. destruct (noise_run_value n ft U dt strength x f d0 steps Lf) as (g & d1 & E & _ & H).
  exists {| e_fields := [g]; e_derived := [d1] |}, g. split; [exact E|]. split; [reflexivity|exact H].
Qed.
Print Assumptions C77_white_noise_run.

(** The covariance of what is accumulated in the time T = steps dt, for
    uncorrelated standardised numbers: 2 Strength T dt at a node, 0 between
    different nodes. *)
Theorem C77_covariance : forall O (E : expectation O) n ft dt strength (x : nat -> nat -> O -> R) f d0 steps i j (g : O -> data),
  unitary_transform n ft -> length f = n -> 0 <= strength -> white E steps n x ->
  (forall o, exists e', noise_run ft dt strength (fun k a => x k a o) n steps {| e_fields := [f]; e_derived := [d0] |} = Some e' /\ e_fields e' = [g o]) ->
  (i < n)%nat -> (j < n)%nat ->
  ex E (fun o => (Re (nth i (g o) C0) - Re (nth i f C0)) * (Re (nth j (g o) C0) - Re (nth j f C0)))
  = if Nat.eqb i j then 2 * strength * (INR steps * dt) * dt else 0.
Proof.
  intros O E n ft dt strength x f d0 steps i j g U Lf Hs W Hg Hi Hj.
  assert (V : forall o a, (a < n)%nat -> Re (nth a (g o) C0) - Re (nth a f C0) = dt * sqrt (2 * strength) * rsum steps (fun k => x k a o)).
  { intros o a Ha. destruct (Hg o) as (e' & E1 & E2).
    destruct (C77_white_noise_run n ft dt strength (fun k b => x k b o) f d0 steps U Lf) as (e2 & g2 & E3 & E4 & E5).
    rewrite E1 in E3. injection E3 as <-. rewrite E2 in E4. injection E4 as E4. rewrite <- E4 in E5. rewrite E5 by exact Ha.
    cbn [Cadd Re RtoC fst]. ring. }
  rewrite (ex_ext E _ (fun o => (dt * sqrt (2 * strength) * rsum steps (fun k => x k i o)) * (dt * sqrt (2 * strength) * rsum steps (fun k => x k j o)))).
  - rewrite (covariance E x (dt * sqrt (2 * strength)) steps n i j W Hi Hj). destruct (Nat.eqb i j); [|reflexivity].
    replace ((dt * sqrt (2 * strength)) ^ 2) with (dt * dt * (sqrt (2 * strength) * sqrt (2 * strength))) by ring.
    rewrite sqrt_sqrt by lra. ring.
  - intros o. rewrite !V by assumption. reflexivity.
Qed.
Print Assumptions C77_covariance.

(** So the documented strength, a variance 2 Strength T after the time T, is
    met only with the time step 1. *)
Theorem C77_documented_strength_refuted : forall O (E : expectation O) n ft dt strength (x : nat -> nat -> O -> R) f d0 steps i (g : O -> data),
  unitary_transform n ft -> length f = n -> 0 < strength -> 0 < dt -> (0 < steps)%nat -> white E steps n x ->
  (forall o, exists e', noise_run ft dt strength (fun k a => x k a o) n steps {| e_fields := [f]; e_derived := [d0] |} = Some e' /\ e_fields e' = [g o]) ->
  (i < n)%nat ->
  (ex E (fun o => (Re (nth i (g o) C0) - Re (nth i f C0)) ^ 2) = 2 * strength * (INR steps * dt) <-> dt = 1).
Proof.
  intros O E n ft dt strength x f d0 steps i g U Lf Hs Hdt Hst W Hg Hi.
  rewrite (ex_ext E _ (fun o => (Re (nth i (g o) C0) - Re (nth i f C0)) * (Re (nth i (g o) C0) - Re (nth i f C0)))) by (intros o; ring).
  rewrite (C77_covariance O E n ft dt strength x f d0 steps i i g U Lf ltac:(lra) W Hg Hi Hi). rewrite Nat.eqb_refl.
  assert (P : 0 < 2 * strength * (INR steps * dt)).
  { apply Rmult_lt_0_compat; [lra|]. apply Rmult_lt_0_compat; [apply lt_0_INR, Hst|exact Hdt]. }
  split; intros H; [|subst dt; ring]. apply (Rmult_eq_reg_l (2 * strength * (INR steps * dt))); lra.
Qed.
Print Assumptions C77_documented_strength_refuted.

(** Uncorrelated standardised numbers exist for any number of steps and nodes,
    and the transform of the library is one of those considered. *)
Example C77_nonvacuous : forall steps, (0 < steps)%nat ->
  (exists x, white (average (steps * nodes [4%Z; 4%Z])) steps (nodes [4%Z; 4%Z]) x) /\ unitary_transform (nodes [4%Z; 4%Z]) (fftw_transform [4%Z; 4%Z]).
Proof.
  intros steps Hs. split.
  - eexists. apply white_numbers. apply Nat.mul_pos_pos; [exact Hs|]. vm_compute. lia.
  - apply fftw_unitary. split; [left; reflexivity|]. repeat constructor.
Qed.

(** ** C78 *)

(** A term that does not depend on any brick is accepted. *)
Theorem C78_independent_accepted : forall t b n a, field_independent t -> t b probe 0 n = Some a -> is_implicit t b n probe = Some true.
Proof. exact independent_implicit. Qed.
Print Assumptions C78_independent_accepted.

(** Init accepts a model iff it accepts every implicit term, so the order in
    which the map is walked does not matter. *)
Theorem C78_init_accepts : forall ts b n,
  (init_accepts ts b n = true <-> Forall (fun t => is_implicit (snd t) b n probe = Some true) ts)
  /\ forall ts', Permutation ts ts' -> init_accepts ts b n = init_accepts ts' b n.
Proof.
  intros ts b n. split; [apply init_all|]. intros ts' P.
  assert (G : forall l l', Permutation l l' -> init_accepts l b n = true -> init_accepts l' b n = true).
  { intros l l' Pl H. apply init_all. apply init_all in H. exact (Permutation_Forall Pl H). }
  destruct (init_accepts ts b n) eqn:E1.
  - symmetry. exact (G ts ts' P E1).
  - destruct (init_accepts ts' b n) eqn:E2; [|reflexivity]. rewrite (G ts' ts (Permutation_sym P) E2) in E1. discriminate E1.
Qed.
Print Assumptions C78_init_accepts.

(** Exactly these affine terms are accepted: those whose weights at the
    frequency (0.4, 0.4) add up to less than 5e-10. *)
Theorem C78_affine_accepted_partial : forall c ws b n, (0 < n)%nat ->
  (is_implicit (affine_term c ws) b n probe = Some true <->
   Rabs (Re (total_weight ws [2 / 5; 2 / 5])) <= 5 / 10 ^ 10 /\ Rabs (Im (total_weight ws [2 / 5; 2 / 5])) <= 5 / 10 ^ 10).
Proof. exact affine_accepted. Qed.
Print Assumptions C78_affine_accepted_partial.

(** A term that depends on one field, with a weight that is not small at that
    frequency, is rejected. *)
Theorem C78_one_field_rejected : forall c name w b n, (0 < n)%nat -> 5 / 10 ^ 10 < Rabs (Re (w [2 / 5; 2 / 5])) ->
  is_implicit (affine_term c [(name, w)]) b n probe = Some false.
Proof.
  intros c name w b n Hn Hw. pose proof (affine_accepted c [(name, w)] b n Hn) as H. cbn [total_weight] in H.
  rewrite affine_check in * by exact Hn. destruct (close _ _ _); [|reflexivity]. exfalso. destruct H as [H _]. specialize (H eq_refl).
  destruct H as [H _]. cbn [Cadd C0 Re fst] in H. rewrite Rplus_0_r in H. unfold Re in *. lra.
Qed.
Print Assumptions C78_one_field_rejected.

(** The check misses terms that depend on the difference of two fields: the
    weights of all the bricks are added up before they are compared with 0. *)
Theorem C78_difference_refuted : forall b n, (0 < n)%nat ->
  exists t, is_implicit t b n probe = Some true /\ ~ field_independent t.
Proof.
  intros b n Hn. exists (affine_term (fun _ => C0) [(lit "u", fun _ => C1); (lit "v", fun _ => Copp C1)]). split.
  - apply affine_accepted; [exact Hn|]. cbn [total_weight Cadd Copp C1 C0 Re Im fst snd].
    replace (1 + (- (1) + 0)) with 0 by ring. replace (0 + (- 0 + 0)) with 0 by ring. rewrite Rabs_R0.
    assert (0 < / 10 ^ 10) by (apply Rinv_0_lt_compat, pow_lt; lra). unfold Rdiv. lra.
  - intros H. specialize (H (fun _ _ => C0) (fun x _ => if str_eqb x (lit "u") then C1 else C0) probe 0 1%nat).
    unfold affine_term in H. injection H as H. cbn in H. lra.
Qed.
Print Assumptions C78_difference_refuted.

(** It misses terms that vanish at the one frequency it looks at. *)
Theorem C78_one_frequency_refuted : forall b n, (0 < n)%nat ->
  exists t, is_implicit t b n probe = Some true /\ ~ field_independent t.
Proof.
  intros b n Hn. exists (affine_term (fun _ => C0) [(lit "u", fun f => RtoC (nth 0 f 0 - 2 / 5))]). split.
  - apply affine_accepted; [exact Hn|]. cbn [total_weight Cadd RtoC C0 Re Im fst snd nth].
    replace (2 / 5 - 2 / 5 + 0) with 0 by ring. replace (0 + 0) with 0 by ring. rewrite Rabs_R0.
    assert (0 < / 10 ^ 10) by (apply Rinv_0_lt_compat, pow_lt; lra). unfold Rdiv. lra.
  - intros H. specialize (H (fun _ _ => C0) (fun _ _ => C1) (fun _ => [0; 0]) 0 1%nat).
    unfold affine_term in H. injection H as H. cbn in H. lra.
Qed.
Print Assumptions C78_one_frequency_refuted.

(** A constant of the model is a brick too, so a term K g(f) with a scalar K
    is taken for one that depends on a field, and Init panics. *)
Theorem C78_scalar_coefficient_refuted : forall name g b n, (0 < n)%nat -> 5 / 10 ^ 10 < Rabs (g [2 / 5; 2 / 5]) ->
  init_accepts [(lit "TERM", affine_term (fun _ => C0) [(name, fun f => RtoC (g f))])] b n = false.
Proof.
  intros name g b n Hn Hg. cbn [init_accepts].
  rewrite (C78_one_field_rejected (fun _ => C0) name (fun f => RtoC (g f)) b n Hn); [reflexivity|exact Hg].
Qed.
Print Assumptions C78_scalar_coefficient_refuted.

(** The frequency of the check has two components: a term of a
    three-dimensional model that reads the third one panics in Init. *)
Theorem C78_third_component_refuted : forall name g b n, (0 < n)%nat ->
  field_independent (reads_third g) /\ init_accepts [(name, reads_third g)] b n = false.
Proof.
  intros name g b n Hn. split.
  - intros b1 b2 freq time k. reflexivity.
  - cbn [init_accepts]. rewrite third_component_panics by exact Hn. reflexivity.
Qed.
Print Assumptions C78_third_component_refuted.

(** The Laplacian with a fixed coefficient is independent of the fields and is
    accepted; the same with a scalar of the model is not. *)
Example C78_nonvacuous : forall b,
  (exists t a, field_independent t /\ t b probe 0 64%nat = Some a /\ length a = 64%nat) /\
  5 / 10 ^ 10 < Rabs ((fun f => - (4) * PI * PI * (nth 0 f 0 * nth 0 f 0 + nth 1 f 0 * nth 1 f 0)) [2 / 5; 2 / 5]).
Proof.
  intros b. split.
  - exists (affine_term (fun f => RtoC (- (4) * PI * PI * (nth 0 f 0 * nth 0 f 0 + nth 1 f 0 * nth 1 f 0))) []).
    eexists. split; [intros b1 b2 freq time k; reflexivity|]. split; [reflexivity|]. rewrite map_length, seq_length. reflexivity.
  - cbn [nth]. rewrite Rabs_left1.
    + assert (1 < PI) by (pose proof PI_RGT_0; pose proof PI_4; pose proof PI2_1; lra).
      assert (1 < PI * PI) by nra. assert (T : 5 / 10 ^ 10 < 1) by (unfold Rdiv; simpl; lra). nra.
    + assert (0 < PI) by exact PI_RGT_0. assert (0 < PI * PI) by nra. nra.
Qed.

(** ** C79 *)

(** NewSolver accepts a model iff Init returns and every field has as many
    nodes as the domain; the solver then starts at time 0 with the Euler
    stepper, the given time step and no filter, callback or monitor. *)
Theorem C79_new_solver : forall init_ok lens dom dt,
  (exists s, new_solver init_ok lens dom dt = Some s) <->
  init_ok = true /\ forall n, In n lens -> Z.of_nat n = fold_right Z.mul 1%Z dom.
Proof.
  intros init_ok lens dom dt.
  assert (P : prod_int dom = fold_right Z.mul 1%Z dom).
  { unfold prod_int. assert (G : forall l a, fold_left Z.mul l a = (a * fold_right Z.mul 1 l)%Z).
    { induction l as [|x l IH]; intros a; cbn [fold_left fold_right]; [lia|]. rewrite IH. lia. }
    rewrite G. lia. }
  unfold new_solver. destruct init_ok; cbn [negb].
  - destruct (forallb _ lens) eqn:E.
    + split; [intros _|eauto]. split; [reflexivity|]. intros n Hn. rewrite forallb_forall in E. specialize (E n Hn). apply Z.eqb_eq in E. congruence.
    + split; [intros (s & H); discriminate H|]. intros [_ H]. exfalso.
      assert (Q : forallb (fun n => (Z.of_nat n =? prod_int dom)%Z) lens = true).
      { apply forallb_forall. intros n Hn. apply Z.eqb_eq. rewrite P. apply H, Hn. }
      congruence.
  - split; [intros (s & H); discriminate H|intros [H _]; discriminate H].
Qed.
Print Assumptions C79_new_solver.

Theorem C79_new_solver_state : forall init_ok lens dom dt s, new_solver init_ok lens dom dt = Some s ->
  setup_time s = 0 /\ su_scheme s = Euler /\ su_step_dt s = dt /\ su_filter s = None /\ su_callbacks s = [] /\ su_monitors s = [].
Proof.
  intros init_ok lens dom dt s H. unfold new_solver in H. destruct init_ok; [|discriminate H]. cbn [negb] in H.
  destruct (forallb _ lens); [|discriminate H]. injection H as <-. unfold setup_time. cbn. rewrite Rmult_0_l. tauto.
Qed.
Print Assumptions C79_new_solver_state.

(** SetStepper knows two names and panics otherwise; callbacks and monitors are
    kept and so is the time step of the solver. *)
Theorem C79_set_stepper : forall name s,
  (set_stepper name s = None <-> name <> lit "euler" /\ name <> lit "rk4") /\
  forall s', set_stepper name s = Some s' ->
    su_scheme s' = (if str_eqb name (lit "rk4") then RK4 else Euler) /\ su_step_dt s' = su_dt s /\
    su_callbacks s' = su_callbacks s /\ su_monitors s' = su_monitors s.
Proof.
  intros name s. unfold set_stepper. split.
  - destruct (str_eqb name (lit "euler")) eqn:E1.
    + apply ParseProofs.str_eqb_eq in E1. split; [intros H; discriminate H|intros [H _]; congruence].
    + destruct (str_eqb name (lit "rk4")) eqn:E2.
      * apply ParseProofs.str_eqb_eq in E2. split; [intros H; discriminate H|intros [_ H]; congruence].
      * split; [intros _|reflexivity]. split; intros ->; rewrite DerivedProofs.str_eqb_refl in *; discriminate.
  - intros s' H. destruct (str_eqb name (lit "euler")) eqn:E1.
    + apply ParseProofs.str_eqb_eq in E1. subst name. injection H as <-. repeat split; reflexivity.
    + destruct (str_eqb name (lit "rk4")) eqn:E2; [|discriminate H]. injection H as <-. repeat split; reflexivity.
Qed.
Print Assumptions C79_set_stepper.

(** Called on a new solver, before the first step, it keeps the time and the
    (absent) filter ... *)
Theorem C79_set_stepper_on_new_partial : forall init_ok lens dom dt s name s', new_solver init_ok lens dom dt = Some s ->
  set_stepper name s = Some s' -> setup_time s' = setup_time s /\ su_filter s' = su_filter s /\ su_step_dt s' = su_step_dt s.
Proof.
  intros init_ok lens dom dt s name s' H1 H2. destruct (C79_new_solver_state _ _ _ _ _ H1) as (T & _ & D & F & _).
  assert (Ed : su_dt s = dt).
  { unfold new_solver in H1. destruct init_ok; [|discriminate H1]. cbn [negb] in H1. destruct (forallb _ lens); [|discriminate H1]. injection H1 as <-. reflexivity. }
  rewrite T, F, D. unfold set_stepper in H2. destruct (str_eqb name (lit "euler")); [|destruct (str_eqb name (lit "rk4")); [|discriminate H2]];
    injection H2 as <-; unfold setup_time; cbn [fresh_stepper su_step su_step_dt su_filter]; rewrite Rmult_0_l; auto.
Qed.
Print Assumptions C79_set_stepper_on_new_partial.

(** ... but later it sets the time back to 0 and forgets the filter. *)
Theorem C79_set_stepper_restarts_refuted : forall name s n f s', su_dt s <> 0 -> su_step_dt s <> 0 ->
  set_stepper name (run_steps (S n) (set_filter f s)) = Some s' ->
  setup_time s' = 0 /\ setup_time (run_steps (S n) (set_filter f s)) <> 0 /\
  su_filter s' = None /\ su_filter (run_steps (S n) (set_filter f s)) = Some f.
Proof.
  intros name s n f s' H1 H2 H.
  assert (T : setup_time s' = 0 /\ su_filter s' = None).
  { unfold set_stepper in H. destruct (str_eqb name (lit "euler")); [|destruct (str_eqb name (lit "rk4")); [|discriminate H]];
      injection H as <-; unfold setup_time; cbn [fresh_stepper su_step su_step_dt su_filter]; rewrite Rmult_0_l; auto. }
  split; [apply T|]. split; [|split; [apply T|reflexivity]].
  unfold setup_time. cbn [run_steps set_filter su_step su_step_dt]. apply Rmult_integral_contrapositive_currified; [|exact H2].
  apply not_0_INR. lia.
Qed.
Print Assumptions C79_set_stepper_restarts_refuted.

(** Callbacks and monitors are kept in the order in which they are added;
    adding them, stepping and setting a filter change nothing else. *)
Theorem C79_registration_order : forall cs ms n f s, let s1 := fold_left (fun s c => add_callback c s) cs s in let s2 := fold_left (fun s c => add_monitor c s) ms s1 in
  let s3 := run_steps n (set_filter f s2) in
  su_callbacks s3 = su_callbacks s ++ cs /\ su_monitors s3 = su_monitors s ++ ms /\ su_filter s2 = su_filter s /\ su_filter s3 = Some f
  /\ su_scheme s3 = su_scheme s /\ su_dt s3 = su_dt s /\ su_step_dt s3 = su_step_dt s /\ setup_time s2 = setup_time s
  /\ setup_time s3 = setup_time s + INR n * su_step_dt s.
Proof.
  intros cs ms n f s s1 s2 s3.
  assert (H1 : su_callbacks s1 = su_callbacks s ++ cs /\ su_monitors s1 = su_monitors s /\ su_filter s1 = su_filter s /\ su_scheme s1 = su_scheme s /\ su_dt s1 = su_dt s /\ su_step_dt s1 = su_step_dt s /\ su_step s1 = su_step s).
  { unfold s1. clear. revert s. induction cs as [|c cs IH]; intros s; cbn [fold_left]; [rewrite app_nil_r; auto 10|].
    destruct (IH (add_callback c s)) as (-> & -> & -> & -> & -> & -> & ->). cbn [add_callback su_callbacks su_monitors su_filter su_scheme su_dt su_step_dt su_step]. rewrite <- app_assoc. auto 10. }
  assert (H2 : su_callbacks s2 = su_callbacks s1 /\ su_monitors s2 = su_monitors s1 ++ ms /\ su_filter s2 = su_filter s1 /\ su_scheme s2 = su_scheme s1 /\ su_dt s2 = su_dt s1 /\ su_step_dt s2 = su_step_dt s1 /\ su_step s2 = su_step s1).
  { unfold s2. generalize s1. clear. induction ms as [|c ms IH]; intros s; cbn [fold_left]; [rewrite app_nil_r; auto 10|].
    destruct (IH (add_monitor c s)) as (-> & -> & -> & -> & -> & -> & ->). cbn [add_monitor su_callbacks su_monitors su_filter su_scheme su_dt su_step_dt su_step]. rewrite <- app_assoc. auto 10. }
  destruct H1 as (A1 & A2 & A3 & A4 & A5 & A6 & A7), H2 as (B1 & B2 & B3 & B4 & B5 & B6 & B7).
  unfold s3, setup_time, run_steps, set_filter. cbn [su_callbacks su_monitors su_filter su_scheme su_dt su_step_dt su_step].
  rewrite B1, B2, B3, B4, B5, B6, B7, A1, A2, A3, A4, A5, A6, A7. repeat (split; [reflexivity|]). rewrite plus_INR. ring.
Qed.
Print Assumptions C79_registration_order.

Example C79_nonvacuous : exists s s', new_solver true [16; 16]%nat [4; 4]%Z (1 / 10) = Some s /\
  set_stepper (lit "rk4") (run_steps 3 (set_filter (fun x => 1 - x) s)) = Some s'.
Proof. eexists. eexists. split; reflexivity. Qed.

(** ** C80 *)
Open Scope nat_scope.

(** NewField: refused for a reserved prefix or data of another length; with nil
    it is zero everywhere, otherwise it shows the caller's own slice. *)
Theorem C80_new_field_partial : forall s dst name n d,
  (new_field s dst name n d = None <-> name_ok name = false \/ (exists sl len, d = Some (sl, len) /\ len <> n)) /\
  forall s', new_field s dst name n d = Some s' ->
    match d with
    | None => (forall i, value_get s' dst i = C0) /\ (forall sl, sl < st_used s -> st_mem s' sl = st_mem s sl)
    | Some (sl, _) => forall i v, value_get s' dst i = st_mem s sl i
        /\ forall sl' k, st_mem (write_value s' dst i v) sl' k = if Nat.eqb sl' sl && Nat.eqb k i then v else st_mem s sl' k
    end.
Proof.
  intros s dst name n d. unfold new_field. destruct (name_ok name) eqn:En; cbn [negb].
  - destruct d as [[sl len]|].
    + destruct (Nat.eqb_spec len n) as [->|Hne].
      * split; [split; [discriminate|intros [H|(a & b & H & Q)]; [discriminate H|injection H as <- <-; congruence]]|].
        intros s' H i v. injection H as <-. unfold value_get, write_value, put_cell, set_slice. cbn [st_cells st_mem].
        rewrite Nat.eqb_refl. cbn [st_mem]. split; [reflexivity|]. intros sl' k. destruct (Nat.eqb_spec sl' sl) as [->|_]; reflexivity.
      * split; [split; [intros _; right; eauto|reflexivity]|]. intros s' H. discriminate H.
    + split; [split; [discriminate|intros [H|(a & b & H & _)]; discriminate H]|].
      intros s' H. injection H as <-. unfold value_get, set_slice. cbn [st_cells st_mem]. rewrite Nat.eqb_refl, Nat.eqb_refl. split; [reflexivity|].
      intros sl Hsl. destruct (Nat.eqb_spec sl (st_used s)); [lia|reflexivity].
  - split; [tauto|]. intros s' H. discriminate H.
Qed.
Print Assumptions C80_new_field_partial.

(** Field.Copy: the copy shows the same values, and writing to either leaves
    the other as it was. *)
Theorem C80_copy_is_deep : forall s c dst name sl len s', c <> dst -> st_cells s c = VField name sl len -> sl < st_used s ->
  copy_field s c dst = Some s' ->
  (forall i, value_get s' dst i = value_get s c i /\ value_get s' c i = value_get s c i) /\
  (forall i v k, value_get (write_value s' dst i v) c k = value_get s c k /\
                 value_get (write_value s' c i v) dst k = value_get s c k /\
                 value_get (write_value s' dst i v) dst k = if Nat.eqb k i then v else value_get s c k).
Proof.
  intros s c dst name sl len s' Hne Hc Hsl H. unfold copy_field in H. rewrite Hc in H. unfold new_field in H.
  destruct (name_ok name); [|discriminate H]. cbn [negb] in H. injection H as <-.
  assert (Ec : Nat.eqb c dst = false) by (apply Nat.eqb_neq; exact Hne).
  assert (Es : Nat.eqb sl (st_used s) = false) by (apply Nat.eqb_neq; lia).
  assert (Es2 : Nat.eqb (st_used s) sl = false) by (apply Nat.eqb_neq; lia).
  split.
  - intros i. unfold value_get, set_slice. cbn [st_cells st_mem]. rewrite Hc, Ec, !Nat.eqb_refl, ?Es. split; reflexivity.
  - intros i v k. unfold value_get, write_value, set_slice. cbn [st_cells st_mem]. rewrite Hc, Ec, !Nat.eqb_refl. cbn [st_cells st_mem].
    rewrite ?Hc, ?Ec, ?Nat.eqb_refl, ?Es, ?Es2. repeat split; reflexivity.
Qed.
Print Assumptions C80_copy_is_deep.

(** Scalar.SetFloat changes nothing: every variable and the brick made from it
    still show the value they had. *)
Theorem C80_set_float_refuted : forall s c recv x c' i, (forall k, k = recv -> c' <> k) ->
  value_get (set_float s c recv x) c' i = value_get s c' i.
Proof.
  intros s c recv x c' i H. unfold set_float. destruct (st_cells s c) as [n sl len|n v] eqn:E; [reflexivity|].
  unfold value_get, put_cell. cbn [st_cells st_mem]. destruct (Nat.eqb_spec c' recv) as [->|_]; [exfalso; exact (H recv eq_refl eq_refl)|reflexivity].
Qed.
Print Assumptions C80_set_float_refuted.

Example C80_nonvacuous : exists s s' s'',
  new_scalar {| st_cells := fun _ => VScalar [] C0; st_mem := fun _ _ => C0; st_used := 0 |} 0 (lit "gamma") C1 = Some s /\
  value_get (set_float s 0 7 3) 0 0 = C1 /\
  new_field s 1 (lit "conc") 16 None = Some s' /\ copy_field s' 1 2 = Some s'' /\ st_cells s' 1 = VField (lit "conc") 0 16 /\ 0 < st_used s'.
Proof.
  eexists. eexists. eexists. split; [reflexivity|]. split; [reflexivity|]. split; [reflexivity|]. split; [reflexivity|]. split; [reflexivity|]. cbn [st_used]. lia.
Qed.
