(** Properties C26-C30: the dimer and the implicit Euler steppers.  [transform]
    is any transform with the properties proved for the real one in
    C07_transform_is_unitary. *)
From Verif Require Import DftModel DftProofs DftProps SddProofs SddModel SddSpec.
From Coq Require Import Psatz.
Open Scope R_scope.

(** C26. After SetInitialOrientation with a vector that is not zero and any
    number of steps the orientation is a unit vector of the right size and the
    fields keep their number and length. *)
Theorem C26_unit_orientation_every_step : forall n k p ft s0 o s e steps s' e',
  unitary_transform n ft -> keeps_length n p -> (0 < n)%nat ->
  length (e_fields e) = k -> all_length n (e_fields e) ->
  length (s_orient s0) = (k * n)%nat -> s_tau_orient s0 <> 0 ->
  set_initial_orientation s0 o = Some s -> (exists x, In x o /\ x <> 0) ->
  sdd_run p ft steps s e = Some (s', e') ->
  unit_vector (s_orient s') /\ length (s_orient s') = (k * n)%nat /\
  length (e_fields e') = k /\ all_length n (e_fields e') /\
  sdd_time s' = sdd_time s + INR steps * s_dt s.
Proof. exact run_from_start. Qed.
Print Assumptions C26_unit_orientation_every_step.

(** SetInitialOrientation normalises and remembers the length. *)
Theorem C26_initial_orientation : forall s o s',
  set_initial_orientation s o = Some s' -> (exists x, In x o /\ x <> 0) ->
  unit_vector (s_orient s') /\ s_init_len s' = sqrt (rdot o o) /\ 0 < s_init_len s' /\
  length (s_orient s') = length (s_orient s) /\ s_ready s' = true.
Proof. exact set_orientation_unit. Qed.
Print Assumptions C26_initial_orientation.

(** Init with two states of the same shape that differ in their real parts:
    the orientation is a unit vector and the first state moved by the dimer
    length along it is the second. *)
Theorem C26_init : forall s init final,
  map (@length C) init = map (@length C) final -> length (s_orient s) = length (concat init) ->
  (forall i j, Im (nth j (nth i init []) C0) = Im (nth j (nth i final []) C0)) -> init <> final ->
  exists s', sdd_init s init final = Some s' /\ unit_vector (s_orient s') /\ 0 < s_init_len s' /\ s_ready s' = true /\
  shift_fields (s_init_len s') (s_orient s') init = final.
Proof. exact init_leads. Qed.
Print Assumptions C26_init.
Example C26_init_nonvacuous : exists s', sdd_init (new_sdd 4 1) [[RtoC 1; RtoC 2]; [RtoC 0; RtoC 5]] [[RtoC 1; RtoC 3]; [RtoC 0; RtoC 4]] = Some s' /\ unit_vector (s_orient s').
Proof.
  destruct (C26_init (new_sdd 4 1) [[RtoC 1; RtoC 2]; [RtoC 0; RtoC 5]] [[RtoC 1; RtoC 3]; [RtoC 0; RtoC 4]]) as (s' & E & U & _); try reflexivity.
  - intros [|[|[|i]]] [|[|[|j]]]; reflexivity.
  - intros E. injection E as E _. apply eq_IZR in E. discriminate.
  - exists s'. split; [exact E|exact U].
Qed.

(** The dimer length starts at the initial length, never grows, never drops
    below the minimum. *)
Theorem C26_length_starts : forall s, s_min_len s <= s_init_len s -> dimer_length s 0 = s_init_len s.
Proof. exact dimer_length_start. Qed.
Theorem C26_length_never_grows : forall s t t',
  0 <= s_init_len s -> 0 < s_tau_dimer s -> t <= t' -> dimer_length s t' <= dimer_length s t.
Proof. exact dimer_length_decreasing. Qed.
Theorem C26_length_at_least_minimum : forall s t, s_min_len s <= dimer_length s t.
Proof. exact dimer_length_at_least. Qed.
(** It has length [l] at RequiredDimerLengthTime(l) and is the minimum from
    RequiredDimerLengthTime(minimum) on. *)
Theorem C26_length_reached : forall s l,
  0 < s_init_len s -> 0 < s_tau_dimer s -> 0 < l -> s_min_len s <= l ->
  dimer_length s (required_dimer_length_time s l) = l.
Proof. exact dimer_length_reached. Qed.
Theorem C26_length_stays_minimum : forall s t,
  0 < s_init_len s -> 0 < s_tau_dimer s -> 0 < s_min_len s ->
  required_dimer_length_time s (s_min_len s) <= t -> dimer_length s t = s_min_len s.
Proof. exact dimer_length_stays. Qed.
Print Assumptions C26_length_starts.
Print Assumptions C26_length_never_grows.
Print Assumptions C26_length_at_least_minimum.
Print Assumptions C26_length_reached.
Print Assumptions C26_length_stays_minimum.

(** The forces are evaluated half a dimer length before and after the centre and
    the fields are back at the centre when they are moved. *)
Theorem C26_ends_and_centre : forall n ft, good_transform n ft -> forall p l o e,
  all_length n (e_fields e) ->
  e_fields (at_start p ft l o e) = map (fft ft) (shift_fields (- l / 2) o (e_fields e)) /\
  e_fields (at_end p ft l o e) = map (fft ft) (shift_fields (l / 2) o (e_fields e)) /\
  e_fields (at_centre p ft l o e) = map (fft ft) (e_fields e).
Proof.
  intros n ft G p l o e H. split; [apply (at_start_fields ft)|]. split; [apply (at_end_fields n ft G); exact H|].
  apply (at_centre_fields n ft G). exact H.
Qed.
Print Assumptions C26_ends_and_centre.

Example C26_nonvacuous : exists s s' e', set_initial_orientation (new_sdd 2 1) [3; 4] = Some s /\ s_tau_orient s <> 0 /\
  unitary_transform 1 id1 /\ keeps_length 1 demo_pde /\
  sdd_step demo_pde id1 demo_sdd demo_env = Some (s', e') /\ s_orient s' <> [] /\
  unitary_transform (nodes [4; 3]%Z) (fftw_transform [4; 3]%Z).
Proof.
  destruct demo_step as (s' & e' & H & _). eexists. exists s', e'. split; [reflexivity|]. split; [cbn; lra|]. split; [exact id1_unitary|].
  split; [exact demo_lengths|]. split; [exact H|].
  split.
  - destruct (sdd_step_ready 1 2 _ _ _ _ _ _ id1_unitary demo_lengths demo_ready H) as ([_ _ _ L _ _ _] & _). intros E. rewrite E in L. discriminate.
  - apply C07_transform_is_unitary. split; [left; reflexivity|repeat constructor].
Qed.

(** C27. Sherman-Morrison: the answer solves (D + u v^T) x = b whenever D has no
    zero and 1 + v^T D^-1 u is not zero. *)
Theorem C27_exact_solution : forall n D u v b,
  length D = n -> length u = n -> length v = n -> length b = n ->
  (forall i, (i < n)%nat -> nth i D C0 <> C0) ->
  Cadd C1 (csum n (fun j => Cdiv (Cmul (nth j v C0) (nth j u C0)) (nth j D C0))) <> C0 ->
  solves_rank_one n D u v (dsm_dot {| m_inv := map (fun z => Cdiv C1 z) D; m_u := u; m_v := v |} b) b.
Proof. exact sherman_morrison. Qed.
Print Assumptions C27_exact_solution.

(** and it is the only solution. *)
Theorem C27_only_solution : forall n D u v b x y,
  (forall i, (i < n)%nat -> nth i D C0 <> C0) ->
  Cadd C1 (csum n (fun j => Cdiv (Cmul (nth j v C0) (nth j u C0)) (nth j D C0))) <> C0 ->
  solves_rank_one n D u v x b -> solves_rank_one n D u v y b ->
  forall i, (i < n)%nat -> nth i x C0 = nth i y C0.
Proof. exact sherman_morrison_unique. Qed.
Print Assumptions C27_only_solution.

(** The matrix built for a field is the one of the semi-implicit dimer
    equation. *)
Theorem C27_householder_denum : forall n dt a o d,
  length a = n -> length o = n -> length d = n -> regular_step n dt o a ->
  forall i, (i < n)%nat ->
  let x := dsm_dot (householder_denum dt a o 2) d in
  Csub (nth i x C0) (Cmul (RtoC dt) (reflect n o (fun j => Cmul (nth j a C0) (nth j x C0)) i)) = nth i d C0.
Proof. exact householder_denum_solves. Qed.
Print Assumptions C27_householder_denum.

Example C27_nonvacuous : exists D u v b : data, length D = 2%nat /\ (forall i, (i < 2)%nat -> nth i D C0 <> C0) /\
  Cadd C1 (csum 2 (fun j => Cdiv (Cmul (nth j v C0) (nth j u C0)) (nth j D C0))) = RtoC 3 /\ RtoC 3 <> C0 /\ length b = 2%nat.
Proof.
  exists [C1; C1], [C1; C1], [C1; C1], [C0; C1]. split; [reflexivity|]. split.
  - intros [|[|i]] Hi; [exact C1_neq_0|exact C1_neq_0|lia].
  - split; [|split; [apply RtoC_neq0; lra|reflexivity]]. cbn. replace (RtoC 3) with (Cadd C1 (Cadd C1 C1)) by csolve. field. exact C1_neq_0.
Qed.

(** C28. For a unit orientation the transformation reverses the component along
    the dimer, leaves what is orthogonal to it, is its own inverse and preserves
    inner products. *)
Theorem C28_reflection_partial : forall n ft o, unitary_transform n ft -> (0 < n)%nat -> length o = n -> unit_vector o ->
  let ho := fun x => householder x (fft ft (map RtoC o)) 2 n in
  (forall c, ho (map (Cmul c) (fft ft (map RtoC o))) = map (Cmul (Copp c)) (fft ft (map RtoC o))) /\
  (forall x, length x = n -> inner n x (fft ft (map RtoC o)) = C0 -> ho x = x) /\
  (forall x, length x = n -> ho (ho x) = x) /\
  (forall x y, length x = n -> length y = n -> inner n (ho x) (ho y) = inner n x y).
Proof. exact householder_unit. Qed.
Print Assumptions C28_reflection_partial.

(** In real space it is x - 2 (x . o) o, for every orientation. *)
Theorem C28_real_space : forall n ft o x, unitary_transform n ft -> (0 < n)%nat -> length o = n -> length x = n ->
  forall i, (i < n)%nat ->
  nth i (to_real ft (householder (fft ft x) (fft ft (map RtoC o)) 2 n)) C0 =
  Csub (nth i x C0) (Cmul (RtoC (2 * nth i o 0)) (csum n (fun j => Cmul (nth j x C0) (RtoC (nth j o 0))))).
Proof. exact householder_real. Qed.
Print Assumptions C28_real_space.

(** With several fields each field is transformed with its own part of the
    orientation, which is not a unit vector: a force along the dimer is not
    reversed. *)
Theorem C28_several_fields_refuted : exists n k o c i,
  (0 < n)%nat /\ (i < k)%nat /\ length o = (k * n)%nat /\ unit_vector o /\ c <> C0 /\
  let along := map (fun x => Cmul c (RtoC x)) o in
  householder (fft id1 (chunk n i along)) (chunk n i (ft_orientation id1 n k o)) 2 n <> map Copp (fft id1 (chunk n i along)).
Proof. exact householder_two_fields. Qed.
Print Assumptions C28_several_fields_refuted.

Example C28_nonvacuous : unit_vector [3 / 5; 4 / 5] /\ unitary_transform (nodes [2; 1]%Z) (fftw_transform [2; 1]%Z) /\ nodes [2; 1]%Z = 2%nat.
Proof.
  split; [unfold unit_vector; cbn; field|]. split; [|reflexivity]. apply C07_transform_is_unitary. split; [left; reflexivity|repeat constructor].
Qed.

(** C29. The first field, hence every field of a model with one field, is moved
    by its own weighted and reflected force. *)
Theorem C29_own_force_partial : forall n k p ft s e s' e',
  unitary_transform n ft -> keeps_length n p -> constant_denum p -> dimer_ready n k s e ->
  sdd_step p ft s e = Some (s', e') -> follows_own_force n p ft s e e' 0.
Proof. exact first_field_own_force. Qed.
Print Assumptions C29_own_force_partial.

(** The second field is moved by the force of the first. *)
Theorem C29_own_force_second_field_refuted : exists n k p ft s e s' e',
  unitary_transform n ft /\ keeps_length n p /\ constant_denum p /\ dimer_ready n k s e /\
  sdd_step p ft s e = Some (s', e') /\ ~ follows_own_force n p ft s e e' 1.
Proof. exact second_field_other_force. Qed.
Print Assumptions C29_own_force_second_field_refuted.

Example C29_nonvacuous : exists s' e', unitary_transform 1 id1 /\ keeps_length 1 demo_pde /\ constant_denum demo_pde /\
  dimer_ready 1 2 demo_sdd demo_env /\ sdd_step demo_pde id1 demo_sdd demo_env = Some (s', e').
Proof.
  destruct demo_step as (s' & e' & H & _). exists s', e'.
  split; [exact id1_unitary|]. split; [exact demo_lengths|]. split; [exact demo_denum|]. split; [exact demo_ready|exact H].
Qed.

(** C30. Packing and unpacking are inverse. *)
Theorem C30_unpack_packed : forall fs,
  Forall (fun d : data => Forall (fun z => Im z = 0) d) fs -> vec2fields (fields2vec fs) fs = fs.
Proof. exact vec2fields_pack. Qed.
Theorem C30_pack_unpacked : forall n fs, all_length n fs -> forall x,
  length x = (length fs * n)%nat -> fields2vec (vec2fields x fs) = x.
Proof. exact pack_vec2fields. Qed.
Print Assumptions C30_unpack_packed.
Print Assumptions C30_pack_unpacked.

(** Where the residual vanishes the fields satisfy the exponential-integrator
    equation, the explicit terms being evaluated with the new fields but at the
    time of the start of the step. *)
Theorem C30_zero_residual_partial : forall n p ft dt t orig prev e x out,
  unitary_transform n ft -> keeps_length n p -> (0 < n)%nat ->
  all_length n (e_fields e) -> length x = (length (e_fields e) * n)%nat ->
  all_length n orig -> all_length n prev ->
  update_equation p ft dt t orig prev e x = Some out -> Forall (fun r => r = 0) out ->
  exponential_step n p ft dt t orig prev
    (model_fft p ft {| e_fields := vec2fields x (e_fields e); e_derived := e_derived e |})
    (vec2fields x (e_fields e)).
Proof. exact residual_zero. Qed.
Print Assumptions C30_zero_residual_partial.

(** A whole step: if the solver returns a zero of the function the step gives
    it, the fields after the step are real and satisfy the equation that
    belongs to the fields before the step. *)
Theorem C30_step_partial : forall n solve p ft filt dt t e e',
  unitary_transform n ft -> keeps_length n p -> (0 < n)%nat -> all_length n (e_fields e) ->
  (forall F x0 e2, ie_problem p ft filt dt t e = Some (F, x0, e2) -> finds_zero solve F x0) ->
  (forall i, (i < length (e_fields e))%nat -> nth_error (p_eqns p) i <> None) ->
  ie_step solve p ft filt dt t e = Some e' ->
  exists prev, rhs_all p (model_fft p ft e) t 0 (map (fft ft) (e_fields e)) = Some prev /\
  length (e_fields e') = length (e_fields e) /\
  (forall d, In d (e_fields e') -> forall z, In z d -> Im z = 0) /\
  exists ds, exponential_step n p ft dt t (map (fft ft) (e_fields e)) prev
    (model_fft p ft {| e_fields := e_fields e'; e_derived := ds |}) (e_fields e').
Proof. exact ie_step_solves. Qed.
Print Assumptions C30_step_partial.

(** The update of one amplitude is the exact solution after one step of
    y' = a y + N(t), N linear between its values at both ends of the step. *)
Theorem C30_update_is_exact_solution : forall dt a prev rhs y0 y,
  dt <> 0 -> a = C0 \/ / 10 ^ 5 <= Cabs a ->
  linear_ode dt a prev rhs y0 y -> ie_update dt y0 a rhs prev = y dt.
Proof. exact ie_update_exact. Qed.
Print Assumptions C30_update_is_exact_solution.

(** The time is not the new one, and the scheme is not the documented
    y_(n+1) = y_n + dt (L y_(n+1) + N(y_(n+1))). *)
Theorem C30_new_time_refuted : exists n p ft dt t orig prev e x out,
  unitary_transform n ft /\ keeps_length n p /\ (0 < n)%nat /\ all_length n (e_fields e) /\ length x = (length (e_fields e) * n)%nat /\
  rhs_all p (model_fft p ft e) t 0 orig = Some prev /\ orig = map (fft ft) (e_fields e) /\
  update_equation p ft dt t orig prev e x = Some out /\ Forall (fun r => r = 0) out /\
  ~ exponential_step n p ft dt (t + dt) orig prev
      (model_fft p ft {| e_fields := vec2fields x (e_fields e); e_derived := e_derived e |}) (vec2fields x (e_fields e)).
Proof. exact old_time_refuted. Qed.
Theorem C30_documented_scheme_refuted : exists n p ft dt t orig prev e x out,
  unitary_transform n ft /\ keeps_length n p /\ (0 < n)%nat /\ all_length n (e_fields e) /\ length x = (length (e_fields e) * n)%nat /\
  rhs_all p (model_fft p ft e) t 0 orig = Some prev /\ orig = map (fft ft) (e_fields e) /\
  update_equation p ft dt t orig prev e x = Some out /\ Forall (fun r => r = 0) out /\
  exists y y' r a, let e' := model_fft p ft {| e_fields := vec2fields x (e_fields e); e_derived := e_derived e |} in
  nth_error orig 0 = Some y /\ nth_error (e_fields e') 0 = Some y' /\ get_rhs p e' 0 t n = Some r /\ get_denum p e' 0 t n = Some a /\
  nth 0 y' C0 <> Cadd (nth 0 y C0) (Cmul (RtoC dt) (Cadd (Cmul (nth 0 a C0) (nth 0 y' C0)) (nth 0 r C0))).
Proof. exact documented_scheme_refuted. Qed.
Print Assumptions C30_new_time_refuted.
Print Assumptions C30_documented_scheme_refuted.

(** The hypotheses of the whole step: dy/dt = y from 1 in half a time unit. *)
Example C30_step_nonvacuous : let p := one_eqn (fun e _ _ => [nth 0 (nth 0 (e_fields e) []) C0]) in
  let e := {| e_fields := [[C1]]; e_derived := [] |} in let solve := fun (_ : list R -> option (list R)) (_ : list R) => [5 / 3] in
  unitary_transform 1 id1 /\ keeps_length 1 p /\ all_length 1 (e_fields e)
  /\ (forall F x0 e2, ie_problem p id1 None (/ 2) 0 e = Some (F, x0, e2) -> finds_zero solve F x0)
  /\ (forall i, (i < length (e_fields e))%nat -> nth_error (p_eqns p) i <> None)
  /\ exists e', ie_step solve p id1 None (/ 2) 0 e = Some e' /\ e_fields e' = [[RtoC (5 / 3)]].
Proof. exact ie_step_example. Qed.

(** The refutations above are cases in which the hypotheses of
    [C30_zero_residual_partial] hold; the linear problem always has a solution. *)
Example C30_nonvacuous : forall dt prev rhs y0, dt <> 0 ->
  (exists y, linear_ode dt (RtoC 2) prev rhs y0 y) /\ (exists y, linear_ode dt C0 prev rhs y0 y) /\
  vec2fields (fields2vec [[C1; C0]; [C0; C1]]) [[C1; C0]; [C0; C1]] = [[C1; C0]; [C0; C1]].
Proof.
  intros dt prev rhs y0 H. split; [eexists; apply linear_ode_exists; [exact H|apply RtoC_neq0; lra]|].
  split; [eexists; apply linear_ode_exists0, H|]. apply vec2fields_pack. repeat constructor.
Qed.
