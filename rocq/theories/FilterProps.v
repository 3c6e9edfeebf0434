(** C116: what a modal filter does to a run. *)
From Verif Require Import ListAux StepProofs ConserveProofs FilterSpec FilterProofs ImplicitModel.
From Verif Require Import EquationProps RegistryProps SimProps SimProofs SimProofs2 SimProofs5 LinearProofs2 LimitProps DftSpec LimitSpec KeepSpec KeepProps.
From Verif Require IndexProofs.
From Coq Require Import Reals ZArith Lia Lra.
From Verif Require Import Complex.
Open Scope R_scope.

(** Only the factors of the modes matter. *)
Theorem C116_same_factors : forall n p ft dt, good_transform n ft -> keeps_length n p ->
  forall g g', (forall k, (k < n)%nat -> gain g ft k = gain g' ft k) ->
  forall nsteps step e, all_length n (e_fields e) ->
  euler_propagate p ft (Some g) dt nsteps step e = euler_propagate p ft (Some g') dt nsteps step e
  /\ rk4_propagate p ft (Some g) dt nsteps step e = rk4_propagate p ft (Some g') dt nsteps step e.
Proof.
  intros n p ft dt GT KL g g' HG nsteps step e Hl.
  split; [apply (euler_run_same n p ft dt GT KL (Some g) (Some g') HG); exact Hl|apply (rk4_run_same n p ft dt GT KL (Some g) (Some g') HG); exact Hl].
Qed.
Print Assumptions C116_same_factors.

(** A filter whose factors are all 1 does nothing. *)
Theorem C116_all_pass : forall n p ft dt, good_transform n ft -> keeps_length n p ->
  forall g, (forall k, (k < n)%nat -> gain g ft k = 1) ->
  forall nsteps step e, all_length n (e_fields e) ->
  euler_propagate p ft (Some g) dt nsteps step e = euler_propagate p ft None dt nsteps step e
  /\ rk4_propagate p ft (Some g) dt nsteps step e = rk4_propagate p ft None dt nsteps step e.
Proof.
  intros n p ft dt GT KL g HG nsteps step e Hl.
  split; [apply (euler_run_same n p ft dt GT KL (Some g) None HG); exact Hl|apply (rk4_run_same n p ft dt GT KL (Some g) None HG); exact Hl].
Qed.
Print Assumptions C116_all_pass.

(** A mode with the factor 0 is absent from every field after every step. *)
Theorem C116_mode_removed : forall n p ft dt, good_transform n ft -> keeps_length n p ->
  forall g k, gain g ft k = 0 ->
  forall nsteps step e, all_length n (e_fields e) -> (0 < nsteps)%nat ->
  forall e' step', (euler_propagate p ft (Some g) dt nsteps step e = Some (e', step') \/ rk4_propagate p ft (Some g) dt nsteps step e = Some (e', step')) ->
  forall d, In d (e_fields e') -> nth k (fft ft d) C0 = C0.
Proof.
  intros n p ft dt GT KL g k Hk nsteps step e Hl Hn e' step' H. destruct nsteps as [|m]; [lia|].
  destruct H as [H|H]; [exact (euler_run_removed n p ft dt GT KL g k Hk m step e e' step' Hl H)|exact (rk4_run_removed n p ft dt GT KL g k Hk m step e e' step' Hl H)].
Qed.
Print Assumptions C116_mode_removed.

(** A step of RK4 with a filter is the step without filter, followed by the
    multiplication of every mode by its factor. *)
Theorem C116_rk4_filter_last : forall n p ft dt g t e e', good_transform n ft -> keeps_length n p -> constant_denum p -> all_length n (e_fields e) ->
  rk4_step p ft None dt t e = Some e' ->
  rk4_step p ft (Some g) dt t e = Some {| e_fields := map (filtered g ft n) (e_fields e'); e_derived := e_derived e' |}.
Proof. intros n p ft dt g t e e' GT KL CD Hl H. exact (rk4_last n p ft dt GT KL g CD t e e' Hl H). Qed.
Print Assumptions C116_rk4_filter_last.

(** The same holds for Euler if there is one field. *)
Theorem C116_euler_filter_last_partial : forall n p ft dt g t e e', good_transform n ft -> keeps_length n p -> length (e_fields e) = 1%nat -> all_length n (e_fields e) ->
  euler_step p ft None dt t e = Some e' ->
  euler_step p ft (Some g) dt t e = Some {| e_fields := map (filtered g ft n) (e_fields e'); e_derived := e_derived e' |}.
Proof. intros n p ft dt g t e e' GT KL H1 Hl H. exact (euler_last n p ft dt GT KL g t e e' H1 Hl H). Qed.
Print Assumptions C116_euler_filter_last_partial.

(** Not with two: the second field is advanced with the filtered first one. *)
Definition one_node : transform := {| fft := fun d => d; ifft := fun d => d; tfreq := fun _ => [0] |}.
Lemma one_node_good : good_transform 1 one_node.
Proof.
  assert (E : forall x, length x = 1%nat -> to_real one_node x = x).
  { intros [|z [|]] H; try discriminate H. unfold to_real, div_real. cbn. f_equal. change (RtoC 1) with C1. field. exact C1_neq_0. }
  constructor; cbn [one_node fft ifft tfreq]; auto. - intros [|z [|]] H; try discriminate H. unfold Csum. cbn. ring. - unfold norm_sq. cbn. ring.
Qed.
Definition chain_pde : pde := {| p_calc := []; p_eqns := [{| q_terms := []; q_denum := []; q_sources := [] |};
  {| q_terms := [fun e _ _ => [nth 0 (nth 0 (e_fields e) []) C0]]; q_denum := []; q_sources := [] |}]; p_mods := [] |}.
Lemma chain_keeps : keeps_length 1 chain_pde.
Proof.
  constructor; cbn [chain_pde p_calc p_eqns p_mods].
  - intros c e [].
  - intros q f e t tmp [<-|[<-|[]]] [H|H] Ht; cbn in H; try destruct H as [<-|H]; try destruct H; reflexivity.
  - intros q s t tmp [<-|[<-|[]]] H; destruct H.
  - intros m d [].
Qed.
Lemma chain_step dt filt c : (forall x, apply_filter filt one_node [RtoC x] = [RtoC (c * x)]) ->
  euler_step chain_pde one_node filt dt 0 {| e_fields := [[C1]; [C0]]; e_derived := [] |} = Some {| e_fields := [[RtoC c]; [RtoC (c * (dt * c))]]; e_derived := [] |}.
Proof.
  intros HF. assert (Q : forall z, Cdiv z (RtoC 1) = z) by (intros z; change (RtoC 1) with C1; field; exact C1_neq_0).
  assert (S1 : semi_implicit dt C1 C0 C0 = RtoC 1) by apply semi_implicit_zero.
  unfold euler_step. cbn [sync p_calc chain_pde sync_from e_fields e_derived length map one_node fft euler_fields nth_error].
  change (get_rhs chain_pde {| e_fields := [[C1]; [C0]]; e_derived := [] |} 0 0 1) with (Some [C0]). change (get_denum chain_pde {| e_fields := [[C1]; [C0]]; e_derived := [] |} 0 0 1) with (Some [C0]). cbv iota beta.
  cbn [map3]. rewrite S1, HF. cbn [set_field set_nth e_fields e_derived nth_error length]. replace (c * 1) with c by ring.
  change (set_field {| e_fields := [[C1]; [C0]]; e_derived := [] |} 0 [RtoC c]) with {| e_fields := [[RtoC c]; [C0]]; e_derived := [] |}.
  change (get_rhs chain_pde {| e_fields := [[RtoC c]; [C0]]; e_derived := [] |} 1 0 1) with (Some [Cadd C0 (RtoC c)]). change (get_denum chain_pde {| e_fields := [[RtoC c]; [C0]]; e_derived := [] |} 1 0 1) with (Some [C0]). cbv iota beta.
  cbn [map3]. assert (S2 : semi_implicit dt C0 (Cadd C0 (RtoC c)) C0 = RtoC (dt * c)). { unfold semi_implicit. rewrite Cdiv_one. unfold Cadd, Cmul, RtoC, C0, Re, Im. cbn. f_equal; ring. }
  rewrite S2, HF. cbn [set_field set_nth e_fields e_derived map]. unfold to_real, div_real. cbn [one_node ifft length map INR]. rewrite !Q. reflexivity.
Qed.
Theorem C116_euler_filter_last_refuted : forall dt, dt <> 0 ->
  exists e', euler_step chain_pde one_node None dt 0 {| e_fields := [[C1]; [C0]]; e_derived := [] |} = Some e'
  /\ euler_step chain_pde one_node (Some (fun _ => / 2)) dt 0 {| e_fields := [[C1]; [C0]]; e_derived := [] |}
     <> Some {| e_fields := map (filtered (fun _ => / 2) one_node 1) (e_fields e'); e_derived := e_derived e' |}.
Proof.
  intros dt Hdt. eexists. split; [apply (chain_step dt None 1); intros x; cbn; rewrite Rmult_1_l; reflexivity|].
  assert (HF : forall x, apply_filter (Some (fun _ => / 2)) one_node [RtoC x] = [RtoC (/ 2 * x)]). { intros x. unfold apply_filter. cbn [mapi_from]. f_equal. unfold Cmul, RtoC. cbn. f_equal; ring. }
  rewrite (chain_step dt _ (/ 2) HF). intros H.
  assert (E : forall x, filtered (fun _ => / 2) one_node 1 [RtoC x] = [RtoC (/ 2 * x)]).
  { intros x. assert (G : to_real one_node [RtoC x] = [RtoC x]) by (apply (gt_left 1 one_node one_node_good [RtoC x]); reflexivity). rewrite <- G at 1. rewrite (filtered_apply _ one_node 1 [RtoC x] one_node_good eq_refl), HF.
    apply (gt_left 1 one_node one_node_good [RtoC (/ 2 * x)]). reflexivity. }
  cbn [e_fields e_derived map] in H. rewrite !E in H. assert (H1 : [RtoC (/ 2 * (dt * / 2))] = [RtoC (/ 2 * (1 * (dt * 1)))]) by congruence. apply (f_equal (fun l => Re (nth 0 l C0))) in H1. cbn in H1. lra.
Qed.
Print Assumptions C116_euler_filter_last_refuted.

(** ImplicitEuler: the filter changes the first guess only, so it has no effect
    if the solver finds the same result from every guess. *)
Theorem C116_implicit_no_effect_partial : forall n p ft dt solve, good_transform n ft -> keeps_length n p ->
  (forall F x, length (solve F x) = length x) -> (forall F F' x x', (forall y, F y = F' y) -> length x = length x' -> solve F x = solve F' x') ->
  forall filt filt' nsteps step e, all_length n (e_fields e) ->
  ie_propagate solve p ft filt dt nsteps step e = ie_propagate solve p ft filt' dt nsteps step e.
Proof.
  intros n p ft dt solve GT KL SL SI filt filt' nsteps step e Hl.
  destruct (ie_propagate solve p ft filt dt nsteps step e) as [r|] eqn:E; [symmetry; exact (ie_run_filter n p ft dt GT KL solve SL SI filt filt' nsteps step e r Hl E)|].
  destruct (ie_propagate solve p ft filt' dt nsteps step e) as [r|] eqn:E'; [|reflexivity].
  rewrite (ie_run_filter n p ft dt GT KL solve SL SI filt' filt nsteps step e r Hl E') in E. discriminate E.
Qed.
Print Assumptions C116_implicit_no_effect_partial.

(** With a solver that gives up at the guess (which is only logged) the filter
    does have an effect: an equation without terms, filtered with 1/2, halves
    its field in a step. *)
Theorem C116_implicit_no_effect_refuted : forall dt,
  let p := {| p_calc := []; p_eqns := [{| q_terms := []; q_denum := []; q_sources := [] |}]; p_mods := [] |} in
  let e := {| e_fields := [[C1]]; e_derived := [] |} in
  ie_propagate (fun _ x => x) p one_node None dt 1 0 e = Some (e, 1%nat)
  /\ ie_propagate (fun _ x => x) p one_node (Some (fun _ => / 2)) dt 1 0 e = Some ({| e_fields := [[RtoC (/ 2)]]; e_derived := [] |}, 1%nat).
Proof.
  intros dt p e.
  assert (D : forall z, Cdiv z (Csub C1 (Cmul (RtoC dt) C0)) = z) by (intros z; apply Cdiv_one).
  assert (Q : forall z, Cdiv z (RtoC 1) = z) by (intros z; change (RtoC 1) with C1; field; exact C1_neq_0).
  assert (S1 : semi_implicit dt C1 C0 C0 = C1) by apply semi_implicit_zero.
  assert (H : forall filt z, apply_filter filt one_node [C1] = [z] -> Im z = 0 -> ie_propagate (fun _ x => x) p one_node filt dt 1 0 e = Some ({| e_fields := [[z]]; e_derived := [] |}, 1%nat)).
  { intros filt z Hz Hi. cbn [ie_propagate]. unfold ie_step, ie_problem. change (rhs_all p (model_fft p one_node e) (ie_time dt 0) 0 (e_fields (model_fft p one_node e))) with (Some [[C0]]). cbv iota beta.
    assert (E1 : model_ifft one_node (model_fft p one_node e) = e). { unfold model_ifft, model_fft, e, to_real, div_real. cbn. rewrite Q. reflexivity. }
    rewrite E1. unfold euler_step. cbn [sync p_calc p sync_from e e_fields e_derived length map one_node fft euler_fields nth_error].
    change (get_rhs p {| e_fields := [[C1]]; e_derived := [] |} 0 (ie_time dt 0) 1) with (Some [C0]). change (get_denum p {| e_fields := [[C1]]; e_derived := [] |} 0 (ie_time dt 0) 1) with (Some [C0]). cbv iota beta.
    cbn [map3 set_field set_nth e_fields e_derived map]. rewrite S1, Hz. unfold to_real, div_real, fields2vec. cbn [one_node ifft length map concat app INR e_fields e_derived vec2fields firstn skipn]. rewrite Q.
    do 3 f_equal. unfold RtoC. destruct z as [a b]. cbn in *. rewrite Hi. reflexivity. }
  split; [apply H; reflexivity|]. apply (H (Some (fun _ => / 2)) (RtoC (/ 2))); [|reflexivity].
  unfold apply_filter. cbn [mapi_from]. f_equal. change C1 with (RtoC 1). unfold Cmul, RtoC. cbn. f_equal; lra.
Qed.
Print Assumptions C116_implicit_no_effect_refuted.

(** The Allen-Cahn model meets the hypotheses; a filter with a sharp cut-off
    removes every mode above it and leaves the others. *)
Example C116_nonvacuous : forall dom, valid_domain dom ->
  let n := nodes dom in let ft := fftw_transform dom in let lib := no_library n principal_power in let p := simulation n ft lib ac_state in
  good_transform n ft /\ keeps_length n p /\ constant_denum p
  /\ exists g, (forall k, sqrt (norm_sq (tfreq ft k)) * 2 / PI <= / 5 -> gain g ft k = 1) /\ (forall k, / 5 < sqrt (norm_sq (tfreq ft k)) * 2 / PI -> gain g ft k = 0).
Proof.
  intros dom Hv n ft lib p. destruct (C98_nonvacuous dom (fun _ => 0) 1 Hv ltac:(intros; simpl; lra)) as (H1 & H2 & H3 & H4 & H5 & H6 & H7 & _ & H9 & _). fold n ft lib in H3, H4, H6, H7.
  split; [exact (ut_good n ft H4)|]. split; [exact (sim_keeps_length La ac_state n ft lib H3)|]. split; [exact (sim_denum La ac_calls ac_eqs ac_state H1 H2 n ft lib H9)|].
  exists (fun x => if Rle_dec x (/ 5) then 1 else 0). unfold gain. split; intros k Hk; destruct (Rle_dec _ _); lra.
Qed.

(** Solvers of the kind of C116_implicit_no_effect_partial: [k] times
    subtracting the residual, starting from zero. *)
Fixpoint from_zero (k : nat) (F : list R -> option (list R)) (x : list R) : list R :=
  match k with
  | O => map (fun _ => 0) x
  | S k' => let y := from_zero k' F x in
            match F y with Some r => map (fun i => nth i y 0 - nth i r 0) (seq 0 (length y)) | None => y end
  end.
Example C116_implicit_nonvacuous : forall k, (forall F x, length (from_zero k F x) = length x)
  /\ forall F F' x x', (forall y, F y = F' y) -> length x = length x' -> from_zero k F x = from_zero k F' x'.
Proof.
  intros k. split.
  - intros F x. induction k as [|k IH]; cbn [from_zero]; [apply map_length|]. destruct (F (from_zero k F x)); [rewrite map_length, seq_length|]; exact IH.
  - intros F F' x x' HF Hx. induction k as [|k IH]; cbn [from_zero].
    + revert x' Hx. induction x as [|a x IH]; intros [|b x'] H; try discriminate H; [reflexivity|]. cbn [map]. f_equal. apply IH. cbn in H. congruence.
    + rewrite IH, HF. reflexivity.
Qed.
