(** Proofs for the examples in which names collide, for conservative noise, for
    the check of implicit terms and for solvers. *)
From Verif Require Import ListAux ParseProofs FileProofs DerivedProofs SetupSpec SetupProofs SetupProofs2 CVec.
From Verif Require Import Complex.
From Coq Require Import Lra.
Open Scope nat_scope.

Definition S_ (s : string) : str := lit s.

(** *** The velocity is called like the gradient *)
Definition shadow_model : dmodel := run_regs new_dmodel [RField (S_ "v") 0; RField (S_ "v_0") 1; RField (S_ "v_1") 2].

Lemma shadowed : forall grad mem i, exists m1,
  adv_prepare grad (brick_slice m1) 2 shadow_model (S_ "v") [S_ "v_0"; S_ "v_1"] 3 = Some m1 /\
  brick_get m1 (sync_derived m1 mem) (adv_name (S_ "v") [S_ "v_0"; S_ "v_1"]) i
  = Some (Cadd (Cmul (grad 0 (mem 0) i) (grad 0 (mem 0) i)) (Cmul (grad 1 (mem 0) i) (grad 1 (mem 0) i))).
Proof.
  intros grad mem i.
  set (m0 := register_all shadow_model (adv_fields grad (fun _ => None) (S_ "v") [S_ "v_0"; S_ "v_1"] 0 3)).
  exists (register_all shadow_model (adv_fields grad (brick_slice m0) (S_ "v") [S_ "v_0"; S_ "v_1"] 0 3)). split.
  - reflexivity.
  - transitivity (Some (Cadd (Cmul (grad 0 (mem 0) i) (grad 0 (mem 0) i)) (Cadd (Cmul (grad 1 (mem 0) i) (grad 1 (mem 0) i)) C0))); [reflexivity|].
    f_equal. csolve.
Qed.

(** *** Two advection terms of one field *)
Definition two_model : dmodel :=
  run_regs new_dmodel [RField (S_ "u") 0; RField (S_ "a") 1; RField (S_ "b") 2; RField (S_ "c") 3; RField (S_ "d") 4].

Lemma second_advection_stale : forall grad mem i, exists m1 m2,
  adv_prepare grad (brick_slice m2) 2 two_model (S_ "u") [S_ "a"; S_ "b"] 5 = Some m1 /\
  adv_prepare grad (brick_slice m2) 2 m1 (S_ "u") [S_ "c"; S_ "d"] 8 = Some m2 /\
  brick_get m2 (sync_derived m2 mem) (adv_name (S_ "u") [S_ "a"; S_ "b"]) i
  = Some (Cadd (Cmul (mem 1 i) (mem 8 i)) (Cmul (mem 2 i) (mem 9 i))).
Proof.
  intros grad mem i.
  set (l0 := fun _ : str => @None nat).
  set (m0 := register_all (register_all two_model (adv_fields grad l0 (S_ "u") [S_ "a"; S_ "b"] 0 5))
                          (adv_fields grad l0 (S_ "u") [S_ "c"; S_ "d"] 0 8)).
  set (l := brick_slice m0).
  exists (register_all two_model (adv_fields grad l (S_ "u") [S_ "a"; S_ "b"] 0 5)).
  exists (register_all (register_all two_model (adv_fields grad l (S_ "u") [S_ "a"; S_ "b"] 0 5))
                       (adv_fields grad l (S_ "u") [S_ "c"; S_ "d"] 0 8)).
  split; [reflexivity|]. split; [reflexivity|].
  transitivity (Some (Cadd (Cmul (mem 1 i) (mem 8 i)) (Cadd (Cmul (mem 2 i) (mem 9 i)) C0))); [reflexivity|].
  f_equal. csolve.
Qed.

(** *** Two advection terms with the same name *)
Definition clash_model : dmodel :=
  run_regs new_dmodel [RField (S_ "u") 0; RField (S_ "ab") 1; RField (S_ "c") 2; RField (S_ "a") 3; RField (S_ "bc") 4].

Lemma clash : forall grad mem i, exists m1 m2,
  adv_prepare grad (brick_slice m2) 2 clash_model (S_ "u") [S_ "ab"; S_ "c"] 5 = Some m1 /\
  adv_prepare grad (brick_slice m2) 2 m1 (S_ "u") [S_ "a"; S_ "bc"] 8 = Some m2 /\
  brick_get m2 (sync_derived m2 mem) (adv_name (S_ "u") [S_ "ab"; S_ "c"]) i
  = Some (Cadd (Cmul (mem 3 i) (grad 0 (mem 0) i)) (Cmul (mem 4 i) (grad 1 (mem 0) i))).
Proof.
  intros grad mem i.
  set (l0 := fun _ : str => @None nat).
  set (m0 := register_all (register_all clash_model (adv_fields grad l0 (S_ "u") [S_ "ab"; S_ "c"] 0 5))
                          (adv_fields grad l0 (S_ "u") [S_ "a"; S_ "bc"] 0 8)).
  set (l := brick_slice m0).
  exists (register_all clash_model (adv_fields grad l (S_ "u") [S_ "ab"; S_ "c"] 0 5)).
  exists (register_all (register_all clash_model (adv_fields grad l (S_ "u") [S_ "ab"; S_ "c"] 0 5))
                       (adv_fields grad l (S_ "u") [S_ "a"; S_ "bc"] 0 8)).
  split; [reflexivity|]. split; [reflexivity|].
  transitivity (Some (Cadd (Cmul (mem 3 i) (grad 0 (mem 0) i)) (Cadd (Cmul (mem 4 i) (grad 1 (mem 0) i)) C0))); [reflexivity|].
  f_equal. csolve.
Qed.

(** *** Two DivGrad terms of one field, anywhere *)
Lemma dg_second_wins : forall grad F1 F2 m m1 m2 dim field new1 new2 mem d i, wf m -> below m new1 -> new1 + 2 * dim <= new2 ->
  dg_prepare grad (brick_slice m2) F1 dim m field new1 = Some m1 ->
  dg_prepare grad (brick_slice m2) F2 dim m1 field new2 = Some m2 ->
  depends_only_on (fun s => s < new2) F2 -> d < dim ->
  dg_flux (brick_slice m2) (sync_derived m2 mem) field d i
  = Cmul (F2 (sync_derived m2 mem) i) (grad d (shown m2 (sync_derived m2 mem) field) i).
Proof.
  intros grad F1 F2 m m1 m2 dim field new1 new2 mem d i Hwf Hb Hn H1 H2 HF Hd.
  assert (Hwf1 : wf m1).
  { unfold dg_prepare in H1. destruct (brick_slice m field); [|discriminate H1]. injection H1 as <-. apply wf_register_all, Hwf. }
  assert (Hb1 : below m1 new2).
  { unfold dg_prepare in H1. destruct (brick_slice m field) as [src|] eqn:Hs; [|discriminate H1]. injection H1 as <-.
    assert (G : forall x, In x (dg_fields grad (brick_slice m2) F1 field src 0 dim new1) -> df_slice x < new2).
    { intros x Hx. apply dg_fields_in in Hx. destruct Hx as (k & Hk & [->| ->]); cbn [dg_grad_at dg_flux_at grad_field df_slice]; lia. }
    destruct Hb as [Hb1 Hb2]. split.
    - intros n s Hns. destruct (in_dec (list_eq_dec Ascii.ascii_dec) n (map df_name (dg_fields grad (brick_slice m2) F1 field src 0 dim new1))) as [Hin|Hin].
      + apply in_map_iff in Hin. destruct Hin as (x & <- & Hx).
        rewrite (slice_all_new _ _ x Hwf (dg_fields_nodup _ _ _ _ _ _ _ _) Hx) in Hns. injection Hns as <-. apply G, Hx.
      + rewrite slice_all_old in Hns by assumption. specialize (Hb1 n s Hns). lia.
    - intros x Hx. rewrite register_all_derived in Hx. apply in_app_or in Hx. destruct Hx as [Hx|Hx]; [specialize (Hb2 x Hx); lia|apply G, Hx]. }
  pose proof (dg_prepared grad F2 m1 m2 m2 dim field new2 mem d i Hwf1 Hb1 H2) as Q.
  assert (L : later (new2 + 2 * dim) m2 m2).
  { split; [auto|]. exists []. rewrite app_nil_r. split; [reflexivity|constructor]. }
  specialize (Q L HF Hd). unfold dg_flux, get_by_name. unfold brick_get in Q. destruct (brick_slice m2 (dg_flux_name field d)); congruence.
Qed.

(** ** Conservative noise *)
Lemma current_name_inj : forall p c c', current_name p c = current_name p c' -> c = c'.
Proof. intros p c c' E. unfold current_name in E. apply app_inv_head in E. apply app_inv_head in E. apply dec_inj in E. lia. Qed.

Lemma noise_names : forall p dim new noise, map df_name (noise_fields p dim new noise) = map (current_name p) (seq 0 dim).
Proof. intros p dim new noise. unfold noise_fields. rewrite map_map. reflexivity. Qed.

Lemma noise_nodup : forall p dim new noise, NoDup (map df_name (noise_fields p dim new noise)).
Proof. intros. rewrite noise_names. apply nodup_map_inj; [apply current_name_inj|apply seq_NoDup]. Qed.

Lemma noise_in : forall p dim new noise c, c < dim ->
  In {| df_name := current_name p c; df_slice := new + c; df_calc := fun _ => noise c |} (noise_fields p dim new noise).
Proof.
  intros p dim new noise c Hc. unfold noise_fields. apply in_map_iff. exists c. split; [reflexivity|]. apply in_seq. lia.
Qed.

Lemma noise_separate : forall m p dim new noise mem c i, wf m -> c < dim ->
  let m1 := register_all m (noise_fields p dim new noise) in
  currents_registered m1 p dim = true /\ brick_get m1 (sync_derived m1 mem) (current_name p c) i = Some (noise c i).
Proof.
  intros m p dim new noise mem c i Hwf Hc m1.
  assert (HS : forall k, k < dim -> brick_slice m1 (current_name p k) = Some (new + k)).
  { intros k Hk. exact (slice_all_new _ m _ Hwf (noise_nodup p dim new noise) (noise_in p dim new noise k Hk)). }
  split.
  - unfold currents_registered. apply forallb_forall. intros k Hk. apply in_seq in Hk. specialize (HS k ltac:(lia)).
    unfold is_brick_name. unfold brick_slice in HS. destruct (lookup (dm_bricks m1) (current_name p k)); [reflexivity|discriminate HS].
  - unfold brick_get. rewrite HS by exact Hc. f_equal. unfold sync_derived, m1. rewrite register_all_derived, sync_app.
    set (mem0 := sync_loop (dm_derived m) mem). unfold noise_fields.
    assert (G : forall l, In c l -> forall mm, sync_loop (map (fun c0 => {| df_name := current_name p c0; df_slice := new + c0; df_calc := fun _ => noise c0 |}) l) mm (new + c) i = noise c i).
    { induction l as [|x l IH]; intros Hin mm; [destruct Hin|]. cbn [map sync_loop].
      destruct (in_dec Nat.eq_dec c l) as [Hl|Hl]; [apply IH, Hl|]. destruct Hin as [->|Hin]; [|contradiction].
      rewrite sync_loop_other.
      - unfold set_slice. cbn [df_slice df_calc]. rewrite Nat.eqb_refl. reflexivity.
      - intros d Hd. apply in_map_iff in Hd. destruct Hd as (y & <- & Hy). cbn [df_slice]. intros E. apply Hl. replace c with y by lia. exact Hy. }
    apply G. apply in_seq. lia.
Qed.

Lemma noise_shared : forall m p dim new noise c,
  (forall k, k < dim -> is_field_name m (current_name p k) = false) -> c < dim ->
  brick_slice (run_reg m (RTerm (noise_fields p dim new noise))) (current_name p c) = Some (new + (dim - 1)).
Proof.
  intros m p dim new noise c Hn Hc. cbn [run_reg].
  set (d := {| df_name := current_name p c; df_slice := new + c; df_calc := fun _ => noise c |}).
  change (current_name p c) with (df_name d).
  rewrite (batch_reads_last m (noise_fields p dim new noise) d (last (noise_fields p dim new noise) d)).
  - f_equal. destruct dim as [|dim]; [lia|]. unfold noise_fields. rewrite seq_S, map_app. cbn [map]. rewrite last_last. cbn [df_slice]. lia.
  - intros d' Hd. unfold noise_fields in Hd. apply in_map_iff in Hd. destruct Hd as (k & <- & Hk). apply in_seq in Hk. apply Hn. lia.
  - apply noise_nodup.
  - apply noise_in. exact Hc.
  - reflexivity.
Qed.

(** ** Implicit terms *)
Open Scope R_scope.

Lemma close_refl : forall tol a, 0 <= tol -> close tol a a = true.
Proof.
  intros tol a H. unfold close. rewrite !Rminus_diag_eq, Rabs_R0 by reflexivity.
  destruct (Rlt_dec tol 0); [lra|reflexivity].
Qed.
Lemma equal_approx_refl : forall tol a, 0 <= tol -> equal_approx tol a a = true.
Proof. intros tol a H. induction a as [|x a IH]; [reflexivity|]. cbn [equal_approx]. rewrite close_refl by exact H. exact IH. Qed.

Lemma tol_pos : 0 <= / 10 ^ 10.
Proof. apply Rlt_le, Rinv_0_lt_compat, pow_lt. lra. Qed.

Lemma independent_implicit : forall t b n a, field_independent t -> t b probe 0 n = Some a -> is_implicit t b n probe = Some true.
Proof.
  intros t b n a H E. unfold is_implicit. rewrite (H (perturbed b) b), E. rewrite equal_approx_refl by apply tol_pos. reflexivity.
Qed.

Lemma init_all : forall ts b n, init_accepts ts b n = true <-> Forall (fun t => is_implicit (snd t) b n probe = Some true) ts.
Proof.
  induction ts as [|[k t] ts IH]; intros b n; cbn [init_accepts]; [split; [constructor|reflexivity]|].
  rewrite Forall_cons_iff. cbn [snd]. rewrite <- IH. destruct (is_implicit t b n probe) as [[|]|]; split; intros H; try tauto; try discriminate H.
  - destruct H as [H _]. discriminate H.
  - destruct H as [H _]. discriminate H.
Qed.

Lemma weighted_shift : forall ws f b i, weighted ws f (perturbed b) i = Cadd (weighted ws f b i) (Cmul (total_weight ws f) (RtoC (1 / 5))).
Proof.
  induction ws as [|[n w] ws IH]; intros f b i; cbn [weighted total_weight]; [csolve|]. rewrite IH. unfold perturbed. csolve.
Qed.

Lemma close_shift : forall tol a w, close tol a (Cadd a w) = close tol w C0.
Proof.
  intros tol a w. unfold close. destruct a as [a1 a2], w as [w1 w2]. cbn [Re Im Cadd C0 fst snd].
  replace (a1 - (a1 + w1)) with (- w1) by ring. replace (a2 - (a2 + w2)) with (- w2) by ring.
  rewrite !Rabs_Ropp, !Rminus_0_r. reflexivity.
Qed.

Lemma affine_check : forall c ws b n, (0 < n)%nat ->
  is_implicit (affine_term c ws) b n probe = Some (close (/ 10 ^ 10) (Cmul (total_weight ws [2 / 5; 2 / 5]) (RtoC (1 / 5))) C0).
Proof.
  intros c ws b n Hn. unfold is_implicit, affine_term. f_equal.
  set (w := Cmul (total_weight ws [2 / 5; 2 / 5]) (RtoC (1 / 5))).
  assert (G : forall l, l <> [] -> equal_approx (/ 10 ^ 10)
     (map (fun i => Cadd (c (probe i)) (weighted ws (probe i) b i)) l)
     (map (fun i => Cadd (c (probe i)) (weighted ws (probe i) (perturbed b) i)) l) = close (/ 10 ^ 10) w C0).
  { induction l as [|x l IH]; intros Hl; [congruence|]. cbn [map equal_approx].
    rewrite weighted_shift. change (total_weight ws (probe x)) with (total_weight ws [2 / 5; 2 / 5]). fold w.
    replace (Cadd (c (probe x)) (Cadd (weighted ws (probe x) b x) w)) with (Cadd (Cadd (c (probe x)) (weighted ws (probe x) b x)) w) by csolve.
    rewrite close_shift. destruct l as [|y l].
    - cbn [map equal_approx]. apply andb_true_r.
    - rewrite IH by discriminate. destruct (close (/ 10 ^ 10) w C0); reflexivity. }
  apply G. destruct n; [lia|discriminate].
Qed.

Lemma close_zero_iff : forall tol w, close tol w C0 = true <-> Rabs (Re w) <= tol /\ Rabs (Im w) <= tol.
Proof.
  intros tol [a b]. unfold close. cbn [Re Im C0 fst snd]. rewrite !Rminus_0_r.
  destruct (Rlt_dec tol (Rabs a)), (Rlt_dec tol (Rabs b)); cbn [andb]; split; intros H; try discriminate H; try lra; try reflexivity; try (split; lra).
Qed.

Lemma affine_accepted : forall c ws b n, (0 < n)%nat ->
  (is_implicit (affine_term c ws) b n probe = Some true <->
   Rabs (Re (total_weight ws [2 / 5; 2 / 5])) <= 5 / 10 ^ 10 /\ Rabs (Im (total_weight ws [2 / 5; 2 / 5])) <= 5 / 10 ^ 10).
Proof.
  intros c ws b n Hn. rewrite affine_check by exact Hn. set (w := total_weight ws [2 / 5; 2 / 5]).
  assert (E : close (/ 10 ^ 10) (Cmul w (RtoC (1 / 5))) C0 = true <-> Rabs (Re w) <= 5 / 10 ^ 10 /\ Rabs (Im w) <= 5 / 10 ^ 10).
  { rewrite close_zero_iff. destruct w as [p q]. cbn [Re Im Cmul RtoC fst snd].
    replace (p * (1 / 5) - q * 0) with (p * (1 / 5)) by ring. replace (p * 0 + q * (1 / 5)) with (q * (1 / 5)) by ring.
    rewrite !Rabs_mult. rewrite (Rabs_pos_eq (1 / 5)) by lra. assert (T : 0 < / 10 ^ 10) by (apply Rinv_0_lt_compat, pow_lt; lra).
    unfold Rdiv. split; intros [A B]; split; lra. }
  destruct (close _ _ _); split; intros H; try congruence; try tauto.
  - f_equal. exfalso. destruct E as [_ E]. specialize (E H). discriminate E.
Qed.

Lemma third_component_panics : forall g b n, (0 < n)%nat -> is_implicit (reads_third g) b n probe = None.
Proof. intros g b n Hn. unfold is_implicit, reads_third. destruct n; [lia|]. reflexivity. Qed.
