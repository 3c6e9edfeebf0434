(** Lemmas for C116: equations that do not read the fields before them, and
    models with linear equations. *)
From Verif Require Import ListAux FileModel ParseProofs RegistryProofs RegistryProofs2 RegistryProofs3 StepProofs SimProofs SimProofs2 SimProofs3 SimProofs4 SimProofs5 SimProofs6 LinearProofs LinearProofs2 LinearProofs3 ConserveProofs FilterSpec FilterProofs.
From Verif Require Import DftSpec LinearSpec.
From Coq Require Import Reals Lia Lra.
From Verif Require Import Complex.
Open Scope nat_scope.

Lemma euler_derived p ft f dt t e e' : euler_step p ft f dt t e = Some e' -> e_derived e' = e_derived (spectrum p ft e).
Proof.
  unfold euler_step. destruct (euler_fields _ _ _ _ _ _ _ _) as [e3|] eqn:E; [|discriminate]. intros H. injection H as <-. cbn [e_derived].
  destruct (euler_fields_keeps _ _ _ _ _ _ _ _ _ E) as (-> & _). reflexivity.
Qed.

Lemma euler_last_independent n p ft dt g t e e' : good_transform n ft -> keeps_length n p -> all_length n (e_fields e) -> length (e_fields e) <= length (p_eqns p) ->
  unaffected_by_earlier p t (spectrum p ft e) -> euler_step p ft None dt t e = Some e' ->
  euler_step p ft (Some g) dt t e = Some {| e_fields := map (filtered g ft n) (e_fields e'); e_derived := e_derived e' |}.
Proof.
  intros GT KL Hl Hle Hu H.
  destruct (euler_step_scheme p ft None dt t e Hle Hu) as (e0 & E0 & L0 & N0). rewrite H in E0. injection E0 as <-.
  destruct (euler_step_scheme p ft (Some g) dt t e Hle Hu) as (e1 & E1 & L1 & N1). rewrite E1. f_equal.
  assert (D0 := euler_derived _ _ _ _ _ _ _ H). assert (D1 := euler_derived _ _ _ _ _ _ _ E1).
  destruct e1 as [f1 d1]. cbn [e_fields e_derived] in *. rewrite D1, <- D0. f_equal.
  apply nth_error_ext. intros i. rewrite nth_error_map.
  destruct (nth_error (e_fields e) i) as [d|] eqn:Ed.
  - assert (Ey : nth_error (e_fields (spectrum p ft e)) i = Some (fft ft d)) by (unfold spectrum; cbn [e_fields]; rewrite nth_error_map, Ed; reflexivity).
    assert (Ly : length (fft ft d) = n) by exact (SimProofs3.spectrum_length n p ft GT e Hl i _ Ey).
    assert (Hi : i < length (e_fields e)) by (apply nth_error_Some; congruence).
    destruct (nth_error (p_eqns p) i) as [q|] eqn:Eq; [|apply nth_error_None in Eq; lia].
    destruct (get_rhs p (spectrum p ft e) i t (length (fft ft d))) as [r|] eqn:Er; [|unfold get_rhs in Er; rewrite Eq in Er; discriminate].
    destruct (get_denum p (spectrum p ft e) i t (length (fft ft d))) as [a|] eqn:Ea; [|unfold get_denum in Ea; rewrite Eq in Ea; discriminate].
    rewrite (N0 i _ r a Ey Er Ea), (N1 i _ r a Ey Er Ea). cbn [option_map]. f_equal. symmetry.
    change (apply_filter None ft (map3 (semi_implicit dt) (fft ft d) r a)) with (map3 (semi_implicit dt) (fft ft d) r a).
    apply filtered_apply; [exact GT|]. rewrite Ly in Er, Ea. apply map3_length; [exact Ly|exact (get_rhs_length n p _ _ t r KL Er)|exact (get_denum_length n p _ _ t a KL Ea)].
  - apply nth_error_None in Ed. rewrite (proj2 (nth_error_None f1 i)) by lia. rewrite (proj2 (nth_error_None (e_fields e') i)) by lia. reflexivity.
Qed.

(** A field after the filter. *)
Lemma filtered_length g ft n d : good_transform n ft -> length (filtered g ft n d) = n.
Proof. intros GT. unfold filtered, to_real. rewrite div_real_length. apply (gt_ifft_len n ft GT). rewrite map_length, seq_length. reflexivity. Qed.
Lemma filtered_mode g ft n d k : good_transform n ft -> k < n -> nth k (fft ft (filtered g ft n d)) C0 = Cmul (RtoC (gain g ft k)) (nth k (fft ft d) C0).
Proof.
  intros GT Hk. unfold filtered. rewrite (gt_inverse n ft GT) by (rewrite map_length, seq_length; reflexivity).
  apply nth_error_nth. rewrite nth_error_map. rewrite (nth_error_nth' _ 0) by (rewrite seq_length; exact Hk). rewrite seq_nth by exact Hk. reflexivity.
Qed.

Section LinearFilter.
  Variables (L : lang) (cs : list call) (es : list eqtext).
  Hypothesis LM : linear_model L cs es.
  Variable m : mstate.
  Hypothesis Em : run_calls new_mstate (cs ++ [CInit]) = Ok m.
  Variables (n : nat) (ft : transform) (lib : library).
  Hypothesis GL : good_library L n lib.
  Hypothesis GT : good_transform n ft.
  Variable g : R -> R.
  Let p := simulation n ft lib m.

  Lemma linear_unaffected t e : fits L n m e -> unaffected_by_earlier p t (spectrum p ft e).
  Proof.
    intros Hf i e' d Hd _ _ _. assert (Ld : length d = n) by exact (SimProofs3.spectrum_length n p ft GT e (proj1 (proj2 Hf)) i d Hd). rewrite Ld.
    assert (Hi : i < length es).
    { rewrite <- (map_length q_field es), (lm_order _ _ _ LM). destruct Hf as (<- & _). rewrite <- (map_length (fft ft)). apply nth_error_Some.
      change (map (fft ft) (e_fields e)) with (e_fields (spectrum p ft e)). congruence. }
    split; [unfold p; rewrite !(linear_rhs L cs es LM m Em n ft lib) by exact Hi; reflexivity|]. apply (sim_denum L cs es m (lm_declared _ _ _ LM) Em n ft lib (linear_independent L cs es LM lib)).
  Qed.

  Definition filtered_env (e : env) : env := {| e_fields := map (filtered g ft n) (e_fields e); e_derived := e_derived e |}.

  Lemma filtered_fits e : fits L n m e -> fits L n m (filtered_env e).
  Proof.
    intros (H1 & H2 & H3). split; [cbn [filtered_env e_fields]; rewrite map_length; exact H1|]. split; [|exact H3].
    cbn [filtered_env e_fields]. unfold all_length. apply Forall_forall. intros x Hx. apply in_map_iff in Hx. destruct Hx as (z & <- & _). apply filtered_length, GT.
  Qed.
  Lemma filtered_env_mode e i q k : fits L n m e -> nth_error es i = Some q -> k < n -> mode ft (filtered_env e) i k = Cmul (RtoC (gain g ft k)) (mode ft e i k).
  Proof.
    intros Hf Hq Hk. destruct (fits_nth L cs es LM m n e i q Hf Hq) as (d & Hd & _).
    rewrite (mode_nth ft e i d k Hd). rewrite (mode_nth ft (filtered_env e) i (filtered g ft n d) k); [apply filtered_mode; assumption|].
    cbn [filtered_env e_fields]. rewrite nth_error_map, Hd. reflexivity.
  Qed.

  (** One step of either kind with the filter. *)
  Definition filtered_step (dt : R) (e e' : env) : Prop := fits L n m e' /\ forall i q k, nth_error es i = Some q -> k < n ->
    mode ft e' i k = Cmul (RtoC (gain g ft k)) (Cdiv (mode ft e i k) (Csub C1 (Cmul (RtoC dt) (symbol L lib (tfreq ft k) q)))).

  Lemma linear_euler_filter dt t e : fits L n m e -> exists e', euler_step p ft (Some g) dt t e = Some e' /\ filtered_step dt e e'.
  Proof.
    intros Hf. destruct (linear_euler L cs es LM m Em n ft lib GL GT dt t e Hf) as (e1 & E1 & F1 & H1). fold p in E1.
    exists (filtered_env e1). split.
    - apply (euler_last_independent n p ft dt g t e e1 GT (sim_keeps_length L m n ft lib GL) (proj1 (proj2 Hf))
        (sim_enough L cs es m (lm_declared _ _ _ LM) Em n ft lib (lm_order _ _ _ LM) e Hf) (linear_unaffected t e Hf) E1).
    - split; [apply filtered_fits, F1|]. intros i q k Hq Hk. rewrite (filtered_env_mode e1 i q k F1 Hq Hk), (H1 i q k Hq Hk). reflexivity.
  Qed.
  Lemma linear_rk4_filter dt t e : fits L n m e -> exists e', rk4_step p ft (Some g) dt t e = Some e' /\ filtered_step dt e e'.
  Proof.
    intros Hf. destruct (linear_rk4 L cs es LM m Em n ft lib GL GT dt t e Hf) as (e1 & E1 & F1 & H1). fold p in E1.
    exists (filtered_env e1). split.
    - apply (rk4_last n p ft dt GT (sim_keeps_length L m n ft lib GL) g (sim_denum L cs es m (lm_declared _ _ _ LM) Em n ft lib (linear_independent L cs es LM lib)) t e e1 (proj1 (proj2 Hf)) E1).
    - split; [apply filtered_fits, F1|]. intros i q k Hq Hk. rewrite (filtered_env_mode e1 i q k F1 Hq Hk), (H1 i q k Hq Hk). reflexivity.
  Qed.

  Fixpoint filtered_steps (dt : R) (steps : nat) (e e' : env) : Prop :=
    match steps with O => e' = e | S k => exists e1, filtered_step dt e e1 /\ filtered_steps dt k e1 e' end.

  Lemma euler_filtered_run dt : forall steps step e, fits L n m e ->
    exists e', euler_propagate p ft (Some g) dt steps step e = Some (e', step + steps) /\ filtered_steps dt steps e e'.
  Proof.
    induction steps as [|steps IH]; intros step e Hf; cbn [euler_propagate filtered_steps].
    { exists e. rewrite Nat.add_0_r. split; reflexivity. }
    destruct (linear_euler_filter dt (time_of dt step) e Hf) as (e1 & E1 & F1). rewrite E1.
    destruct (IH (S step) e1 (proj1 F1)) as (e' & E' & H'). exists e'. split; [rewrite E'; f_equal; f_equal; lia|]. exists e1. split; assumption.
  Qed.
  Lemma rk4_filtered_run dt : forall steps step e, fits L n m e ->
    exists e', rk4_propagate p ft (Some g) dt steps step e = Some (e', step + steps) /\ filtered_steps dt steps e e'.
  Proof.
    induction steps as [|steps IH]; intros step e Hf; cbn [rk4_propagate filtered_steps].
    { exists e. rewrite Nat.add_0_r. split; reflexivity. }
    destruct (linear_rk4_filter dt (time_of dt step) e Hf) as (e1 & E1 & F1). rewrite E1.
    destruct (IH (S step) e1 (proj1 F1)) as (e' & E' & H'). exists e'. split; [rewrite E'; f_equal; f_equal; lia|]. exists e1. split; assumption.
  Qed.
  Lemma filtered_run_fits dt : forall steps e e', fits L n m e -> filtered_steps dt steps e e' -> fits L n m e'.
  Proof.
    induction steps as [|steps IH]; intros e e' Hf H; cbn [filtered_steps] in H; [rewrite H; exact Hf|]. destruct H as (e1 & [F1 _] & H). exact (IH e1 e' F1 H).
  Qed.

  Lemma filtered_closed dt i q k : nth_error es i = Some q -> k < n -> Csub C1 (Cmul (RtoC dt) (symbol L lib (tfreq ft k) q)) <> C0 ->
    forall steps e e', filtered_steps dt steps e e' ->
    Cmul (Cpow (Csub C1 (Cmul (RtoC dt) (symbol L lib (tfreq ft k) q))) steps) (mode ft e' i k) = Cmul (Cpow (RtoC (gain g ft k)) steps) (mode ft e i k).
  Proof.
    intros Hq Hk Hz. induction steps as [|steps IH]; intros e e' H; cbn [filtered_steps Cpow] in *; [rewrite H; ring|].
    destruct H as (e1 & [_ H1] & H). specialize (IH e1 e' H). specialize (H1 i q k Hq Hk).
    assert (H2 : Cmul (Csub C1 (Cmul (RtoC dt) (symbol L lib (tfreq ft k) q))) (mode ft e1 i k) = Cmul (RtoC (gain g ft k)) (mode ft e i k)).
    { rewrite H1. field. exact Hz. }
    set (Z := Csub C1 (Cmul (RtoC dt) (symbol L lib (tfreq ft k) q))) in *.
    transitivity (Cmul Z (Cmul (Cpow Z steps) (mode ft e' i k))); [ring|]. rewrite IH.
    transitivity (Cmul (Cpow (RtoC (gain g ft k)) steps) (Cmul Z (mode ft e1 i k))); [ring|]. rewrite H2. ring.
  Qed.
End LinearFilter.

(** ** Small time steps *)
Lemma one_plus_pow (x : R) (N : nat) : (0 <= x)%R -> ((1 + x) ^ N <= exp (INR N * x))%R.
Proof.
  intros Hx. induction N as [|N IH]; [cbn [pow INR]; rewrite Rmult_0_l, exp_0; lra|]. rewrite S_INR.
  replace ((INR N + 1) * x)%R with (x + INR N * x)%R by ring. rewrite exp_plus. cbn [pow].
  assert (H := exp_ineq1_le x). assert (P : (0 <= (1 + x) ^ N)%R) by (apply pow_le; lra).
  apply Rmult_le_compat; try lra.
Qed.
Lemma Cnorm2_pow z N : Cnorm2 (Cpow z N) = (Cnorm2 z ^ N)%R.
Proof. induction N as [|N IH]; cbn [Cpow pow]; [unfold Cnorm2, C1, Re, Im; cbn; ring|rewrite Cnorm2_mul, IH; reflexivity]. Qed.

Lemma growth_bound (dt a : R) (z : C) : (0 <= dt)%R -> (Rabs (Re z) <= a)%R -> (2 * (dt * a) <= 1)%R ->
  (1 <= (1 + 2 * (dt * a)) ^ 2 * Cnorm2 (Csub C1 (Cmul (RtoC dt) z)))%R /\ Csub C1 (Cmul (RtoC dt) z) <> C0.
Proof.
  intros Hdt Ha Hs. assert (Hp := Rabs_pos (Re z)). set (x := (dt * a)%R) in *. assert (Hx : (0 <= x)%R) by (unfold x; nra).
  assert (Hr : (1 - x <= Re (Csub C1 (Cmul (RtoC dt) z)))%R).
  { destruct z as [u v]. unfold Csub, Cmul, RtoC, C1, Re, Im in *. cbn [fst snd] in *. assert (U := Rle_abs u). unfold x. nra. }
  set (w := Csub C1 (Cmul (RtoC dt) z)) in *.
  assert (H1 : ((1 - x) * (1 - x) <= Cnorm2 w)%R).
  { unfold Cnorm2. assert (0 <= Im w * Im w)%R by nra. assert ((1 - x) * (1 - x) <= Re w * Re w)%R by (apply Rmult_le_compat; lra). lra. }
  split.
  - assert (H2 : (1 <= (1 + 2 * x) * (1 - x))%R) by nra.
    apply Rle_trans with ((1 + 2 * x) ^ 2 * ((1 - x) * (1 - x)))%R.
    + replace ((1 + 2 * x) ^ 2 * ((1 - x) * (1 - x)))%R with (((1 + 2 * x) * (1 - x)) * ((1 + 2 * x) * (1 - x)))%R by ring.
      rewrite <- (Rmult_1_r 1) at 1. apply Rmult_le_compat; lra.
    + apply Rmult_le_compat_l; [apply pow2_ge_0|exact H1].
  - intros E. rewrite E in Hr. cbn in Hr. lra.
Qed.

Lemma mode_bound (dt a c : R) (z y y' : C) (N : nat) : (0 <= dt)%R -> (Rabs (Re z) <= a)%R -> (2 * (dt * a) <= 1)%R ->
  Cmul (Cpow (Csub C1 (Cmul (RtoC dt) z)) N) y' = Cmul (Cpow (RtoC c) N) y ->
  (Cnorm2 y' <= exp (4 * (INR N * dt * a)) * (c ^ 2) ^ N * Cnorm2 y)%R.
Proof.
  intros Hdt Ha Hs H. destruct (growth_bound dt a z Hdt Ha Hs) as [H1 _]. set (w := Csub C1 (Cmul (RtoC dt) z)) in *.
  apply (f_equal Cnorm2) in H. rewrite !Cnorm2_mul, !Cnorm2_pow in H.
  assert (Hc : Cnorm2 (RtoC c) = (c ^ 2)%R) by (unfold Cnorm2, RtoC, Re, Im; cbn; ring). rewrite Hc in H.
  set (x := (dt * a)%R) in *. assert (Hp := Rabs_pos (Re z)). assert (Hx : (0 <= x)%R) by (unfold x; nra).
  set (b := ((1 + 2 * x) ^ 2)%R) in *.
  assert (Hb : (0 <= b)%R) by apply pow2_ge_0.
  assert (HN : (1 <= b ^ N * Cnorm2 w ^ N)%R). { rewrite <- Rpow_mult_distr. apply pow_R1_Rle. exact H1. }
  assert (HE : (b ^ N <= exp (4 * (INR N * dt * a)))%R).
  { unfold b. rewrite <- pow_mult, Nat.mul_comm, pow_mult. replace (exp (4 * (INR N * dt * a))) with (exp (INR N * (2 * x)) ^ 2)%R.
    - apply pow_incr. split; [apply pow_le; lra|]. apply one_plus_pow. lra.
    - cbn [pow]. rewrite Rmult_1_r, <- exp_plus. f_equal. unfold x. ring. }
  assert (Hy' := Cnorm2_nonneg y'). assert (Hy := Cnorm2_nonneg y).
  assert (Hcy : (0 <= (c ^ 2) ^ N * Cnorm2 y)%R) by (apply Rmult_le_pos; [apply pow_le, pow2_ge_0|exact Hy]).
  apply Rle_trans with (b ^ N * ((c ^ 2) ^ N * Cnorm2 y))%R.
  - rewrite <- H, <- Rmult_assoc. rewrite <- (Rmult_1_l (Cnorm2 y')) at 1. apply Rmult_le_compat_r; assumption.
  - rewrite Rmult_assoc. apply Rmult_le_compat_r; assumption.
Qed.
