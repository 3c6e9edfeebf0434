(** C105, continued: searches that start with NewSDD and Init. *)
From Verif Require Import ListAux FileModel ParseProofs EquationProofs EquationProps SimProofs SimProps StepProofs SddProofs SddProps DftSpec RealProofs3 LinearProofs LinearProps FlowProps SaddleSpec SaddleProps Vec CVec.
From Verif Require DftProofs.
From Coq Require Import Lra Lia.
From Verif Require Import Complex.
Open Scope R_scope.

(** NewSDD, Dt and Init with two states of one field: the search is set up with
    the weight 1/2 and time constants 1, at time zero. *)
Theorem C105_new_search : forall n dt a b, (0 < n)%nat -> / 10 ^ 16 <= dt -> length a = n -> length b = n ->
  (forall j, Im (nth j a C0) = Im (nth j b C0)) -> a <> b ->
  exists s, sdd_init (new_sdd n dt) [a] [b] = Some s /\ s_alpha s = / 2 /\ s_tau_orient s = 1 /\ s_tau_dimer s = 1 /\ s_dt s = dt /\ sdd_time s = 0
  /\ (0 < s_init_len s /\ dimer_length s 0 = s_init_len s /\ shift_data (s_init_len s) (s_orient s) a = b)
  /\ forall e, length (e_fields e) = 1%nat -> all_length n (e_fields e) -> searching n s e.
Proof.
  intros n dt a b Hn Hdt La Lb HI Hab. destruct (C26_init (new_sdd n dt) [a] [b]) as (s & E & U & Hl & Hr & Sh).
  - cbn [map]. rewrite La, Lb. reflexivity.
  - cbn [new_sdd s_orient concat]. rewrite app_nil_r, repeat_length. symmetry. exact La.
  - intros [|[|i]] j; cbn [nth]; [apply HI| |]; destruct j; reflexivity.
  - intros X. injection X as X. contradiction.
  - exists s. split; [exact E|]. unfold sdd_init in E. destruct (list_eq_dec _ _ _); [|discriminate]. unfold set_initial_orientation in E. destruct (Nat.eqb _ _) eqn:EL; [|discriminate]. apply Nat.eqb_eq in EL.
    assert (Es := E). injection Es as Es. rewrite <- Es in *. cbn [s_alpha s_tau_orient s_tau_dimer s_dt s_step s_init_len s_orient s_ready s_min_len new_sdd] in *.
    split; [reflexivity|]. split; [reflexivity|]. split; [reflexivity|]. split; [reflexivity|]. split; [unfold sdd_time; cbn [s_step s_dt INR]; ring|]. split.
    + split; [exact Hl|]. split.
      * unfold dimer_length. cbn [s_init_len s_tau_dimer s_min_len]. replace (- 0 / 1) with 0 by field. rewrite exp_0, Rmult_1_r. destruct (Rlt_dec _ 0); [lra|reflexivity].
      * cbn [shift_fields] in Sh. injection Sh as Sh. exact Sh.
    + intros e0 H1 H2. constructor; [constructor|reflexivity|exact Hdt]; cbn [s_orient s_init_len s_tau_orient]; try assumption.
      * rewrite map_length, EL, repeat_length. lia.
      * lra.
Qed.
Print Assumptions C105_new_search.

Lemma shift_data_map2 scale : forall o d, length o = length d -> shift_data scale o d = map2 (fun u v => Cadd u (Cmul (RtoC scale) v)) d (map RtoC o).
Proof.
  induction o as [|x o IH]; intros [|z d] H; try discriminate H; [reflexivity|]. cbn [shift_data map map2]. rewrite IH by (injection H as H; exact H). f_equal. f_equal. rewrite RtoC_mul. reflexivity.
Qed.
(** A search from two states of a linear model with one unstable wave number k0:
    if the states differ in their part of k0, the search that NewSDD and Init set
    up turns into that direction and comes to rest at the saddle, from every field. *)
Theorem C105_from_two_states : forall L cs q m, linear_model L cs [q] -> run_calls new_mstate (cs ++ [CInit]) = Ok m ->
  forall dom lib sg, valid_domain dom -> square_layout dom ->
  let n := nodes dom in let ft := fftw_transform dom in let p := simulation n ft lib m in
  good_library L n lib -> real_symbols L lib n ft q sg ->
  forall k0 gam B, one_unstable n sg k0 gam B ->
  forall dt a b e, / 10 ^ 16 <= dt -> dt * (2 * B) <= 1 -> length a = n -> length b = n -> (forall j, Im (nth j a C0) = Im (nth j b C0)) ->
  nth k0 (fft ft a) C0 <> nth k0 (fft ft b) C0 -> length (e_fields e) = 1%nat -> fits L n m e ->
  exists s, sdd_init (new_sdd n dt) [a] [b] = Some s
  /\ forall eps, 0 < eps -> exists N0, forall N, (N0 <= N)%nat ->
     exists s' e', sdd_run p ft N s e = Some (s', e') /\ 1 - share n ft s' k0 < eps /\ energy (nth 0 (e_fields e') []) < eps.
Proof.
  intros L cs q m LM Em dom lib sg Hv Hsq n ft p GL RS k0 gam B OU dt a b e Hdt HB La Lb HI Hk He Hf.
  assert (U : unitary_transform n ft) by (apply DftProofs.fftw_unitary; exact Hv). assert (G := ut_good _ _ U).
  assert (Hn := ou_node _ _ _ _ _ OU).
  assert (dt0 : 0 < dt) by (apply Rlt_le_trans with (/ 10 ^ 16); [apply Rinv_0_lt_compat, pow_lt; lra|exact Hdt]).
  assert (BP : 0 < B). { assert (H1 := ou_pos _ _ _ _ _ OU). assert (H2 := ou_up _ _ _ _ _ OU). assert (H3 := ou_bound _ _ _ _ _ OU k0 Hn). assert (H4 := Rle_abs (sg k0)). lra. }
  destruct (C105_new_search n dt a b ltac:(lia) Hdt La Lb HI ltac:(intros X; apply Hk; rewrite X; reflexivity)) as (s & E & _ & T1 & _ & D1 & _ & (Hl & _ & Sh) & SE).
  exists s. split; [exact E|]. assert (Hs : searching n s e) by (apply SE; [exact He|exact (proj1 (proj2 Hf))]).
  assert (LO : length (s_orient s) = n) by (rewrite (dr_orient _ _ _ _ (se_ready _ _ _ Hs)); lia).
  assert (PS : 0 < share n ft s k0).
  { unfold share. apply Rdiv_lt_0_compat; [|apply lt_0_INR; lia].
    rewrite shift_data_map2 in Sh by (rewrite LO, La; reflexivity).
    assert (F : fft ft b = map2 (fun u v => Cadd u (Cmul (RtoC (s_init_len s)) v)) (fft ft a) (fft ft (map RtoC (s_orient s)))) by (rewrite <- Sh; apply (ut_fft_add _ _ U); [exact La|rewrite map_length; exact LO]).
    apply Cnorm2_pos. intros X. apply Hk. rewrite F.
    rewrite (map2_nth' _ _ _ k0 n); [|apply (gt_fft_len _ _ G); exact La|apply (gt_fft_len _ _ G); rewrite map_length; exact LO|exact Hn].
    fold (orient_mode ft s k0). rewrite X. unfold Cadd, Cmul, C0, RtoC. destruct (nth k0 (fft ft a) (0, 0)) as [x y]. cbn [Re Im fst snd]. f_equal; ring. }
  intros eps Heps. destruct (C105_finds_the_saddle L cs q m LM Em dom lib sg Hv Hsq GL RS k0 gam B OU s e Hs Hf ltac:(rewrite T1; lra) PS) with (eps := eps) as (N0 & HN).
  - rewrite D1. lra.
  - rewrite D1, T1. replace (dt / 1) with dt by field. exact HB.
  - exact Heps.
  - exists N0. intros N HNN. destruct (HN N HNN) as (s' & e' & R1 & _ & _ & R2 & R3). exists s', e'. split; [exact R1|split; [exact R2|exact R3]].
Qed.
Print Assumptions C105_from_two_states.
(** The model of C105_nonvacuous, from the states 0, 0, 0, 0 and 1, 0, 0, 0. *)
Example C105_from_two_states_nonvacuous : let a := [C0; C0; C0; C0] in let b := [C1; C0; C0; C0] in
  one_unstable 4 growth_rate 0 1 15 /\ / 10 ^ 16 <= / 100 /\ / 100 * (2 * 15) <= 1 /\ (forall j, Im (nth j a C0) = Im (nth j b C0))
  /\ nth 0 (fft ft4 a) C0 <> nth 0 (fft ft4 b) C0 /\ length (e_fields growth_env) = 1%nat /\ fits Lf 4 (flow_state growth) growth_env.
Proof.
  intros a b. split; [exact growth_unstable|]. split; [lra|]. split; [lra|]. split; [intros [|[|[|[|[|j]]]]]; reflexivity|]. split; [|split; [reflexivity|exact growth_fits]].
  assert (G : good_transform 4 ft4) by (apply (ut_good 4 ft4), (DftProofs.fftw_unitary [4; 1]%Z valid41)). rewrite !(gt_zero _ _ G) by reflexivity. unfold a, b. cbn [Csum]. unfold Cadd, C0, C1, RtoC. cbn [Re Im fst snd]. intros E. injection E as E. lra.
Qed.
