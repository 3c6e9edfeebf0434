(** Property C103: Euler steps lower the energy of gradient flows. *)
From Verif Require Import ListAux FileModel ParseProofs DerivedProofs EquationProofs EquationProps SimProofs SimProofs5 SimProps SplitSpec SplitProps StepProofs DftProofs RealProofs RealProofs2 MatchProofs2 KeepSpec KeepProofs KeepProofs2 KeepProps ConserveProofs FlowSpec FlowProofs FlowProofs2 FlowProofs3 Vec CVec Complex.
From Verif Require IndexProofs SymmetrySpec SymmetryProofs6.
From Coq Require Import Lra Lia Permutation.
Open Scope R_scope.

(** C103. Let the equations be of the form d field/dt = -(-LAP)^p mu with p >= 0
    (one p for each field), where mu is the derivative of an energy: [w] are the
    coefficients of the part of mu that is linear in the field and [g] is the rest,
    the gradient of a density [G].  As long as the values of the fields stay in a
    set [B] where the curvature of [G] is at most [K], the energy does not rise in
    any number of Euler steps with K M <= 2/dt + M w, where M = (4 pi^2 f^2)^p for
    waves of frequency f. *)
Theorem C103_energy : forall L cs es m, declared L cs es -> run_calls new_mstate (cs ++ [CInit]) = Ok m ->
  forall n ft lib, good_library L n lib -> unitary_transform n ft -> (0 < n)%nat ->
  map q_field es = l_fields L -> (forall i, sources_of i cs = []) ->
  let nf := length (l_fields L) in
  forall (p : nat -> nat) (w : nat -> nat -> R) G g K (B : (nat -> R) -> Prop),
  (forall i q, nth_error es i = Some q -> flow_equation L (p i) q) ->
  (forall i q k, nth_error es i = Some q -> (k < n)%nat -> stiffness L lib (p i) (tfreq ft k) q = RtoC (w i k)) ->
  (forall i q fields val j, nth_error es i = Some q -> shaped nf n fields -> all_real fields -> (forall j, (j < n)%nat -> B (node fields j)) ->
     values L lib fields val -> (j < n)%nat -> force L lib (p i) val q j = RtoC (g i (node fields j))) ->
  descends nf G g K B ->
  forall dt, 0 < dt ->
  (forall i k, (i < nf)%nat -> (k < n)%nat ->
     let M := (- lap_symbol (tfreq ft k)) ^ p i in 1 + dt * M * w i k <> 0 /\ K * M <= 2 / dt + M * w i k) ->
  forall steps step e, fits L n m e ->
  (forall s e1 step1, (s <= steps)%nat -> euler_propagate (simulation n ft lib m) ft None dt s step e = Some (e1, step1) ->
     all_real (e_fields e1) /\ forall j, (j < n)%nat -> B (node (e_fields e1) j)) ->
  exists e', euler_propagate (simulation n ft lib m) ft None dt steps step e = Some (e', (step + steps)%nat) /\ fits L n m e'
  /\ flow_energy nf n ft G w (e_fields e') <= flow_energy nf n ft G w (e_fields e).
Proof.
  intros L cs es m HD Em n ft lib GL U Hn HO HS nf p w G g K B HF HW Hg HG dt Hdt Hst.
  induction steps as [|steps IH]; intros step e Hf HB.
  - exists e. rewrite Nat.add_0_r. split; [reflexivity|]. split; [exact Hf|apply Rle_refl].
  - destruct (euler_facts L cs es m HD Em n ft lib GL (ut_good n ft U) HO None dt (time_of dt step) e Hf) as (e1 & Y & E1 & _ & _ & Hf1 & _).
    destruct (HB 0%nat e step ltac:(lia) eq_refl) as [R0 B0].
    destruct (HB 1%nat e1 (S step) ltac:(lia)) as [R1 B1]; [cbn [euler_propagate]; rewrite E1; reflexivity|].
    destruct (IH (S step) e1 Hf1) as (e' & E' & Hf' & H').
    { intros s e2 step2 Hs E2. apply (HB (S s) e2 step2 ltac:(lia)). cbn [euler_propagate]. rewrite E1. exact E2. }
    exists e'. split; [cbn [euler_propagate]; rewrite E1, E'; f_equal; f_equal; lia|]. split; [exact Hf'|].
    eapply Rle_trans; [exact H'|].
    apply (flow_step L cs es m HD Em n ft lib GL U Hn HO HS p w G g K B HF HW Hg HG dt Hdt Hst (time_of dt step) e e1 Hf R0 R1); [|exact E1].
    intros j Hj. split; [apply B0, Hj|apply B1, Hj].
Qed.
Print Assumptions C103_energy.

(** ** Allen-Cahn and Cahn-Hilliard *)
Definition Lf : lang :=
  {| l_fields := [lit "conc"]; l_functions := []; l_scalars := [lit "kap"]; l_implicit := []; l_explicit := []; l_mixed := [] |}.
Definition lap2w : wfactor := {| wf_op := OpLapPow [2%nat]; wf_fac := fac "conc" None |}.
Definition flow_calls (eq : string) : list call := [CField (lit "conc"); CScalar (lit "kap"); CEquation (lit eq)].
Definition flow_state (eq : string) : mstate := match run_calls new_mstate (flow_calls eq ++ [CInit]) with Ok m => m | _ => new_mstate end.
Definition allen_cahn : string := "dconc/dt = conc - conc^3 + kap*LAP conc".
Definition cahn_hilliard : string := "dconc/dt = LAP conc^3 - LAP conc - kap*LAP^2 conc".
Definition allen_cahn_q : eqtext :=
  {| q_field := lit "conc"; q_lead := None; q_first := IProduct [plainw "conc" None];
     q_more := [(minus_c, IProduct [plainw "conc" (Some 3%nat)]); (plus_c, IProduct [plainw "kap" None; lapw "conc" None])] |}.
Definition cahn_hilliard_q : eqtext :=
  {| q_field := lit "conc"; q_lead := None; q_first := IProduct [lapw "conc" (Some 3%nat)];
     q_more := [(minus_c, IProduct [lapw "conc" None]); (minus_c, IProduct [plainw "kap" None; lap2w])] |}.
(** The constant kap. *)
Definition flow_library (n : nat) (kap : R) : library :=
  {| lb_pow := principal_power; lb_scalar := fun _ => RtoC kap; lb_calc := fun _ => None;
     lb_pure := fun _ _ _ => []; lb_linear := fun _ _ _ => []; lb_nonlinear := fun _ _ _ => []; lb_source := fun _ _ => repeat C0 n |}.

Ltac flow_declared b :=
  constructor;
  [ good_language
  | split; [reflexivity|]; intros n; cbn; tauto
  | exists (firstn 2 (flow_calls b)), (skipn 2 (flow_calls b)); split; [reflexivity|]; split; [|split];
    [ intros c H; cbn in H; repeat (destruct H as [<-|H]; [exact (fun x => x)|]); destruct H
    | intros c H; cbn in H; repeat (destruct H as [<-|H]; [exact (fun x => x)|]); destruct H
    | discriminate ]
  | let b' := fresh "b" in let a := fresh in let eq := fresh in let s := fresh in let E := fresh "E" in
    intros b' a eq s E; unfold flow_calls in E;
    do 3 (destruct b' as [|? b']; [discriminate E|injection E as <- E]); destruct b'; discriminate E
  | cbn; intuition discriminate
  | intros k name t ds H; cbn in H; intuition discriminate
  | constructor; [vm_compute; reflexivity|constructor]
  | idtac ].
Lemma allen_cahn_declared : declared Lf (flow_calls allen_cahn) [allen_cahn_q].
Proof.
  flow_declared allen_cahn. constructor; [|constructor]. split; [cbn; auto|]. split; [discriminate|]. split.
  - split; [exists [], [plainw "conc" None], []; good_prod|vm_compute; intuition discriminate].
  - constructor; [|constructor; [|constructor]].
    + split; [right; reflexivity|]. split; [exists [], [plainw "conc" (Some 3%nat)], []; good_prod|vm_compute; intuition discriminate].
    + split; [left; reflexivity|]. split; [exists [], [lapw "conc" None], [plainw "kap" None]; good_prod|vm_compute; intuition discriminate].
Qed.
Lemma cahn_hilliard_declared : declared Lf (flow_calls cahn_hilliard) [cahn_hilliard_q].
Proof.
  flow_declared cahn_hilliard. constructor; [|constructor]. split; [cbn; auto|]. split; [discriminate|]. split.
  - split; [exists [], [lapw "conc" (Some 3%nat)], []; good_prod|vm_compute; intuition discriminate].
  - constructor; [|constructor; [|constructor]].
    + split; [right; reflexivity|]. split; [exists [], [lapw "conc" None], []; good_prod|vm_compute; intuition discriminate].
    + split; [right; reflexivity|]. split; [exists [], [lap2w], [plainw "kap" None]; good_prod|vm_compute; intuition discriminate].
Qed.
Lemma allen_cahn_run : run_calls new_mstate (flow_calls allen_cahn ++ [CInit]) = Ok (flow_state allen_cahn).
Proof. vm_compute. reflexivity. Qed.
Lemma cahn_hilliard_run : run_calls new_mstate (flow_calls cahn_hilliard ++ [CInit]) = Ok (flow_state cahn_hilliard).
Proof. vm_compute. reflexivity. Qed.
Lemma flow_library_good n kap : good_library Lf n (flow_library n kap).
Proof.
  constructor; [intros name; split; [intros []|intros [c H]; discriminate H]|intros name c fs H; discriminate H|intros; apply repeat_length].
Qed.

Section Wells.
  Variables (eq : string) (q : eqtext) (p : nat).
  Hypothesis Hdec : declared Lf (flow_calls eq) [q].
  Hypothesis Hrun : run_calls new_mstate (flow_calls eq ++ [CInit]) = Ok (flow_state eq).
  Hypothesis Hqf : q_field q = lit "conc".
  Hypothesis Hflow : flow_equation Lf p q.
  Hypothesis Hstiff : forall n kap freq, stiffness Lf (flow_library n kap) p freq q = RtoC (kap * - lap_symbol freq - 1).
  Hypothesis Hforce : forall n kap val j, Im (val (lit "conc") j) = 0 -> force Lf (flow_library n kap) p val q j = RtoC (Re (val (lit "conc") j) ^ 3).
  Hypothesis Hwhole : forall t s w, In (IProduct t, s) (signed_items q) -> In w t -> match fa_exp (wf_fac w) with Some e => ex_frac e = None | None => True end.
  Variables (dom : list Z) (kap : R).
  Hypothesis Hv : valid_domain dom.
  Hypothesis Hs : square_layout dom.
  Hypothesis Hkap : 0 <= kap.
  Notation n := (nodes dom).
  Notation ft := (fftw_transform dom).
  Notation lib := (flow_library n kap).
  Notation m := (flow_state eq).
  Let sim := simulation n ft lib m.
  Let U := fftw_unitary dom Hv.
  Let Hn : (0 < n)%nat.
  Proof. unfold nodes. pose proof (IndexProofs.num_nodes_pos dom (proj2 Hv)). lia. Qed.
  Let w (i k : nat) : R := kap * - lap_symbol (tfreq ft k) - 1.
  Let M (k : nat) : R := (- lap_symbol (tfreq ft k)) ^ p.

  Lemma wells_order : map q_field [q] = l_fields Lf.
  Proof. cbn [map]. rewrite Hqf. reflexivity. Qed.
  Lemma wells_real : real_library Lf (flow_calls eq) [q] dom (length (pm_derived (ms_names m))) lib.
  Proof.
    destruct (C97_whole_exponents Lf (flow_calls eq) [q] dom (length (pm_derived (ms_names m))) lib Hdec eq_refl eq_refl) as [H _]; [..|exact H].
    - intros i. reflexivity.
    - apply flow_library_good.
    - reflexivity.
    - intros s _. reflexivity.
    - intros q0 t s x [<-|[]]. apply Hwhole.
  Qed.
  Lemma wells_keep dt steps step e e' step' : fits Lf n m e -> real_fields dom (e_fields e) -> euler_propagate sim ft None dt steps step e = Some (e', step') ->
    real_fields dom (e_fields e').
  Proof. exact (C97_euler_partial Lf (flow_calls eq) [q] m Hdec Hrun dom lib Hv Hs (flow_library_good n kap) wells_real None dt steps step e e' step'). Qed.
  Lemma real_all fs : real_fields dom fs -> all_real fs.
  Proof. apply Forall_impl. intros d [_ H]. exact H. Qed.
  Lemma wells_value fields val j : shaped 1 n fields -> values Lf lib fields val -> val (lit "conc") j = at_ fields 0 j.
  Proof.
    intros [Hl _] [HV _]. destruct fields as [|d [|d2 r]]; try discriminate Hl. exact (HV 0%nat (lit "conc") d eq_refl eq_refl j).
  Qed.
  Lemma wells_force (i : nat) q0 fields val j : nth_error [q] i = Some q0 -> shaped 1 n fields -> all_real fields -> values Lf lib fields val -> (j < n)%nat ->
    force Lf lib p val q0 j = RtoC (node fields j 0%nat ^ 3).
  Proof.
    intros Hq Hsh Hr HV Hj. destruct i as [|[|i]]; try discriminate Hq. injection Hq as <-. unfold node. rewrite <- (wells_value fields val j Hsh HV). apply Hforce.
    rewrite (wells_value fields val j Hsh HV). destruct Hsh as [Hl Ha]. destruct fields as [|d [|d2 r]]; try discriminate Hl. unfold at_. cbn [nth].
    inversion Hr as [|? ? R1 _]; subst. inversion Ha as [|? ? L1 _]; subst. unfold real_field in R1. rewrite Forall_forall in R1. apply R1, nth_In. lia.
  Qed.

  Lemma wells_step dt t e e' : fits Lf n m e -> all_real (e_fields e) -> euler_step sim ft None dt t e = Some e' ->
    forall k, (k < n)%nat -> nth k (fft ft (nth 0 (e_fields e') [])) C0 =
      Cdiv (Cadd (nth k (fft ft (nth 0 (e_fields e) [])) C0) (Cmul (RtoC dt) (Cmul (RtoC (- M k)) (amplitude_at n ft k (fun j => RtoC (Re (nth j (nth 0 (e_fields e) []) C0) ^ 3))))))
           (Csub C1 (Cmul (RtoC dt) (RtoC (- M k * w 0 k)))).
  Proof.
    intros Hf Hr HE k Hk.
    destruct (C92_euler_step Lf (flow_calls eq) [q] m Hdec Hrun n ft lib (flow_library_good n kap) (ut_good n ft U) wells_order dt t e Hf) as (e2 & E2 & _ & _ & HY).
    fold sim in E2. rewrite HE in E2. injection E2 as <-. specialize (HY 0%nat q eq_refl). cbv zeta in HY.
    match type of HY with forall k X A, _ -> split_written _ _ _ _ _ ?F ?S ?E ?T ?Q _ _ _ -> _ => destruct (C92_parts_exist Lf (flow_calls eq) [q] m Hdec Hrun n ft lib E T Q k F S) as (X & A & HXA) end.
    rewrite (HY k X A Hk HXA).
    destruct (flow_parts Lf (flow_calls eq) [q] Hdec n ft lib U q p _ _ _ _ k X A (or_introl eq_refl) Hflow Hk HXA) as (EA & val & HV & EX).
    rewrite Hstiff, <- RtoC_mul in EA. change (source_sum (flow_calls eq) lib t 0 k) with C0. rewrite EA, EX. f_equal. f_equal. f_equal.
    rewrite (amp_ext n ft k (force Lf lib p val q) (fun j => RtoC (Re (nth j (nth 0 (e_fields e) []) C0) ^ 3))); [unfold M; ring|].
    intros j Hj. apply (wells_force 0 q (e_fields e) val j eq_refl); [destruct Hf as (F1 & F2 & _); split; assumption|exact Hr|exact HV|exact Hj].
  Qed.

  (** Bounded values. *)
  Lemma wells_energy b dt : 0 < dt -> (forall k, (k < n)%nat -> 1 + dt * M k * w 0 k <> 0 /\ 3 * b * M k <= 2 / dt + M k * w 0 k) -> 0 <= b ->
    forall steps step e, fits Lf n m e -> real_fields dom (e_fields e) ->
    (forall s e1 step1 j, (s <= steps)%nat -> euler_propagate sim ft None dt s step e = Some (e1, step1) -> (j < n)%nat -> Re (at_ (e_fields e1) 0 j) ^ 2 <= b) ->
    exists e', euler_propagate sim ft None dt steps step e = Some (e', (step + steps)%nat)
    /\ double_well_energy n ft kap (nth 0 (e_fields e') []) <= double_well_energy n ft kap (nth 0 (e_fields e) []).
  Proof.
    intros Hdt Hst Hb steps step e Hf Hr HB.
    destruct (C103_energy Lf (flow_calls eq) [q] m Hdec Hrun n ft lib (flow_library_good n kap) U Hn wells_order (fun _ => eq_refl)
      (fun _ => p) w (fun u => u 0%nat ^ 4 / 4) (fun _ u => u 0%nat ^ 3) (3 * b) (fun u => u 0%nat ^ 2 <= b)) with (dt := dt) (steps := steps) (step := step) (e := e) as (e' & E' & Hf' & HE).
    - intros [|[|i]] q0 Hq; try discriminate Hq. injection Hq as <-. exact Hflow.
    - intros [|[|i]] q0 k Hq _; try discriminate Hq. injection Hq as <-. apply Hstiff.
    - intros i q0 fields val j Hq Hsh Hrr _ HV Hj. exact (wells_force i q0 fields val j Hq Hsh Hrr HV Hj).
    - apply quartic, Hb.
    - exact Hdt.
    - intros [|i] k Hi Hk; [|cbn in Hi; lia]. exact (Hst k Hk).
    - exact Hf.
    - intros s e1 step1 Hsl E1. split; [apply real_all; exact (wells_keep dt s step e e1 step1 Hf Hr E1)|].
      intros j Hj. exact (HB s e1 step1 j Hsl E1 Hj).
    - exists e'. split; [exact E'|].
      assert (Hr' := wells_keep dt steps step e e' _ Hf Hr E').
      destruct Hf as (F1 & F2 & _), Hf' as (G1 & G2 & _). destruct (e_fields e) as [|d [|? ?]]; try discriminate F1. destruct (e_fields e') as [|d' [|? ?]]; try discriminate G1.
      inversion Hr as [|? ? [L1 R1] _]; subst. inversion Hr' as [|? ? [L2 R2] _]; subst. cbn [nth].
      rewrite <- (well_flow n ft U Hn kap d L1 R1), <- (well_flow n ft U Hn kap d' L2 R2). exact HE.
  Qed.

  (** Small steps. *)
  Lemma wells_small E0 dt Mx : 0 < dt <= 1 ->
    (forall k, (k < n)%nat -> M k <= Mx /\ / 2 <= 1 + dt * M k * w 0 k /\ 3 * (value_bound n E0 + 8 * INR n * (value_bound n E0 + Mx ^ 2 * value_bound n E0 ^ 3)) * M k <= 2 / dt + M k * w 0 k) ->
    forall steps step e, fits Lf n m e -> real_fields dom (e_fields e) -> double_well_energy n ft kap (nth 0 (e_fields e) []) <= E0 ->
    exists e1 e2, euler_propagate sim ft None dt steps step e = Some (e1, (step + steps)%nat)
    /\ euler_propagate sim ft None dt (S steps) step e = Some (e2, (step + S steps)%nat)
    /\ double_well_energy n ft kap (nth 0 (e_fields e1) []) <= E0
    /\ double_well_energy n ft kap (nth 0 (e_fields e2) []) <= double_well_energy n ft kap (nth 0 (e_fields e1) []).
  Proof.
    intros Hdt Hst. assert (HV1 := value_bound_pos n E0). assert (Np : 0 < INR n) by (apply lt_0_INR, Hn).
    assert (HM0 : forall k, 0 <= M k) by (intros k; apply pow_le, lap_nonpos).
    set (R0 := value_bound n E0) in *. set (b := R0 + 8 * INR n * (R0 + Mx ^ 2 * R0 ^ 3)) in *.
    assert (HR3 : 0 <= Mx ^ 2 * R0 ^ 3) by (apply Rmult_le_pos; [apply pow2_ge_0|apply pow_le; lra]).
    assert (Hb : R0 <= b /\ 8 * INR n * (R0 + Mx ^ 2 * R0 ^ 3) <= b).
    { unfold b. assert (0 <= 8 * INR n * (R0 + Mx ^ 2 * R0 ^ 3)) by (apply Rmult_le_pos; lra). lra. }
    assert (ONE : forall step e, fits Lf n m e -> real_fields dom (e_fields e) -> double_well_energy n ft kap (nth 0 (e_fields e) []) <= E0 ->
      exists e1, euler_step sim ft None dt (time_of dt step) e = Some e1 /\ fits Lf n m e1 /\ real_fields dom (e_fields e1)
      /\ double_well_energy n ft kap (nth 0 (e_fields e1) []) <= double_well_energy n ft kap (nth 0 (e_fields e) [])).
    { intros step e Hf Hr HE.
      destruct (euler_facts Lf (flow_calls eq) [q] m Hdec Hrun n ft lib (flow_library_good n kap) (ut_good n ft U) wells_order None dt (time_of dt step) e Hf) as (e1 & Y & E1 & _ & _ & Hf1 & _).
      fold sim in E1. assert (P1 : euler_propagate sim ft None dt 1 step e = Some (e1, S step)) by (cbn [euler_propagate]; rewrite E1; reflexivity).
      assert (Hr1 := wells_keep dt 1 step e e1 _ Hf Hr P1). exists e1. split; [exact E1|]. split; [exact Hf1|]. split; [exact Hr1|].
      assert (VB : forall j, (j < n)%nat -> Re (at_ (e_fields e) 0 j) ^ 2 <= R0) by (intros j Hj; exact (well_bound n ft Hn kap Hkap _ E0 HE j Hj)).
      assert (VB1 : forall j, (j < n)%nat -> Re (at_ (e_fields e1) 0 j) ^ 2 <= 8 * INR n * (R0 + Mx ^ 2 * R0 ^ 3)).
      { assert (F := Hf). destruct F as (F1 & F2 & _). assert (G := Hf1). destruct G as (G1 & G2 & _). assert (HW := wells_step dt _ e e1 Hf (real_all _ Hr) E1). unfold at_ in *.
        destruct (e_fields e) as [|d [|? ?]]; try discriminate F1. destruct (e_fields e1) as [|d' [|? ?]]; try discriminate G1.
        inversion Hr as [|? ? [L1 R1] _]; subst. inversion Hr1 as [|? ? [L2 R2] _]; subst. cbn [nth] in *.
        apply (next_bound n ft U Hn dt Mx R0 M (w 0) d d' Hdt L1 L2 R1 R2 ltac:(lra)); [|exact HW|exact VB].
        intros k Hk. destruct (Hst k Hk) as (S1 & S2 & _). split; [split; [apply HM0|exact S1]|exact S2]. }
      destruct (wells_energy b dt (proj1 Hdt)) with (steps := 1%nat) (step := step) (e := e) as (e1' & E1' & HH); [..|rewrite P1 in E1'; injection E1' as <- _; exact HH].
      - intros k Hk. destruct (Hst k Hk) as (S1 & S2 & S3). split; [lra|exact S3].
      - lra.
      - exact Hf.
      - exact Hr.
      - intros [|[|s]] e2 step2 j Hs0 E2 Hj; [injection E2 as <- _; specialize (VB j Hj); lra|rewrite P1 in E2; injection E2 as <- _; specialize (VB1 j Hj); lra|lia]. }
    induction steps as [|steps IH]; intros step e Hf Hr HE.
    - destruct (ONE step e Hf Hr HE) as (e1 & E1 & _ & _ & H1). exists e, e1. cbn [euler_propagate]. rewrite E1, Nat.add_0_r, Nat.add_1_r. repeat split; assumption.
    - destruct (ONE step e Hf Hr HE) as (e1 & E1 & Hf1 & Hr1 & H1). destruct (IH (S step) e1 Hf1 Hr1) as (e2 & e3 & P2 & P3 & H2 & H3); [lra|].
      exists e2, e3. cbn [euler_propagate] in *. rewrite E1. split; [rewrite P2; f_equal; f_equal; lia|]. split; [rewrite P3; f_equal; f_equal; lia|]. split; assumption.
  Qed.
End Wells.

Lemma principal_cube z : Im z = 0 -> principal_power z (expo_value {| ex_int := [3%nat]; ex_frac := None |}) = RtoC (Re z ^ 3).
Proof.
  intros H. replace (expo_value {| ex_int := [3%nat]; ex_frac := None |}) with (INR 3) by (unfold expo_value; cbn; lra).
  replace z with (RtoC (Re z)) at 1 by (destruct z as [a b]; cbn [Re Im fst snd] in *; subst b; reflexivity). apply C97_natural_powers.
Qed.
Lemma principal_one x : principal_power (RtoC x) 1 = RtoC x.
Proof. change 1 with (INR 1). rewrite C97_natural_powers. f_equal. ring. Qed.

Ltac flow_items :=
  unfold sum_signed, signed_items; cbn [map fst snd q_first q_lead q_more q_field Csum force_item stiffness_item allen_cahn_q cahn_hilliard_q];
  change (linear_in Lf (lit "conc") [plainw "conc" None]) with true; change (linear_in Lf (lit "conc") [plainw "conc" (Some 3%nat)]) with false;
  change (linear_in Lf (lit "conc") [plainw "kap" None; lapw "conc" None]) with true; change (linear_in Lf (lit "conc") [plainw "kap" None; lap2w]) with true;
  change (linear_in Lf (lit "conc") [lapw "conc" None]) with true; change (linear_in Lf (lit "conc") [lapw "conc" (Some 3%nat)]) with false;
  cbv iota;
  change (field_factors Lf [plainw "conc" (Some 3%nat)]) with [fac "conc" (Some 3%nat)]; change (field_factors Lf [lapw "conc" (Some 3%nat)]) with [fac "conc" (Some 3%nat)];
  change (scalar_factors Lf [plainw "conc" (Some 3%nat)]) with (@nil factor); change (scalar_factors Lf [lapw "conc" (Some 3%nat)]) with (@nil factor);
  change (scalar_factors Lf [plainw "conc" None]) with (@nil factor); change (scalar_factors Lf [lapw "conc" None]) with (@nil factor);
  change (scalar_factors Lf [plainw "kap" None; lapw "conc" None]) with [fac "kap" None]; change (scalar_factors Lf [plainw "kap" None; lap2w]) with [fac "kap" None];
  cbn [total_power plainw lapw lap2w wf_op oper_power fac fa_exp option_map fa_name product_value factor_power amplitude flow_library lb_pow lb_scalar sign_value];
  change (Ascii.eqb minus_c minus_c) with true; change (Ascii.eqb plus_c minus_c) with false; cbv iota.
Lemma allen_cahn_stiff n kap freq : stiffness Lf (flow_library n kap) 0 freq allen_cahn_q = RtoC (kap * - lap_symbol freq - 1).
Proof. unfold stiffness. flow_items. rewrite principal_one. cbn [Nat.add Nat.sub pow]. set (s := lap_symbol freq). csolve. Qed.
Lemma cahn_hilliard_stiff n kap freq : stiffness Lf (flow_library n kap) 1 freq cahn_hilliard_q = RtoC (kap * - lap_symbol freq - 1).
Proof.
  unfold stiffness. flow_items. rewrite principal_one. change (Z.to_nat (int_value [2%nat])) with 2%nat. cbn [Nat.add Nat.sub pow]. set (s := lap_symbol freq). csolve.
Qed.
Lemma allen_cahn_force n kap val j : Im (val (lit "conc") j) = 0 -> force Lf (flow_library n kap) 0 val allen_cahn_q j = RtoC (Re (val (lit "conc") j) ^ 3).
Proof. intros H. unfold force. flow_items. rewrite (principal_cube _ H). cbn [pow]. csolve. Qed.
Lemma cahn_hilliard_force n kap val j : Im (val (lit "conc") j) = 0 -> force Lf (flow_library n kap) 1 val cahn_hilliard_q j = RtoC (Re (val (lit "conc") j) ^ 3).
Proof. intros H. unfold force. flow_items. rewrite (principal_cube _ H). cbn [pow]. csolve. Qed.
Lemma allen_cahn_flow : flow_equation Lf 0 allen_cahn_q.
Proof. constructor; [|constructor; [|constructor; [|constructor]]]; (split; [cbn; lia|]); [left; reflexivity|right; split; reflexivity|left; reflexivity]. Qed.
Lemma cahn_hilliard_flow : flow_equation Lf 1 cahn_hilliard_q.
Proof. constructor; [|constructor; [|constructor; [|constructor]]]; (split; [cbn; lia|]); [right; split; reflexivity|left; reflexivity|left; reflexivity]. Qed.
Lemma allen_cahn_whole t s w : In (IProduct t, s) (signed_items allen_cahn_q) -> In w t -> match fa_exp (wf_fac w) with Some e => ex_frac e = None | None => True end.
Proof. intros H Hw. cbn in H. destruct H as [H|[H|[H|[]]]]; injection H as <- _; repeat (destruct Hw as [<-|Hw]; [reflexivity || exact I|]); destruct Hw. Qed.
Lemma cahn_hilliard_whole t s w : In (IProduct t, s) (signed_items cahn_hilliard_q) -> In w t -> match fa_exp (wf_fac w) with Some e => ex_frac e = None | None => True end.
Proof. intros H Hw. cbn in H. destruct H as [H|[H|[H|[]]]]; injection H as <- _; repeat (destruct Hw as [<-|Hw]; [reflexivity || exact I|]); destruct Hw. Qed.

Lemma square_bound x b : Rabs x <= b -> x ^ 2 <= b ^ 2.
Proof. intros H. rewrite <- (pow2_abs x). apply pow_incr. split; [apply Rabs_pos|exact H]. Qed.

(** dconc/dt = conc - conc^3 + kap*LAP conc on any domain: as long as the values
    are between -b and b, steps up to 2/(3b^2 + 1) lower the energy. *)
Theorem C103_allen_cahn : forall dom kap b dt, valid_domain dom -> square_layout dom -> 0 <= kap -> 0 < dt < 1 -> dt * (3 * b ^ 2 + 1) <= 2 ->
  let n := nodes dom in let ft := fftw_transform dom in let p := simulation n ft (flow_library n kap) (flow_state allen_cahn) in
  forall steps step e, fits Lf n (flow_state allen_cahn) e -> real_fields dom (e_fields e) ->
  (forall s e1 step1 j, (s <= steps)%nat -> euler_propagate p ft None dt s step e = Some (e1, step1) -> (j < n)%nat -> Rabs (Re (at_ (e_fields e1) 0 j)) <= b) ->
  exists e', euler_propagate p ft None dt steps step e = Some (e', (step + steps)%nat)
  /\ double_well_energy n ft kap (nth 0 (e_fields e') []) <= double_well_energy n ft kap (nth 0 (e_fields e) []).
Proof.
  intros dom kap b dt Hv Hs Hk Hdt Hb n ft p steps step e Hf Hr HB.
  refine (wells_energy allen_cahn allen_cahn_q 0 allen_cahn_declared allen_cahn_run eq_refl allen_cahn_flow allen_cahn_stiff allen_cahn_force allen_cahn_whole
    dom kap Hv Hs (b ^ 2) dt (proj1 Hdt) _ (pow2_ge_0 b) steps step e Hf Hr _).
  - intros k _. assert (HL := lap_nonpos (tfreq (fftw_transform dom) k)). set (x := - lap_symbol (tfreq (fftw_transform dom) k)) in *. cbn [pow].
    assert (Hkx : 0 <= kap * x) by (apply Rmult_le_pos; assumption). split; [assert (0 <= dt * (kap * x)) by (apply Rmult_le_pos; lra); lra|].
    assert (Hd : 3 * b ^ 2 + 1 <= 2 / dt) by (apply (Rmult_le_reg_l dt); [lra|]; replace (dt * (2 / dt)) with 2 by (field; lra); exact Hb). cbn [pow] in Hd. lra.
  - intros s e1 step1 j H1 H2 H3. apply square_bound. exact (HB s e1 step1 j H1 H2 H3).
Qed.
Print Assumptions C103_allen_cahn.

(** dconc/dt = LAP conc^3 - LAP conc - kap*LAP^2 conc: steps up to
    8 kap/(3b^2 + 1)^2. *)
Theorem C103_cahn_hilliard : forall dom kap b dt, valid_domain dom -> square_layout dom -> 0 < kap -> 0 < dt < 4 * kap -> dt * (3 * b ^ 2 + 1) ^ 2 <= 8 * kap ->
  let n := nodes dom in let ft := fftw_transform dom in let p := simulation n ft (flow_library n kap) (flow_state cahn_hilliard) in
  forall steps step e, fits Lf n (flow_state cahn_hilliard) e -> real_fields dom (e_fields e) ->
  (forall s e1 step1 j, (s <= steps)%nat -> euler_propagate p ft None dt s step e = Some (e1, step1) -> (j < n)%nat -> Rabs (Re (at_ (e_fields e1) 0 j)) <= b) ->
  exists e', euler_propagate p ft None dt steps step e = Some (e', (step + steps)%nat)
  /\ double_well_energy n ft kap (nth 0 (e_fields e') []) <= double_well_energy n ft kap (nth 0 (e_fields e) []).
Proof.
  intros dom kap b dt Hv Hs Hk Hdt Hb n ft p steps step e Hf Hr HB.
  refine (wells_energy cahn_hilliard cahn_hilliard_q 1 cahn_hilliard_declared cahn_hilliard_run eq_refl cahn_hilliard_flow cahn_hilliard_stiff cahn_hilliard_force cahn_hilliard_whole
    dom kap Hv Hs (b ^ 2) dt (proj1 Hdt) _ (pow2_ge_0 b) steps step e Hf Hr _).
  - intros k _. assert (HL := lap_nonpos (tfreq (fftw_transform dom) k)). set (x := - lap_symbol (tfreq (fftw_transform dom) k)) in *. rewrite pow_1. set (c := 3 * b ^ 2 + 1) in *.
    assert (Hsq : 0 <= (2 * kap * x - 1) * (2 * kap * x - 1)) by apply Rle_0_sqr. split.
    + assert (HQ : - / (4 * kap) <= x * (kap * x - 1)).
      { apply (Rmult_le_reg_l (4 * kap)); [lra|]. replace (4 * kap * - / (4 * kap)) with (-1) by (field; lra). nra. }
      assert (HD : - (dt * / (4 * kap)) <= dt * (x * (kap * x - 1))) by (replace (- (dt * / (4 * kap))) with (dt * - / (4 * kap)) by ring; apply Rmult_le_compat_l; lra).
      assert (dt * / (4 * kap) < 1) by (apply (Rmult_lt_reg_r (4 * kap)); [lra|]; rewrite Rmult_assoc, Rinv_l by lra; lra). lra.
    + assert (Hsq2 : 0 <= (2 * kap * x - c) * (2 * kap * x - c)) by apply Rle_0_sqr.
      assert (HD : c * c <= 8 * kap / dt) by (apply (Rmult_le_reg_l dt); [lra|]; replace (dt * (8 * kap / dt)) with (8 * kap) by (field; lra); cbn [pow] in Hb; lra).
      apply (Rmult_le_reg_l (4 * kap)); [lra|]. replace (4 * kap * (2 / dt + x * (kap * x - 1))) with (8 * kap / dt + 4 * kap * x * (kap * x - 1)) by (field; lra).
      replace (3 * b ^ 2) with (c - 1) by (unfold c; ring). nra.
  - intros s e1 step1 j H1 H2 H3. apply square_bound. exact (HB s e1 step1 j H1 H2 H3).
Qed.
Print Assumptions C103_cahn_hilliard.

(** For every initial field there is a step size such that with this and all
    smaller steps the energy never rises, in any number of steps. *)
Theorem C103_small_steps : forall dom kap model, valid_domain dom -> square_layout dom -> 0 < kap -> model = allen_cahn \/ model = cahn_hilliard ->
  let n := nodes dom in let ft := fftw_transform dom in let p := simulation n ft (flow_library n kap) (flow_state model) in
  forall step e, fits Lf n (flow_state model) e -> real_fields dom (e_fields e) ->
  exists dt0, 0 < dt0 /\ forall dt steps, 0 < dt <= dt0 ->
  exists e1 e2, euler_propagate p ft None dt steps step e = Some (e1, (step + steps)%nat)
  /\ euler_propagate p ft None dt (S steps) step e = Some (e2, (step + S steps)%nat)
  /\ double_well_energy n ft kap (nth 0 (e_fields e2) []) <= double_well_energy n ft kap (nth 0 (e_fields e1) []).
Proof.
  intros dom kap model Hv Hs Hk HM n ft p step e Hf Hr. set (E0 := double_well_energy n ft kap (nth 0 (e_fields e) [])).
  assert (HV1 := value_bound_pos n E0).
  assert (Np : 0 < INR n) by (apply lt_0_INR; unfold n, nodes; pose proof (IndexProofs.num_nodes_pos dom (proj2 Hv)); lia).
  assert (BP : forall Mx, 0 <= value_bound n E0 + 8 * INR n * (value_bound n E0 + Mx ^ 2 * value_bound n E0 ^ 3)).
  { intros Mx. assert (0 <= Mx ^ 2 * value_bound n E0 ^ 3) by (apply Rmult_le_pos; [apply pow2_ge_0|apply pow_le; lra]). assert (0 <= 8 * INR n * (value_bound n E0 + Mx ^ 2 * value_bound n E0 ^ 3)) by (apply Rmult_le_pos; lra). lra. }
  destruct HM as [-> | ->].
  - specialize (BP 1). set (B := value_bound n E0 + 8 * INR n * (value_bound n E0 + 1 ^ 2 * value_bound n E0 ^ 3)) in *.
    exists (Rmin (/ 2) (2 / (3 * B + 1))). split; [apply Rmin_pos; [lra|apply Rmult_lt_0_compat; [lra|apply Rinv_0_lt_compat; lra]]|].
    intros dt steps Hdt. assert (D1 : dt <= / 2) by (eapply Rle_trans; [apply Hdt|apply Rmin_l]). assert (D2 : dt <= 2 / (3 * B + 1)) by (eapply Rle_trans; [apply Hdt|apply Rmin_r]).
    destruct (wells_small allen_cahn allen_cahn_q 0 allen_cahn_declared allen_cahn_run eq_refl allen_cahn_flow allen_cahn_stiff allen_cahn_force allen_cahn_whole
      dom kap Hv Hs (Rlt_le _ _ Hk) E0 dt 1) with (steps := steps) (step := step) (e := e) as (e1 & e2 & P1 & P2 & _ & P3); [lra| |exact Hf|exact Hr|apply Rle_refl|exists e1, e2; repeat split; assumption].
    intros k _. assert (HL := lap_nonpos (tfreq (fftw_transform dom) k)). set (x := - lap_symbol (tfreq (fftw_transform dom) k)) in *. cbn [pow].
    assert (Hkx : 0 <= kap * x) by (apply Rmult_le_pos; lra). split; [lra|]. split; [assert (0 <= dt * (kap * x)) by (apply Rmult_le_pos; lra); lra|].
    assert (HD : 3 * B + 1 <= 2 / dt).
    { apply (Rmult_le_reg_l dt); [lra|]. replace (dt * (2 / dt)) with 2 by (field; lra). apply (Rmult_le_compat_r (3 * B + 1)) in D2; [|lra].
      replace (2 / (3 * B + 1) * (3 * B + 1)) with 2 in D2 by (field; lra). exact D2. }
    change (value_bound (nodes dom) E0 + 8 * INR (nodes dom) * (value_bound (nodes dom) E0 + 1 * (1 * 1) * (value_bound (nodes dom) E0 * (value_bound (nodes dom) E0 * (value_bound (nodes dom) E0 * 1))))) with B. lra.
  - set (Mx := rsum n (fun k => - lap_symbol (tfreq ft k))). specialize (BP Mx).
    set (B := value_bound n E0 + 8 * INR n * (value_bound n E0 + Mx ^ 2 * value_bound n E0 ^ 3)) in *. set (c := 3 * B + 1).
    assert (Hc : 1 <= c) by (unfold c; lra).
    exists (Rmin 1 (Rmin (2 * kap) (8 * kap / (c * c)))).
    assert (Hcc : 0 < c * c) by (apply Rmult_lt_0_compat; lra).
    split; [apply Rmin_pos; [lra|apply Rmin_pos; [lra|apply Rmult_lt_0_compat; [lra|apply Rinv_0_lt_compat; exact Hcc]]]|].
    intros dt steps Hdt. assert (D1 : dt <= 1) by (eapply Rle_trans; [apply Hdt|apply Rmin_l]).
    assert (D2 : dt <= 2 * kap) by (eapply Rle_trans; [apply Hdt|]; eapply Rle_trans; [apply Rmin_r|apply Rmin_l]).
    assert (D3 : dt <= 8 * kap / (c * c)) by (eapply Rle_trans; [apply Hdt|]; eapply Rle_trans; [apply Rmin_r|apply Rmin_r]).
    destruct (wells_small cahn_hilliard cahn_hilliard_q 1 cahn_hilliard_declared cahn_hilliard_run eq_refl cahn_hilliard_flow cahn_hilliard_stiff cahn_hilliard_force cahn_hilliard_whole
      dom kap Hv Hs (Rlt_le _ _ Hk) E0 dt Mx) with (steps := steps) (step := step) (e := e) as (e1 & e2 & P1 & P2 & _ & P3); [lra| |exact Hf|exact Hr|apply Rle_refl|exists e1, e2; repeat split; assumption].
    intros k Hkn. assert (HT := rsum_term n (fun k => - lap_symbol (tfreq ft k)) k (fun i _ => lap_nonpos _) Hkn). cbv beta in HT. fold Mx in HT.
    assert (HL := lap_nonpos (tfreq ft k)). fold ft. rewrite pow_1. set (x := - lap_symbol (tfreq ft k)) in *. fold n. fold B. split; [exact HT|].
    assert (Hsq : 0 <= (2 * kap * x - 1) * (2 * kap * x - 1)) by apply Rle_0_sqr. split.
    + assert (HQ : - / (4 * kap) <= x * (kap * x - 1)).
      { apply (Rmult_le_reg_l (4 * kap)); [lra|]. replace (4 * kap * - / (4 * kap)) with (-1) by (field; lra). nra. }
      assert (HD : - (dt * / (4 * kap)) <= dt * (x * (kap * x - 1))) by (replace (- (dt * / (4 * kap))) with (dt * - / (4 * kap)) by ring; apply Rmult_le_compat_l; lra).
      assert (dt * / (4 * kap) <= / 2) by (apply (Rmult_le_reg_r (4 * kap)); [lra|]; rewrite Rmult_assoc, Rinv_l by lra; lra). lra.
    + assert (Hsq2 : 0 <= (2 * kap * x - c) * (2 * kap * x - c)) by apply Rle_0_sqr.
      assert (HD : c * c <= 8 * kap / dt).
      { apply (Rmult_le_reg_l dt); [lra|]. replace (dt * (8 * kap / dt)) with (8 * kap) by (field; lra). apply (Rmult_le_compat_r (c * c)) in D3; [|lra].
        replace (8 * kap / (c * c) * (c * c)) with (8 * kap) in D3 by (field; lra). exact D3. }
      apply (Rmult_le_reg_l (4 * kap)); [lra|]. replace (4 * kap * (2 / dt + x * (kap * x - 1))) with (8 * kap / dt + 4 * kap * x * (kap * x - 1)) by (field; lra).
      replace (3 * B) with (c - 1) by (unfold c; ring). nra.
Qed.
Print Assumptions C103_small_steps.

(** With large steps the energy rises: on every domain, the uniform field 2
    becomes -4 in a step of 1/2. *)
Lemma uniform_amp dom y k : valid_domain dom -> (k < nodes dom)%nat ->
  nth k (fft (fftw_transform dom) (SymmetrySpec.uniform dom y)) C0 = match k with O => Cmul (RtoC (INR (nodes dom))) y | S _ => C0 end.
Proof. intros Hv Hk. rewrite SymmetryProofs6.fft_uniform by exact Hv. apply (SymmetryProofs6.mode_nth dom y k Hk). Qed.
Lemma uniform_energy dom kap a : valid_domain dom -> double_well_energy (nodes dom) (fftw_transform dom) kap (SymmetrySpec.uniform dom (RtoC a)) = INR (nodes dom) * (a ^ 4 / 4 - a ^ 2 / 2).
Proof.
  intros Hv. unfold double_well_energy.
  rewrite (rsum_ext (nodes dom) (fun j => Re (nth j (SymmetrySpec.uniform dom (RtoC a)) C0) ^ 4 / 4 - Re (nth j (SymmetrySpec.uniform dom (RtoC a)) C0) ^ 2 / 2) (fun _ => a ^ 4 / 4 - a ^ 2 / 2)).
  2:{ intros j Hj. rewrite SymmetryProofs6.uniform_nth by assumption. reflexivity. }
  rewrite (rsum_ext (nodes dom) (fun k => - lap_symbol (tfreq (fftw_transform dom) k) * Cnorm2 (nth k (fft (fftw_transform dom) (SymmetrySpec.uniform dom (RtoC a))) C0)) (fun _ => 0)).
  2:{ intros [|k] Hk; rewrite (uniform_amp dom _ _ Hv Hk); [rewrite SymmetryProofs6.freq_zero by exact Hv; ring|]. unfold Cnorm2, C0. cbn [Re Im fst snd]. ring. }
  rewrite rsum_0, rsum_const. unfold Rdiv. ring.
Qed.
Theorem C103_large_step_refuted : forall dom kap, valid_domain dom -> square_layout dom -> 0 <= kap ->
  let n := nodes dom in let ft := fftw_transform dom in let p := simulation n ft (flow_library n kap) (flow_state allen_cahn) in
  exists e e', fits Lf n (flow_state allen_cahn) e /\ real_fields dom (e_fields e) /\ euler_propagate p ft None (1 / 2) 1 0 e = Some (e', 1%nat)
  /\ double_well_energy n ft kap (nth 0 (e_fields e) []) < double_well_energy n ft kap (nth 0 (e_fields e') []).
Proof.
  intros dom kap Hv Hs Hk n ft p.
  assert (Hn : (0 < n)%nat) by (unfold n, nodes; pose proof (IndexProofs.num_nodes_pos dom (proj2 Hv)); lia).
  assert (G := fftw_good dom Hv). fold n ft in G.
  set (e := {| e_fields := [SymmetrySpec.uniform dom (RtoC 2)]; e_derived := repeat [] (length (pm_derived (ms_names (flow_state allen_cahn)))) |}).
  assert (Lu : forall y, length (SymmetrySpec.uniform dom y) = n) by (intros; apply repeat_length).
  assert (Hf : fits Lf n (flow_state allen_cahn) e) by (split; [reflexivity|split; [repeat constructor; apply Lu|apply repeat_length]]).
  assert (Ru : real_field (SymmetrySpec.uniform dom (RtoC 2))).
  { unfold real_field. rewrite Forall_forall. intros z Hz. apply repeat_spec in Hz. subst z. reflexivity. }
  assert (Hr : real_fields dom (e_fields e)) by (constructor; [split; [apply Lu|exact Ru]|constructor]).
  destruct (euler_facts Lf (flow_calls allen_cahn) [allen_cahn_q] (flow_state allen_cahn) allen_cahn_declared allen_cahn_run n ft (flow_library n kap) (flow_library_good n kap) G eq_refl None (1 / 2) (time_of (1 / 2) 0) e Hf)
    as (e1 & Y & E1 & _ & _ & Hf1 & _). fold p in E1.
  exists e, e1. split; [exact Hf|]. split; [exact Hr|]. split; [cbn [euler_propagate]; rewrite E1; reflexivity|].
  assert (HU : nth 0 (e_fields e1) [] = SymmetrySpec.uniform dom (RtoC (-4))).
  { destruct Hf1 as (F1 & F2 & _). destruct (e_fields e1) as [|d [|d2 r]] eqn:Ed; try discriminate F1. cbn [nth]. inversion F2 as [|? ? Ld _]; subst.
    assert (Lf1 : length (fft ft d) = n) by (apply (gt_fft_len n ft G), Ld).
    rewrite <- (gt_left n ft G d Ld), <- (gt_left n ft G _ (Lu (RtoC (-4)))). f_equal.
    apply (list_eq_nth _ _ n Lf1 (gt_fft_len n ft G _ (Lu _))). intros k Hkn.
    assert (HY := wells_step allen_cahn allen_cahn_q 0 allen_cahn_declared allen_cahn_run eq_refl allen_cahn_flow allen_cahn_stiff allen_cahn_force dom kap Hv
      (1 / 2) _ e e1 Hf ltac:(constructor; [exact Ru|constructor]) E1 k Hkn). rewrite Ed in HY. cbn [nth e_fields e] in HY. fold n in HY. fold ft in HY. rewrite HY.
    assert (UA := fun y => uniform_amp dom y k Hv Hkn). fold n ft in UA.
    assert (EA : amplitude_at n ft k (fun j => RtoC (Re (nth j (SymmetrySpec.uniform dom (RtoC 2)) C0) ^ 3)) = nth k (fft ft (SymmetrySpec.uniform dom (RtoC 8))) C0).
    { unfold amplitude_at. f_equal. f_equal. apply (list_eq_nth _ _ n); [rewrite map_length; apply seq_length|apply Lu|]. intros j Hj.
      rewrite (nth_map_seq (fun j => RtoC (Re (nth j (SymmetrySpec.uniform dom (RtoC 2)) C0) ^ 3)) n j C0 Hj), !SymmetryProofs6.uniform_nth by assumption. cbn [RtoC Re fst]. f_equal. ring. }
    rewrite EA, !UA. destruct k as [|k].
    - unfold ft. rewrite SymmetryProofs6.freq_zero by exact Hv. fold ft. cbn [pow].
      unfold Cdiv. replace (Csub C1 (Cmul (RtoC (1 / 2)) (RtoC (- (1) * (kap * - 0 - 1))))) with (RtoC (/ 2)) by csolve.
      rewrite <- RtoC_inv by lra. csolve.
    - unfold Cdiv. ring. }
  rewrite HU. cbn [e nth e_fields]. unfold n, ft. rewrite !uniform_energy by exact Hv. apply Rmult_lt_compat_l; [apply lt_0_INR, Hn|lra].
Qed.
Print Assumptions C103_large_step_refuted.

(** On a 4 x 4 domain a field with values 1 and -1 in alternating columns meets
    all hypotheses; so do steps of 1/10 and 1/100 for values
    up to 2. *)
Definition columns : data := map (fun j => if Nat.even j then C1 else Copp C1) (seq 0 16).
Example C103_nonvacuous : valid_domain [4; 4]%Z /\ square_layout [4; 4]%Z
  /\ declared Lf (flow_calls allen_cahn) [allen_cahn_q] /\ declared Lf (flow_calls cahn_hilliard) [cahn_hilliard_q]
  /\ run_calls new_mstate (flow_calls allen_cahn ++ [CInit]) = Ok (flow_state allen_cahn)
  /\ run_calls new_mstate (flow_calls cahn_hilliard ++ [CInit]) = Ok (flow_state cahn_hilliard)
  /\ (forall kap, good_library Lf 16 (flow_library 16 kap))
  /\ fits Lf 16 (flow_state allen_cahn) {| e_fields := [columns]; e_derived := repeat [] (length (pm_derived (ms_names (flow_state allen_cahn)))) |}
  /\ real_fields [4; 4]%Z [columns]
  /\ (1 / 10 * (3 * 2 ^ 2 + 1) <= 2) /\ (1 / 100 * (3 * 2 ^ 2 + 1) ^ 2 <= 8 * 1).
Proof.
  split; [split; [left; reflexivity|repeat constructor]|]. split; [exact I|].
  split; [exact allen_cahn_declared|]. split; [exact cahn_hilliard_declared|]. split; [exact allen_cahn_run|]. split; [exact cahn_hilliard_run|].
  split; [intros kap; apply flow_library_good|]. split; [split; [reflexivity|split; [repeat constructor|apply repeat_length]]|].
  split; [constructor; [split; [reflexivity|]|constructor]|split; lra].
  unfold real_field, columns. rewrite Forall_forall. intros z Hz. apply in_map_iff in Hz as (j & <- & _). destruct (Nat.even j); cbn; ring.
Qed.
