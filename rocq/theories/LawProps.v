(** Property C96: amounts that are conserved. *)
From Verif Require Import ListAux FileModel ParseProofs StepProofs ConserveProofs EquationProps RegistryProps SimProps SplitProps LinearProps.
From Verif Require Import MatchProofs2 SimProofs SimProofs2 SimProofs3 SimProofs4 SimProofs5 SimProofs6 LawSpec LawProofs.
From Coq Require Import Lia Lra.
Open Scope nat_scope.

(** ** C96 *)

(** If the equations of some fields contain no product without Laplacian that
    consists of one field, and the rates of the products without Laplacian
    cancel in a weighted sum, the weighted total of these fields changes in
    Euler steps by what the sources supply. *)
Theorem C96_euler_partial : forall L cs es m, declared L cs es -> run_calls new_mstate (cs ++ [CInit]) = Ok m ->
  forall n ft lib, good_library L n lib -> good_transform n ft -> map q_field es = l_fields L -> 0 < n ->
  forall ws dt, (forall i w, In (i, w) ws -> exists q, nth_error es i = Some q /\ no_lone_field L q) -> rates_cancel L lib n es ws ->
  forall steps step e, fits L n m e ->
  exists e', euler_propagate (simulation n ft lib m) ft None dt steps step e = Some (e', step + steps)
    /\ amount ws (e_fields e') = Cadd (amount ws (e_fields e)) (supplied cs lib dt ws steps step).
Proof. intros L cs es m HD Em n ft lib GL GT HO Hn. exact (euler_amounts L cs es m HD Em n ft lib GL GT HO Hn). Qed.
Print Assumptions C96_euler_partial.

(** In RK4 steps only products with the field of the left-hand side itself are
    excluded. *)
Theorem C96_rk4_partial : forall L cs es m, declared L cs es -> run_calls new_mstate (cs ++ [CInit]) = Ok m ->
  forall n ft lib, good_library L n lib -> good_transform n ft -> map q_field es = l_fields L -> 0 < n -> field_independent cs lib ->
  forall ws dt, (forall i w, In (i, w) ws -> exists q, nth_error es i = Some q /\ not_implicit L q) -> rates_cancel L lib n es ws ->
  forall steps step e, fits L n m e ->
  exists e', rk4_propagate (simulation n ft lib m) ft None dt steps step e = Some (e', step + steps)
    /\ amount ws (e_fields e') = Cadd (amount ws (e_fields e)) (supplied cs lib dt ws steps step).
Proof. intros L cs es m HD Em n ft lib GL GT HO Hn HI. exact (rk4_amounts L cs es m HD Em n ft lib GL GT HO Hn HI). Qed.
Print Assumptions C96_rk4_partial.

(** In particular the total of a field is kept if every term of its equation
    carries a Laplacian and it has no source. *)
Definition all_laplacian (q : eqtext) : Prop :=
  Forall (fun x => match fst x with IProduct t => 0 < total_power t | IUser os _ => 0 < lap_power os end) (signed_items q).

Theorem C96_laplacian_keeps_total : forall L cs es m, declared L cs es -> run_calls new_mstate (cs ++ [CInit]) = Ok m ->
  forall n ft lib, good_library L n lib -> good_transform n ft -> map q_field es = l_fields L -> 0 < n ->
  forall propagate, propagate = euler_propagate \/ (propagate = rk4_propagate /\ field_independent cs lib) ->
  forall i q dt, nth_error es i = Some q -> all_laplacian q -> sources_of i cs = [] ->
  forall steps step e, fits L n m e ->
  exists e' d d', propagate (simulation n ft lib m) ft None dt steps step e = Some (e', step + steps)
    /\ nth_error (e_fields e) i = Some d /\ nth_error (e_fields e') i = Some d' /\ Csum d' = Csum d.
Proof.
  intros L cs es m HD Em n ft lib GL GT HO Hn propagate HP i q dt Hq HA HS steps step e Hf.
  assert (H1 : no_lone_field L q).
  { unfold no_lone_field, all_laplacian in *. rewrite Forall_forall in *. intros x Hx. specialize (HA x Hx). destruct (fst x); [left|]; exact HA. }
  assert (Hr : rates_cancel L lib n es [(i, C1)]).
  { intros val. unfold weighted. cbn [map Csum fst snd]. rewrite Hq. unfold rate. rewrite sum_signed_zero; [ring|]. intros x Hx.
    unfold all_laplacian in HA. rewrite Forall_forall in HA. specialize (HA x Hx). destruct (fst x) as [t|]; [|reflexivity]. cbn [rate_item].
    destruct (total_power t =? 0) eqn:E; [apply Nat.eqb_eq in E; lia|reflexivity]. }
  assert (Hin : forall (P : eqtext -> Prop), P q -> forall i' w, In (i', w) [(i, C1)] -> exists q', nth_error es i' = Some q' /\ P q').
  { intros P HP' i' w [E|[]]. injection E as <- _. exists q. auto. }
  assert (Hfl : In (q_field q) (l_fields L)) by (rewrite <- HO; apply in_map, (nth_error_In _ _ Hq)).
  assert (HE : exists e', propagate (simulation n ft lib m) ft None dt steps step e = Some (e', step + steps)
    /\ amount [(i, C1)] (e_fields e') = Cadd (amount [(i, C1)] (e_fields e)) (supplied cs lib dt [(i, C1)] steps step)
    /\ length (e_fields e') = length (l_fields L)).
  { destruct HP as [->|[-> HI]].
    - destruct (C96_euler_partial L cs es m HD Em n ft lib GL GT HO Hn [(i, C1)] dt (Hin _ H1) Hr steps step e Hf) as (e' & E & HE).
      exists e'. split; [exact E|]. split; [exact HE|]. revert E. clear -HD Em GL GT HO Hf. revert step e Hf. induction steps as [|steps IH]; intros step e Hf E; cbn [euler_propagate] in E.
      + injection E as <- _. apply Hf.
      + destruct (MatchProofs2.euler_facts L cs es m HD Em n ft lib GL GT HO None dt (time_of dt step) e Hf) as (e1 & Y & E1 & _ & _ & Hf1 & _).
        rewrite E1 in E. apply (IH (S step) e1 Hf1). rewrite E. f_equal. f_equal. lia.
    - destruct (C96_rk4_partial L cs es m HD Em n ft lib GL GT HO Hn HI [(i, C1)] dt (Hin _ (lone_linear L q H1 Hfl)) Hr steps step e Hf) as (e' & E & HE).
      exists e'. split; [exact E|]. split; [exact HE|]. revert E. clear -HD Em GL GT HO Hf HI Hn. revert step e Hf. induction steps as [|steps IH]; intros step e Hf E; cbn [rk4_propagate] in E.
      + injection E as <- _. apply Hf.
      + destruct (rk4_amount L cs es m HD Em n ft lib GL GT HO Hn HI [] dt (time_of dt step) e) as (e1 & E1 & Hf1 & _); [intros ? ? []|intros val; reflexivity|exact Hf|].
        rewrite E1 in E. apply (IH (S step) e1 Hf1). rewrite E. f_equal. f_equal. lia. }
  destruct HE as (e' & E & HA' & Le').
  assert (Li : i < length (l_fields L)) by (rewrite <- HO, map_length; apply nth_error_Some; congruence).
  destruct (nth_error (e_fields e) i) as [d|] eqn:Ed; [|apply nth_error_None in Ed; destruct Hf as (Hf & _); lia].
  destruct (nth_error (e_fields e') i) as [d'|] eqn:Ed'; [|apply nth_error_None in Ed'; lia].
  exists e', d, d'. split; [exact E|]. split; [reflexivity|]. split; [exact Ed'|].
  assert (H0 : supplied cs lib dt [(i, C1)] steps step = C0).
  { clear -HS. revert step. induction steps as [|k IH]; intros step; cbn [supplied]; [reflexivity|]. rewrite IH. unfold weighted. cbn [map Csum fst snd].
    unfold source_sum. rewrite HS. cbn [map Csum]. ring. }
  rewrite H0 in HA'. unfold amount, weighted in HA'. cbn [map Csum fst snd] in HA'. rewrite (nth_error_nth _ _ _ Ed), (nth_error_nth _ _ _ Ed') in HA'.
  transitivity (Cadd (Cmul C1 (Csum d')) C0); [ring|]. rewrite HA'. ring.
Qed.
Print Assumptions C96_laplacian_keeps_total.

(** *** Example: conc diffuses, turns into eta and is supplied at both nodes *)
Definition turn_calls : list call :=
  [CField (lit "conc"); CField (lit "eta"); CEquation (lit "dconc/dt = LAP conc - conc*eta"); CEquation (lit "deta/dt = conc*eta"); CSource 0 3].
Definition turn_eqs : list eqtext :=
  [{| q_field := lit "conc"; q_lead := None; q_first := IProduct [lapw "conc" None]; q_more := [(minus_c, IProduct [plainw "conc" None; plainw "eta" None])] |};
   {| q_field := lit "eta"; q_lead := None; q_first := IProduct [plainw "conc" None; plainw "eta" None]; q_more := [] |}].
Definition supply : library :=
  {| lb_pow := keep; lb_scalar := fun _ => C1; lb_calc := fun _ => None;
     lb_pure := fun _ _ _ => []; lb_linear := fun _ _ _ => []; lb_nonlinear := fun _ _ _ => []; lb_source := fun _ _ => [RtoC 2; C0] |}.
Lemma turn_declared : declared Lo turn_calls turn_eqs.
Proof.
  constructor.
  - good_language.
  - split; [reflexivity|]. intros n. cbn. tauto.
  - exists (firstn 2 turn_calls), (skipn 2 turn_calls). split; [reflexivity|]. split; [|split].
    + intros c H. cbn in H. repeat (destruct H as [<-|H]; [exact (fun x => x)|]). destruct H.
    + intros c H. cbn in H. repeat (destruct H as [<-|H]; [exact (fun x => x)|]). destruct H.
    + discriminate.
  - intros b a eq s E. unfold turn_calls in E.
    do 4 (destruct b as [|? b]; [discriminate E|injection E as <- E]). destruct b as [|? b]; [|destruct b; discriminate E].
    injection E as <- <- _. cbn. lia.
  - cbn. intuition discriminate.
  - intros k name t ds H. cbn in H. intuition discriminate.
  - constructor; [reflexivity|]. constructor; [reflexivity|constructor].
  - constructor; [|constructor; [|constructor]]; (split; [cbn; auto|]); (split; [discriminate|]).
    + split; [split; [exists [], [lapw "conc" None], []; good_prod|vm_compute; intuition discriminate]|].
      constructor; [|constructor]. split; [right; reflexivity|]. split; [exists [], [plainw "conc" None; plainw "eta" None], []; good_prod|vm_compute; intuition discriminate].
    + split; [split; [exists [], [plainw "conc" None; plainw "eta" None], []; good_prod|vm_compute; intuition discriminate]|constructor].
Qed.
Definition turn_state : mstate := match run_calls new_mstate (turn_calls ++ [CInit]) with Ok m => m | _ => new_mstate end.
Lemma turn_run : run_calls new_mstate (turn_calls ++ [CInit]) = Ok turn_state.
Proof. vm_compute. reflexivity. Qed.
Lemma supply_good : good_library Lo 2 supply.
Proof. constructor; [|discriminate|reflexivity]. intros name. cbn. split; [intros []|intros (c & E); discriminate E]. Qed.

Definition both_fields : list (nat * C) := [(0, C1); (1, C1)].
Lemma turn_cancel : rates_cancel Lo supply 2 turn_eqs both_fields.
Proof.
  intros val. unfold weighted, both_fields. cbn [map Csum fst snd nth_error turn_eqs]. unfold rate, sum_signed, signed_items.
  cbn [q_first q_lead q_more map fst snd Csum sign_value]. cbn [rate_item].
  change (total_power [lapw "conc" None] =? 0) with false. change (total_power [plainw "conc" None; plainw "eta" None] =? 0) with true. cbv iota.
  change (Ascii.eqb minus_c minus_c) with true. cbv iota. rewrite (minus_one). change (RtoC 1) with C1. ring.
Qed.

(** The sum of both fields grows by 2 dt in every step of Euler. *)
Example C96_nonvacuous : forall dt steps a b c d, exists e',
  euler_propagate (simulation 2 ft2 supply turn_state) ft2 None dt steps 0 {| e_fields := [[a; b]; [c; d]]; e_derived := [[C0; C0]] |} = Some (e', steps)
  /\ amount both_fields (e_fields e') = Cadd (Cadd (Cadd a b) (Cadd c d)) (RtoC (2 * INR steps * dt)).
Proof.
  intros dt steps a b c d.
  destruct (C96_euler_partial Lo turn_calls turn_eqs turn_state turn_declared turn_run 2 ft2 supply supply_good ft2_good eq_refl ltac:(lia) both_fields dt) with
    (steps := steps) (step := 0) (e := {| e_fields := [[a; b]; [c; d]]; e_derived := [[C0; C0]] |}) as (e' & E & H).
  - intros i w [Hi|[Hi|[]]]; injection Hi as <- _; eexists; (split; [reflexivity|]).
    + constructor; [left; cbn; lia|]. constructor; [right; reflexivity|constructor].
    + constructor; [right; reflexivity|constructor].
  - exact turn_cancel.
  - split; [reflexivity|]. split; [repeat constructor|vm_compute; reflexivity].
  - exists e'. split; [exact E|]. rewrite H. f_equal.
    + unfold amount, weighted, both_fields. cbn [map Csum fst snd nth e_fields]. ring.
    + assert (HS : forall k step, supplied turn_calls supply dt both_fields k step = RtoC (2 * INR k * dt)).
      { induction k as [|k IH]; intros step; cbn [supplied].
        - cbn [INR]. replace (2 * 0 * dt)%R with 0%R by ring. reflexivity.
        - rewrite IH, S_INR. unfold weighted, both_fields. cbn [map Csum fst snd]. change (source_sum turn_calls supply (time_of dt step) 0 0) with (Cadd (RtoC 2) C0).
          change (source_sum turn_calls supply (time_of dt step) 1 0) with C0. csolve. }
      apply HS.
Qed.

(** *** eta turns into conc at a rate proportional to eta: the sum is not kept *)
Definition feed_q0 : eqtext := {| q_field := lit "conc"; q_lead := None; q_first := IProduct [plainw "eta" None]; q_more := [] |}.
Definition feed_q1 : eqtext := {| q_field := lit "eta"; q_lead := Some minus_c; q_first := IProduct [plainw "eta" None]; q_more := [] |}.
Definition feed_calls : list call := [CField (lit "conc"); CField (lit "eta"); CEquation (lit "dconc/dt = eta"); CEquation (lit "deta/dt = -eta")].
Definition feed_eqs : list eqtext := [feed_q0; feed_q1].
Lemma feed_declared : declared Lo feed_calls feed_eqs.
Proof.
  constructor.
  - good_language.
  - split; [reflexivity|]. intros n. cbn. tauto.
  - exists (firstn 2 feed_calls), (skipn 2 feed_calls). split; [reflexivity|]. split; [|split].
    + intros c H. cbn in H. repeat (destruct H as [<-|H]; [exact (fun x => x)|]). destruct H.
    + intros c H. cbn in H. repeat (destruct H as [<-|H]; [exact (fun x => x)|]). destruct H.
    + discriminate.
  - intros b a eq s E. unfold feed_calls in E.
    do 4 (destruct b as [|? b]; [discriminate E|injection E as <- E]). destruct b; discriminate E.
  - cbn. intuition discriminate.
  - intros k name t ds H. cbn in H. intuition discriminate.
  - constructor; [reflexivity|]. constructor; [reflexivity|constructor].
  - constructor; [|constructor; [|constructor]]; (split; [cbn; auto|]); (split; [intros c E; try discriminate E; injection E as <-; right; reflexivity|]).
    + split; [split; [exists [], [plainw "eta" None], []; good_prod|vm_compute; intuition discriminate]|constructor].
    + split; [split; [exists [], [plainw "eta" None], []; good_prod|vm_compute; intuition discriminate]|constructor].
Qed.
Definition feed_state : mstate := match run_calls new_mstate (feed_calls ++ [CInit]) with Ok m => m | _ => new_mstate end.
Lemma feed_run : run_calls new_mstate (feed_calls ++ [CInit]) = Ok feed_state.
Proof. vm_compute. reflexivity. Qed.
Definition feed_env : env := {| e_fields := [[C0; C0]; [C1; C0]]; e_derived := [] |}.
Lemma feed_fits : fits Lo 2 feed_state feed_env.
Proof. split; [reflexivity|]. split; [repeat constructor|vm_compute; reflexivity]. Qed.
Lemma feed_cancel : rates_cancel Lo (no_library 2 keep) 2 feed_eqs both_fields.
Proof.
  intros val. unfold weighted, both_fields. cbn [map Csum fst snd nth_error feed_eqs]. unfold rate, sum_signed, signed_items, feed_q0, feed_q1.
  cbn [q_first q_lead q_more map fst snd Csum sign_value]. cbn [rate_item].
  change (Ascii.eqb minus_c minus_c) with true. cbv iota. rewrite minus_one. change (RtoC 1) with C1. ring.
Qed.

Ltac feed_parts :=
  unfold sum_signed, signed_items, feed_q0, feed_q1; cbn [map fst snd q_first q_lead q_more q_field]; unfold explicit_item, implicit_item;
  change (linear_in Lo (lit "conc") [plainw "eta" None]) with false; change (linear_in Lo (lit "eta") [plainw "eta" None]) with true;
  cbv iota; unfold shown_amplitude, coefficient;
  change (field_factors Lo [plainw "eta" None]) with [fac "eta" None]; change (scalar_factors Lo [plainw "eta" None]) with (@nil factor);
  cbn [fac fa_exp option_map fa_name Csum product_value total_power plainw wf_op oper_power Nat.add pow sign_value];
  change (Ascii.eqb minus_c minus_c) with true; cbv iota; change (RtoC 1) with C1.
Lemma feed_conc F d0 d1 E t X A :
  split_written Lo feed_calls 2 ft2 (no_library 2 keep) F [d0; d1] E t feed_q0 0 X A -> X = nth 0 d1 C0 /\ A = C0.
Proof.
  intros (val & lone & im & ex & li & nl & _ & Hlone & _ & _ & _ & _ & -> & ->).
  assert (E1 := Hlone 1 (lit "eta") _ eq_refl eq_refl). feed_parts. rewrite E1. split; ring.
Qed.
Lemma feed_eta F d0 d1 E t X A :
  split_written Lo feed_calls 2 ft2 (no_library 2 keep) F [d0; d1] E t feed_q1 0 X A -> X = C0 /\ A = RtoC (-1).
Proof. intros (val & lone & im & ex & li & nl & _ & Hlone & _ & _ & _ & _ & -> & ->). feed_parts. rewrite minus_one. split; ring. Qed.

Lemma feed_total : amount both_fields (e_fields feed_env) = C1.
Proof. unfold amount, weighted, both_fields, feed_env. cbn [map Csum fst snd nth e_fields]. ring. Qed.

(** One Euler step of size 1 turns the total 1 into 3/2. *)
Lemma feed_euler : exists e', euler_step (simulation 2 ft2 (no_library 2 keep) feed_state) ft2 None 1 0 feed_env = Some e'
  /\ amount both_fields (e_fields e') = RtoC (3 / 2).
Proof.
  destruct (C92_euler_step Lo feed_calls feed_eqs feed_state feed_declared feed_run 2 ft2 (no_library 2 keep) (no_library_good Lo 2 keep eq_refl)
    ft2_good eq_refl 1 0 feed_env feed_fits) as (e' & Es & Hl & Ha & HS).
  exists e'. split; [exact Es|].
  assert (HX := C92_parts_exist Lo feed_calls feed_eqs feed_state feed_declared feed_run 2 ft2 (no_library 2 keep)).
  destruct (e_fields e') as [|d0 [|d1 [|d2 r]]] eqn:Ee; try discriminate Hl.
  assert (L0 : length d0 = 2) by exact (all_length_nth 2 _ 0 d0 Ha eq_refl). assert (L1 : length d1 = 2) by exact (all_length_nth 2 _ 1 d1 Ha eq_refl).
  assert (H0 : Csum d0 = C1).
  { rewrite <- (gt_zero 2 ft2 ft2_good d0 L0). specialize (HS 0 _ eq_refl). cbv zeta in HS. cbn [map firstn skipn app feed_env e_fields] in HS.
    match type of HS with forall k X A, _ -> split_written _ _ _ _ _ ?F ?S ?E ?T ?Q _ _ _ -> _ => destruct (HX E T Q 0 F S) as (X & A & HXA) end.
    specialize (HS 0 X A ltac:(lia) HXA). destruct (feed_conc _ _ _ _ _ _ _ HXA) as [-> ->].
    cbn [nth] in HS. rewrite HS, Cdiv_one. cbn [ft2 fft nth]. change (source_sum _ _ _ _ _) with C0. change (RtoC 1) with C1. ring. }
  assert (H1 : Csum d1 = RtoC (1 / 2)).
  { rewrite <- (gt_zero 2 ft2 ft2_good d1 L1). specialize (HS 1 _ eq_refl). cbv zeta in HS. cbn [map firstn skipn app feed_env e_fields] in HS.
    match type of HS with forall k X A, _ -> split_written _ _ _ _ _ ?F ?S ?E ?T ?Q _ _ _ -> _ => destruct (HX E T Q 0 F S) as (X & A & HXA) end.
    specialize (HS 0 X A ltac:(lia) HXA). destruct (feed_eta _ _ _ _ _ _ _ HXA) as [-> ->].
    cbn [nth] in HS. rewrite HS. change (source_sum _ _ _ _ _) with C0.
    transitivity (Cdiv (RtoC 1) (RtoC 2)); [f_equal; [cbn [ft2 fft nth]; csolve|csolve]|]. rewrite RtoC_ratio by lra. reflexivity. }
  unfold amount, weighted, both_fields. cbn [map Csum fst snd nth]. rewrite H0, H1. csolve.
Qed.

Theorem C96_linear_exchange_refuted : exists L cs es m lib n ft ws dt e e',
  declared L cs es /\ run_calls new_mstate (cs ++ [CInit]) = Ok m /\ good_library L n lib /\ good_transform n ft /\ map q_field es = l_fields L
  /\ rates_cancel L lib n es ws /\ fits L n m e /\ (forall i w, In (i, w) ws -> sources_of i cs = [])
  /\ euler_step (simulation n ft lib m) ft None dt 0 e = Some e' /\ amount ws (e_fields e') <> amount ws (e_fields e).
Proof.
  destruct feed_euler as (e' & Es & HA).
  exists Lo, feed_calls, feed_eqs, feed_state, (no_library 2 keep), 2, ft2, both_fields, 1%R, feed_env, e'.
  split; [exact feed_declared|]. split; [exact feed_run|]. split; [exact (no_library_good Lo 2 keep eq_refl)|]. split; [exact ft2_good|]. split; [reflexivity|].
  split; [exact feed_cancel|]. split; [exact feed_fits|]. split; [reflexivity|]. split; [exact Es|].
  rewrite HA, feed_total. intros H. apply (f_equal Re) in H. cbn in H. lra.
Qed.
Print Assumptions C96_linear_exchange_refuted.

Lemma feed_independent : field_independent feed_calls (no_library 2 keep).
Proof. split; reflexivity. Qed.
Lemma feed_denum i q a : nth_error feed_eqs i = Some q -> get_denum (simulation 2 ft2 (no_library 2 keep) feed_state) feed_env i 0%R 2 = Some a ->
  nth 0 a C0 = if i =? 0 then C0 else RtoC (-1).
Proof.
  intros Hq Ha. set (p := simulation 2 ft2 (no_library 2 keep) feed_state) in *.
  destruct (C92_parts Lo feed_calls feed_eqs feed_state feed_declared feed_run 2 ft2 (no_library 2 keep) (no_library_good Lo 2 keep eq_refl)
    (spectrum p ft2 feed_env) feed_env 0%R i q feed_fits eq_refl eq_refl Hq) as (r & a' & _ & Ea & _ & _ & HP). fold p in Ea.
  assert (HS := sim_denum Lo feed_calls feed_eqs feed_state feed_declared feed_run 2 ft2 (no_library 2 keep) feed_independent feed_env (spectrum p ft2 feed_env) i 0%R 2).
  fold p in HS. rewrite <- HS, Ha in Ea. injection Ea as <-.
  destruct (C92_parts_exist Lo feed_calls feed_eqs feed_state feed_declared feed_run 2 ft2 (no_library 2 keep) (spectrum p ft2 feed_env) 0%R q 0 (e_fields feed_env)
    (e_fields (spectrum p ft2 feed_env))) as (X & A & HXA).
  destruct (HP 0 X A ltac:(lia) HXA) as [_ ->]. destruct i as [|[|i]]; [| |destruct i; discriminate Hq]; injection Hq as <-.
  - exact (proj2 (feed_conc _ _ _ _ _ _ _ HXA)).
  - exact (proj2 (feed_eta _ _ _ _ _ _ _ HXA)).
Qed.
Lemma feed_written fields E t i q M y0 y1 : nth_error feed_eqs i = Some q -> fields = [y0; y1] -> length y1 = 2 ->
  written Lo feed_calls 2 ft2 (no_library 2 keep) fields E t q 0 M -> M = Cmul (if i =? 0 then C1 else RtoC (-1)) (nth 0 (fft ft2 y1) C0).
Proof.
  intros Hq -> Hl (val & im & ex & li & nl & (HV & _) & _ & _ & _ & ->). assert (V1 := HV 1 (lit "eta") y1 eq_refl eq_refl).
  assert (HA : amplitude_at 2 ft2 0 (val (lit "eta")) = nth 0 (fft ft2 y1) C0).
  { unfold amplitude_at. cbn [map seq]. rewrite !V1. destruct y1 as [|u [|v [|x y1]]]; try discriminate Hl. reflexivity. }
  destruct i as [|[|i]]; [| |destruct i; discriminate Hq]; injection Hq as <-;
    unfold rhs_meaning, signed_items, feed_q0, feed_q1; cbn [q_first q_lead q_more map fst snd Csum item_meaning]; unfold product_meaning;
    change (field_factors Lo [plainw "eta" None]) with [fac "eta" None]; change (scalar_factors Lo [plainw "eta" None]) with (@nil factor);
    unfold amplitude; cbn [fac fa_exp option_map fa_name product_value total_power plainw wf_op oper_power Nat.add pow sign_value Nat.eqb];
    rewrite HA; change (RtoC 1) with C1; [ring|].
  change (Ascii.eqb minus_c minus_c) with true. cbv iota. ring.
Qed.

(** One RK4 step of size 1 turns the total 1 into 43/36. *)
Lemma feed_rk4 : exists e', rk4_step (simulation 2 ft2 (no_library 2 keep) feed_state) ft2 None 1 0 feed_env = Some e'
  /\ amount both_fields (e_fields e') = RtoC (43 / 36).
Proof.
  destruct (C87_rk4_step Lo feed_calls feed_eqs feed_state feed_declared feed_run 2 ft2 (no_library 2 keep) (no_library_good Lo 2 keep eq_refl)
    ft2_good eq_refl feed_independent 1 0 feed_env feed_fits) as (S1 & S2 & S3 & S4 & K1 & K2 & K3 & K4 & e' & Es & Hl & ES & HF & HS).
  exists e'. split; [exact Es|].
  assert (HP : forall S, length S = 2 /\ all_length 2 S -> exists y0 y1, S = [y0; y1] /\ length y1 = 2 /\ length (to_real ft2 y1) = 2).
  { intros S [H1 H2]. destruct S as [|y0 [|y1 [|y2 r]]]; try discriminate H1. exists y0, y1. split; [reflexivity|].
    assert (L1 : length y1 = 2) by exact (all_length_nth 2 _ 1 y1 H2 eq_refl). split; [exact L1|]. unfold to_real. rewrite div_real_length. apply (gt_ifft_len 2 ft2 ft2_good), L1. }
  assert (HM : forall S i q E t M, length S = 2 /\ all_length 2 S -> nth_error feed_eqs i = Some q ->
    written Lo feed_calls 2 ft2 (no_library 2 keep) (map (to_real ft2) S) E t q 0 M -> M = Cmul (if i =? 0 then C1 else RtoC (-1)) (nth 0 (nth 1 S []) C0)).
  { intros S i q E t M Hs Hq HW. destruct (HP S Hs) as (y0 & y1 & -> & L1 & L2). cbn [map] in HW. rewrite (feed_written _ _ _ i q M _ _ Hq eq_refl L2 HW).
    rewrite (gt_inverse 2 ft2 ft2_good y1 L1). reflexivity. }
  assert (HW : forall S i q r a, length S = 2 /\ all_length 2 S -> nth_error feed_eqs i = Some q ->
    as_written Lo feed_calls 2 ft2 (no_library 2 keep) (simulation 2 ft2 (no_library 2 keep) feed_state) (e_derived feed_env) 0 q i 0 S r a ->
    Cadd r (Cmul a (nth 0 (nth i S []) C0)) = Cmul (if i =? 0 then C1 else RtoC (-1)) (nth 0 (nth 1 S []) C0)).
  { intros S i q r a Hs Hq H.
    destruct (written_exists Lo feed_calls feed_eqs feed_state feed_declared feed_run 2 ft2 (no_library 2 keep)
      (at_amplitudes (simulation 2 ft2 (no_library 2 keep) feed_state) ft2 (e_derived feed_env) S) 0 q 0 (map (to_real ft2) S)) as (M & HW).
    rewrite (H M HW), (HM S i q _ _ M Hs Hq HW). replace (source_sum feed_calls (no_library 2 keep) 0 i 0) with C0; [ring|].
    destruct i as [|[|i]]; reflexivity. }
  inversion HF as [|? ? F1 HF1]; subst. inversion HF1 as [|? ? F2 HF2]; subst. inversion HF2 as [|? ? F3 HF3]; subst. inversion HF3 as [|? ? F4 _]; subst.
  destruct (HS 0 feed_q0 eq_refl) as (a0 & d0 & Ea0 & Ed0 & Ld0 & H0). destruct (HS 1 feed_q1 eq_refl) as (a1 & d1 & Ea1 & Ed1 & Ld1 & H1). clear HS.
  assert (A0 := feed_denum 0 feed_q0 a0 eq_refl Ea0). assert (A1 := feed_denum 1 feed_q1 a1 eq_refl Ea1). cbn [Nat.eqb] in A0, A1.
  destruct (H0 0 ltac:(lia)) as (U1 & _ & U2 & _ & U3 & _ & U4 & HF0). destruct (H1 0 ltac:(lia)) as (V1 & T2 & V2 & T3 & V3 & T4 & V4 & HFin). clear H0 H1.
  rewrite A0 in *. rewrite A1 in *.
  apply (HW _ 0 feed_q0 _ _ F1 eq_refl) in U1. apply (HW _ 0 feed_q0 _ _ F2 eq_refl) in U2. apply (HW _ 0 feed_q0 _ _ F3 eq_refl) in U3. apply (HW _ 0 feed_q0 _ _ F4 eq_refl) in U4.
  apply (HW _ 1 feed_q1 _ _ F1 eq_refl) in V1. apply (HW _ 1 feed_q1 _ _ F2 eq_refl) in V2. apply (HW _ 1 feed_q1 _ _ F3 eq_refl) in V3. apply (HW _ 1 feed_q1 _ _ F4 eq_refl) in V4.
  cbn [Nat.eqb] in *.
  assert (T : forall x y z, Cadd x (Cmul C0 y) = z -> x = z) by (intros x y z <-; ring). apply T in U1, U2, U3, U4.
  assert (T' : forall x y, Cadd x (Cmul (RtoC (-1)) y) = Cmul (RtoC (-1)) y -> x = C0).
  { intros x y H. transitivity (Csub (Cadd x (Cmul (RtoC (-1)) y)) (Cmul (RtoC (-1)) y)); [ring|]. rewrite H. ring. }
  apply T' in V1, V2, V3, V4. rewrite V1 in T2. rewrite V2 in T3. rewrite V3 in T4.
  assert (Y1 : nth 0 (nth 1 (map (fft ft2) (e_fields feed_env)) []) C0 = C1) by (cbn [map nth feed_env e_fields ft2 fft]; ring).
  assert (Y0 : nth 0 (nth 0 (map (fft ft2) (e_fields feed_env)) []) C0 = C0) by (cbn [map nth feed_env e_fields ft2 fft]; ring).
  rewrite Y1 in *. rewrite Y0 in *. unfold semi_implicit in *.
  assert (Z : forall h, (0 < h)%R -> Cdiv (Cadd C1 (Cmul (RtoC h) C0)) (Csub C1 (Cmul (RtoC h) (RtoC (-1)))) = RtoC (1 / (1 + h))).
  { intros h Hh. rewrite <- RtoC_ratio by lra. f_equal; csolve. }
  rewrite Z in T2, T3, T4 by lra. rewrite T2 in U2. rewrite T3 in U3. rewrite T4 in U4. rewrite U1, U2, U3, U4, Cdiv_one in HF0.
  rewrite V1, V2, V3, V4 in HFin. unfold combine4 in *.
  unfold amount, weighted, both_fields. cbn [map Csum fst snd]. rewrite (nth_error_nth _ _ _ Ed0), (nth_error_nth _ _ _ Ed1).
  rewrite <- (gt_zero 2 ft2 ft2_good d0 Ld0), <- (gt_zero 2 ft2 ft2_good d1 Ld1), HF0, HFin.
  replace (Cadd C1 (Cmul (RtoC (1 / 6)) (Cadd C0 (Cadd (Cmul (RtoC 2) C0) (Cadd (Cmul (RtoC 2) C0) C0))))) with (Cadd C1 (Cmul (RtoC 1) C0)) by ring.
  rewrite Z by lra. csolve.
Qed.

Theorem C96_linear_exchange_rk4_refuted : exists L cs es m lib n ft ws dt e e',
  declared L cs es /\ run_calls new_mstate (cs ++ [CInit]) = Ok m /\ good_library L n lib /\ good_transform n ft /\ map q_field es = l_fields L
  /\ field_independent cs lib /\ rates_cancel L lib n es ws /\ fits L n m e /\ (forall i w, In (i, w) ws -> sources_of i cs = [])
  /\ rk4_step (simulation n ft lib m) ft None dt 0 e = Some e' /\ amount ws (e_fields e') <> amount ws (e_fields e).
Proof.
  destruct feed_rk4 as (e' & Es & HA).
  exists Lo, feed_calls, feed_eqs, feed_state, (no_library 2 keep), 2, ft2, both_fields, 1%R, feed_env, e'.
  split; [exact feed_declared|]. split; [exact feed_run|]. split; [exact (no_library_good Lo 2 keep eq_refl)|]. split; [exact ft2_good|]. split; [reflexivity|].
  split; [exact feed_independent|]. split; [exact feed_cancel|]. split; [exact feed_fits|]. split; [reflexivity|]. split; [exact Es|].
  rewrite HA, feed_total. intros H. apply (f_equal Re) in H. cbn in H. lra.
Qed.
Print Assumptions C96_linear_exchange_rk4_refuted.
