(** Properties C93 - C95: simulations that are written differently but say the
    same, fields that do not depend on others, and the order of the fields. *)
From Verif Require Import ListAux FileModel ParseProofs StepProofs ConserveProofs EquationProps RegistryProps SimProps SplitProps LinearProps.
From Verif Require Import SplitSpec MatchSpec SimProofs SimProofs2 SimProofs3 SimProofs4 SimProofs5 SimProofs6 MatchProofs MatchProofs2 MatchProofs3.
From Coq Require Import Permutation Lia Lra.
Open Scope nat_scope.

(** ** C93 *)

(** If corresponding fields have the same equations and sources, come in the
    same order and start with the same values, they have the same values after
    any number of Euler steps. *)
Theorem C93_euler : forall rel L cs es m lib L' cs' es' m' lib', declared L cs es -> declared L' cs' es' ->
  run_calls new_mstate (cs ++ [CInit]) = Ok m -> run_calls new_mstate (cs' ++ [CInit]) = Ok m' ->
  forall n ft, good_library L n lib -> good_library L' n lib' -> good_transform n ft ->
  map q_field es = l_fields L -> map q_field es' = l_fields L' ->
  corresponds rel L cs es lib L' cs' es' lib' -> keeps_order rel ->
  forall filt dt steps step e e', fits L n m e -> fits L' n m' e' -> agree rel (e_fields e) (e_fields e') ->
  exists e1 e1', euler_propagate (simulation n ft lib m) ft filt dt steps step e = Some (e1, step + steps)
    /\ euler_propagate (simulation n ft lib' m') ft filt dt steps step e' = Some (e1', step + steps)
    /\ agree rel (e_fields e1) (e_fields e1').
Proof.
  intros rel L cs es m lib L' cs' es' m' lib' HD HD' Em Em' n ft GL GL' GT HO HO' HC HK filt dt.
  exact (euler_match_many rel L cs es m lib L' cs' es' m' lib' HD HD' Em Em' n ft GL GL' GT HO HO' HC filt dt HK).
Qed.
Print Assumptions C93_euler.

(** The same for RK4, whatever the order of the fields, when the coefficients of
    implicit terms do not depend on the fields. *)
Theorem C93_rk4 : forall rel L cs es m lib L' cs' es' m' lib', declared L cs es -> declared L' cs' es' ->
  run_calls new_mstate (cs ++ [CInit]) = Ok m -> run_calls new_mstate (cs' ++ [CInit]) = Ok m' ->
  forall n ft, good_library L n lib -> good_library L' n lib' -> good_transform n ft ->
  map q_field es = l_fields L -> map q_field es' = l_fields L' ->
  corresponds rel L cs es lib L' cs' es' lib' -> field_independent cs lib -> field_independent cs' lib' ->
  forall filt dt steps step e e', fits L n m e -> fits L' n m' e' -> agree rel (e_fields e) (e_fields e') ->
  exists e1 e1', rk4_propagate (simulation n ft lib m) ft filt dt steps step e = Some (e1, step + steps)
    /\ rk4_propagate (simulation n ft lib' m') ft filt dt steps step e' = Some (e1', step + steps)
    /\ agree rel (e_fields e1) (e_fields e1').
Proof.
  intros rel L cs es m lib L' cs' es' m' lib' HD HD' Em Em' n ft GL GL' GT HO HO' HC HI HI' filt dt.
  exact (rk4_match_many rel L cs es m lib L' cs' es' m' lib' HD HD' Em Em' n ft GL GL' GT HO HO' HC filt dt HI HI').
Qed.
Print Assumptions C93_rk4.

(** With other names for fields, functions, constants and registered terms the
    fields are the same after any number of steps. *)
Theorem C93_renamed_euler : forall f L cs es m lib L' cs' es' m' lib', declared L cs es -> declared L' cs' es' ->
  run_calls new_mstate (cs ++ [CInit]) = Ok m -> run_calls new_mstate (cs' ++ [CInit]) = Ok m' ->
  forall n ft, good_library L n lib -> good_library L' n lib' -> good_transform n ft -> map q_field es = l_fields L ->
  renamed f L cs es lib L' cs' es' lib' ->
  forall filt dt steps step e e', fits L n m e -> fits L' n m' e' -> e_fields e = e_fields e' ->
  exists e1 e1', euler_propagate (simulation n ft lib m) ft filt dt steps step e = Some (e1, step + steps)
    /\ euler_propagate (simulation n ft lib' m') ft filt dt steps step e' = Some (e1', step + steps)
    /\ forall i, i < length (l_fields L) -> nth_error (e_fields e1) i = nth_error (e_fields e1') i.
Proof.
  intros f L cs es m lib L' cs' es' m' lib' HD HD' Em Em' n ft GL GL' GT HO HR filt dt steps step e e' Hf Hf' He.
  assert (HO' : map q_field es' = l_fields L').
  { rewrite (rn_equations _ _ _ _ _ _ _ _ _ HR), (rn_fields _ _ _ _ _ _ _ _ _ HR), map_map, <- HO, map_map. reflexivity. }
  destruct (C93_euler (within (numbered L)) L cs es m lib L' cs' es' m' lib' HD HD' Em Em' n ft GL GL' GT HO HO' (renamed_corresponds f L cs es lib L' cs' es' lib' HD HR)
    (within_order _) filt dt steps step e e' Hf Hf') as (e1 & e1' & E1 & E2 & HA).
  - intros i j [-> _]. rewrite He. reflexivity.
  - exists e1, e1'. split; [exact E1|]. split; [exact E2|]. intros i Hi. apply HA. split; [reflexivity|exact Hi].
Qed.
Print Assumptions C93_renamed_euler.

Theorem C93_renamed_rk4 : forall f L cs es m lib L' cs' es' m' lib', declared L cs es -> declared L' cs' es' ->
  run_calls new_mstate (cs ++ [CInit]) = Ok m -> run_calls new_mstate (cs' ++ [CInit]) = Ok m' ->
  forall n ft, good_library L n lib -> good_library L' n lib' -> good_transform n ft -> map q_field es = l_fields L ->
  renamed f L cs es lib L' cs' es' lib' -> field_independent cs lib -> field_independent cs' lib' ->
  forall filt dt steps step e e', fits L n m e -> fits L' n m' e' -> e_fields e = e_fields e' ->
  exists e1 e1', rk4_propagate (simulation n ft lib m) ft filt dt steps step e = Some (e1, step + steps)
    /\ rk4_propagate (simulation n ft lib' m') ft filt dt steps step e' = Some (e1', step + steps)
    /\ forall i, i < length (l_fields L) -> nth_error (e_fields e1) i = nth_error (e_fields e1') i.
Proof.
  intros f L cs es m lib L' cs' es' m' lib' HD HD' Em Em' n ft GL GL' GT HO HR HI HI' filt dt steps step e e' Hf Hf' He.
  assert (HO' : map q_field es' = l_fields L').
  { rewrite (rn_equations _ _ _ _ _ _ _ _ _ HR), (rn_fields _ _ _ _ _ _ _ _ _ HR), map_map, <- HO, map_map. reflexivity. }
  destruct (C93_rk4 (within (numbered L)) L cs es m lib L' cs' es' m' lib' HD HD' Em Em' n ft GL GL' GT HO HO' (renamed_corresponds f L cs es lib L' cs' es' lib' HD HR)
    HI HI' filt dt steps step e e' Hf Hf') as (e1 & e1' & E1 & E2 & HA).
  - intros i j [-> _]. rewrite He. reflexivity.
  - exists e1, e1'. split; [exact E1|]. split; [exact E2|]. intros i Hi. apply HA. split; [reflexivity|exact Hi].
Qed.
Print Assumptions C93_renamed_rk4.

(** *** Example: the two coupled fields of C92 with their names exchanged, and
    the equations written in another order *)
Definition Ls : lang :=
  {| l_fields := [lit "eta"; lit "conc"]; l_functions := []; l_scalars := []; l_implicit := []; l_explicit := []; l_mixed := [] |}.
Definition other_calls : list call :=
  [CField (lit "eta"); CField (lit "conc"); CEquation (lit "deta/dt = -eta + conc"); CEquation (lit "dconc/dt = eta - conc + conc*eta")].
Definition other_q0 : eqtext :=
  {| q_field := lit "eta"; q_lead := Some minus_c; q_first := IProduct [plainw "eta" None]; q_more := [(plus_c, IProduct [plainw "conc" None])] |}.
Definition other_q1 : eqtext :=
  {| q_field := lit "conc"; q_lead := None; q_first := IProduct [plainw "eta" None];
     q_more := [(minus_c, IProduct [plainw "conc" None]); (plus_c, IProduct [plainw "conc" None; plainw "eta" None])] |}.
Definition other_eqs : list eqtext := [other_q0; other_q1].

Lemma other_declared : declared Ls other_calls other_eqs.
Proof.
  constructor.
  - good_language.
  - split; [reflexivity|]. intros n. cbn. tauto.
  - exists (firstn 2 other_calls), (skipn 2 other_calls). split; [reflexivity|]. split; [|split].
    + intros c H. cbn in H. repeat (destruct H as [<-|H]; [exact (fun x => x)|]). destruct H.
    + intros c H. cbn in H. repeat (destruct H as [<-|H]; [exact (fun x => x)|]). destruct H.
    + discriminate.
  - intros b a eq s E. unfold other_calls in E.
    do 4 (destruct b as [|? b]; [discriminate E|injection E as <- E]). destruct b; discriminate E.
  - cbn. intuition discriminate.
  - intros k name t ds H. cbn in H. intuition discriminate.
  - constructor; [reflexivity|]. constructor; [reflexivity|constructor].
  - constructor; [|constructor; [|constructor]]; (split; [cbn; auto|]).
    + split; [intros c E; injection E as <-; right; reflexivity|].
      split; [split; [exists [], [plainw "eta" None], []; good_prod|vm_compute; intuition discriminate]|].
      constructor; [|constructor]. split; [left; reflexivity|]. split; [exists [], [plainw "conc" None], []; good_prod|vm_compute; intuition discriminate].
    + split; [discriminate|]. split; [split; [exists [], [plainw "eta" None], []; good_prod|vm_compute; intuition discriminate]|].
      constructor; [|constructor; [|constructor]].
      * split; [right; reflexivity|]. split; [exists [], [plainw "conc" None], []; good_prod|vm_compute; intuition discriminate].
      * split; [left; reflexivity|]. split; [exists [], [plainw "conc" None; plainw "eta" None], []; good_prod|vm_compute; intuition discriminate].
Qed.
Definition other_state : mstate := match run_calls new_mstate (other_calls ++ [CInit]) with Ok m => m | _ => new_mstate end.
Lemma other_run : run_calls new_mstate (other_calls ++ [CInit]) = Ok other_state.
Proof. vm_compute. reflexivity. Qed.
Definition both : nat -> nat -> Prop := fun i j => i = j /\ i < 2.

Ltac same_names :=
  split; [|reflexivity]; left;
  first [exists 0, 0; split; [split; [reflexivity|lia]|split; reflexivity]|exists 1, 1; split; [split; [reflexivity|lia]|split; reflexivity]].

Lemma other_corresponds : corresponds both Lo couple_calls couple_eqs (no_library 2 keep) Ls other_calls other_eqs (no_library 2 keep).
Proof.
  constructor.
  - intros i j [-> H]. split; exact H.
  - intros i j j' [-> _] [-> _]. reflexivity.
  - intros i i' j [-> _] [-> _]. reflexivity.
  - reflexivity.
  - intros i j q q' [<- Hi] Hq Hq'. destruct i as [|[|i]]; [| |lia]; injection Hq as <-; injection Hq' as <-.
    + exists [(IProduct [plainw "conc" None], Some plus_c); (IProduct [plainw "eta" None], Some minus_c)]. split; [apply perm_swap|].
      unfold signed_items, couple_q0. cbn [q_first q_lead q_more map fst snd].
      constructor; [|constructor; [|constructor]]; (split; [reflexivity|]); (split; [reflexivity|]).
      * exists [fac "conc" None]. split; [apply Permutation_refl|]. constructor; [same_names|constructor].
      * exists [fac "eta" None]. split; [apply Permutation_refl|]. constructor; [same_names|constructor].
    + exists [(IProduct [plainw "conc" None; plainw "eta" None], Some plus_c); (IProduct [plainw "conc" None], Some minus_c); (IProduct [plainw "eta" None], None)].
      split; [eapply Permutation_trans; [apply perm_swap|]; eapply Permutation_trans; [apply perm_skip, perm_swap|]; apply perm_swap|].
      unfold signed_items, couple_q1. cbn [q_first q_lead q_more map fst snd].
      constructor; [|constructor; [|constructor; [|constructor]]]; (split; [reflexivity|]); (split; [reflexivity|]).
      * exists [fac "eta" None; fac "conc" None]. split; [apply perm_swap|]. constructor; [same_names|constructor; [same_names|constructor]].
      * exists [fac "conc" None]. split; [apply Permutation_refl|]. constructor; [same_names|constructor].
      * exists [fac "eta" None]. split; [apply Permutation_refl|]. constructor; [same_names|constructor].
  - intros i j t k [-> _]. destruct j as [|[|j]]; reflexivity.
Qed.

Definition other_env : env := {| e_fields := [[C1; C0]; [C1; C1]]; e_derived := [[C0; C0]] |}.
Example C93_nonvacuous : forall steps, exists e1 e1',
  euler_propagate (simulation 2 ft2 (no_library 2 keep) couple_state) ft2 None 1 steps 0 couple_env = Some (e1, steps)
  /\ euler_propagate (simulation 2 ft2 (no_library 2 keep) other_state) ft2 None 1 steps 0 other_env = Some (e1', steps)
  /\ nth_error (e_fields e1) 0 = nth_error (e_fields e1') 0 /\ nth_error (e_fields e1) 1 = nth_error (e_fields e1') 1.
Proof.
  intros steps. destruct (C93_euler both Lo couple_calls couple_eqs couple_state (no_library 2 keep) Ls other_calls other_eqs other_state (no_library 2 keep)
    couple_declared other_declared couple_run other_run 2 ft2 (no_library_good Lo 2 keep eq_refl) (no_library_good Ls 2 keep eq_refl) ft2_good eq_refl eq_refl
    other_corresponds) with (filt := @None (R -> R)) (dt := 1%R) (steps := steps) (step := 0) (e := couple_env) (e' := other_env) as (e1 & e1' & E1 & E1' & HA).
  - intros i i' j j' [-> _] [-> _] H. exact H.
  - exact couple_fits.
  - split; [reflexivity|]. split; [repeat constructor|vm_compute; reflexivity].
  - intros i j [-> _]. reflexivity.
  - exists e1, e1'. split; [exact E1|]. split; [exact E1'|]. split; apply HA; (split; [reflexivity|lia]).
Qed.

(** *** Example of other names: dconc/dt = -rate*conc and deta/dt = -kap*eta *)
Definition Lk : lang :=
  {| l_fields := [lit "eta"]; l_functions := []; l_scalars := [lit "kap"]; l_implicit := []; l_explicit := []; l_mixed := [] |}.
Definition kap_calls : list call := [CField (lit "eta"); CScalar (lit "kap"); CEquation (lit "deta/dt = -kap*eta")].
Definition kap_names (s : str) : str := if str_eqb s (lit "conc") then lit "eta" else lit "kap".
Definition kap_eqs : list eqtext := map (rename_equation kap_names) rate_eqs.
Lemma kap_declared : declared Lk kap_calls kap_eqs.
Proof.
  constructor.
  - good_language.
  - split; [reflexivity|]. intros n. cbn. tauto.
  - exists (firstn 2 kap_calls), (skipn 2 kap_calls). split; [reflexivity|]. split; [|split].
    + intros c H. cbn in H. repeat (destruct H as [<-|H]; [exact (fun x => x)|]). destruct H.
    + intros c H. cbn in H. repeat (destruct H as [<-|H]; [exact (fun x => x)|]). destruct H.
    + discriminate.
  - intros b a eq s E. unfold kap_calls in E.
    do 3 (destruct b as [|? b]; [discriminate E|injection E as <- E]). destruct b; discriminate E.
  - cbn. intuition discriminate.
  - intros k name t ds H. cbn in H. intuition discriminate.
  - constructor; [reflexivity|constructor].
  - constructor; [|constructor]. split; [cbn; auto|]. split; [intros c E; injection E as <-; right; reflexivity|]. split; [|constructor].
    split; [exists [], [plainw "eta" None], [plainw "kap" None]; good_prod|vm_compute; intuition discriminate].
Qed.
Example C93_nonvacuous_names : renamed kap_names Lr rate_calls rate_eqs (no_library 2 keep) Lk kap_calls kap_eqs (no_library 2 keep)
  /\ declared Lr rate_calls rate_eqs /\ declared Lk kap_calls kap_eqs.
Proof.
  split; [|split; [exact rate_declared|exact kap_declared]]. constructor; try reflexivity.
  - intros x Hx. cbn in Hx. destruct Hx as [<-|[<-|[]]]; vm_compute; intuition discriminate.
  - intros x [].
  - intros k x s s' (b & a & ds & E & _). exfalso. unfold rate_calls in E.
    do 3 (destruct b as [|? b]; [discriminate E|injection E as <- E]). destruct b; discriminate E.
Qed.

(** ** C94 *)

(** If the equations of a set of fields mention only fields of the set, two
    simulations that start with the same values of these fields have the same
    values of these fields after any number of steps, whatever the others. *)
Theorem C94_euler : forall S L cs es m lib, declared L cs es -> run_calls new_mstate (cs ++ [CInit]) = Ok m ->
  forall n ft, good_library L n lib -> good_transform n ft -> map q_field es = l_fields L -> closed_set S L cs es lib ->
  forall filt dt steps step e e', fits L n m e -> fits L n m e' -> (forall i, S i -> nth_error (e_fields e) i = nth_error (e_fields e') i) ->
  let p := simulation n ft lib m in
  exists e1 e1', euler_propagate p ft filt dt steps step e = Some (e1, step + steps) /\ euler_propagate p ft filt dt steps step e' = Some (e1', step + steps)
    /\ forall i, S i -> nth_error (e_fields e1) i = nth_error (e_fields e1') i.
Proof.
  intros S L cs es m lib HD Em n ft GL GT HO HS filt dt steps step e e' Hf Hf' HA p.
  destruct (C93_euler (within S) L cs es m lib L cs es m lib HD HD Em Em n ft GL GL GT HO HO (closed_corresponds S L cs es m lib Em HS) (within_order S)
    filt dt steps step e e' Hf Hf') as (e1 & e1' & E1 & E2 & HA1).
  - intros i j [-> Hj]. apply HA, Hj.
  - exists e1, e1'. split; [exact E1|]. split; [exact E2|]. intros i Hi. apply HA1. split; [reflexivity|exact Hi].
Qed.
Print Assumptions C94_euler.

Theorem C94_rk4 : forall S L cs es m lib, declared L cs es -> run_calls new_mstate (cs ++ [CInit]) = Ok m ->
  forall n ft, good_library L n lib -> good_transform n ft -> map q_field es = l_fields L -> closed_set S L cs es lib -> field_independent cs lib ->
  forall filt dt steps step e e', fits L n m e -> fits L n m e' -> (forall i, S i -> nth_error (e_fields e) i = nth_error (e_fields e') i) ->
  let p := simulation n ft lib m in
  exists e1 e1', rk4_propagate p ft filt dt steps step e = Some (e1, step + steps) /\ rk4_propagate p ft filt dt steps step e' = Some (e1', step + steps)
    /\ forall i, S i -> nth_error (e_fields e1) i = nth_error (e_fields e1') i.
Proof.
  intros S L cs es m lib HD Em n ft GL GT HO HS HI filt dt steps step e e' Hf Hf' HA p.
  destruct (C93_rk4 (within S) L cs es m lib L cs es m lib HD HD Em Em n ft GL GL GT HO HO (closed_corresponds S L cs es m lib Em HS) HI HI
    filt dt steps step e e' Hf Hf') as (e1 & e1' & E1 & E2 & HA1).
  - intros i j [-> Hj]. apply HA, Hj.
  - exists e1, e1'. split; [exact E1|]. split; [exact E2|]. intros i Hi. apply HA1. split; [reflexivity|exact Hi].
Qed.
Print Assumptions C94_rk4.

(** *** Example: eta follows conc, conc does not know of eta *)
Definition follow_calls : list call :=
  [CField (lit "conc"); CField (lit "eta"); CEquation (lit "dconc/dt = conc^2 - conc"); CEquation (lit "deta/dt = conc*eta")].
Definition follow_eqs : list eqtext :=
  [{| q_field := lit "conc"; q_lead := None; q_first := IProduct [plainw "conc" (Some 2)]; q_more := [(minus_c, IProduct [plainw "conc" None])] |};
   {| q_field := lit "eta"; q_lead := None; q_first := IProduct [plainw "conc" None; plainw "eta" None]; q_more := [] |}].
Lemma follow_declared : declared Lo follow_calls follow_eqs.
Proof.
  constructor.
  - good_language.
  - split; [reflexivity|]. intros n. cbn. tauto.
  - exists (firstn 2 follow_calls), (skipn 2 follow_calls). split; [reflexivity|]. split; [|split].
    + intros c H. cbn in H. repeat (destruct H as [<-|H]; [exact (fun x => x)|]). destruct H.
    + intros c H. cbn in H. repeat (destruct H as [<-|H]; [exact (fun x => x)|]). destruct H.
    + discriminate.
  - intros b a eq s E. unfold follow_calls in E.
    do 4 (destruct b as [|? b]; [discriminate E|injection E as <- E]). destruct b; discriminate E.
  - cbn. intuition discriminate.
  - intros k name t ds H. cbn in H. intuition discriminate.
  - constructor; [reflexivity|]. constructor; [reflexivity|constructor].
  - constructor; [|constructor; [|constructor]]; (split; [cbn; auto|]); (split; [discriminate|]).
    + split; [split; [exists [], [plainw "conc" (Some 2)], []; good_prod|vm_compute; intuition discriminate]|].
      constructor; [|constructor]. split; [right; reflexivity|]. split; [exists [], [plainw "conc" None], []; good_prod|vm_compute; intuition discriminate].
    + split; [split; [exists [], [plainw "conc" None; plainw "eta" None], []; good_prod|vm_compute; intuition discriminate]|constructor].
Qed.
Definition follow_state : mstate := match run_calls new_mstate (follow_calls ++ [CInit]) with Ok m => m | _ => new_mstate end.
Lemma follow_run : run_calls new_mstate (follow_calls ++ [CInit]) = Ok follow_state.
Proof. vm_compute. reflexivity. Qed.
Example C94_nonvacuous : closed_set (fun i => i = 0) Lo follow_calls follow_eqs (no_library 2 keep)
  /\ fits Lo 2 follow_state {| e_fields := [[C1; C0]; [C1; C1]]; e_derived := [[]; []] |}
  /\ fits Lo 2 follow_state {| e_fields := [[C1; C0]; [C0; C1]]; e_derived := [[]; []] |}
  /\ map q_field follow_eqs = l_fields Lo.
Proof.
  split; [|split; [|split; [|reflexivity]]].
  - split; [intros i ->; cbn; lia|]. intros i q -> Hq. injection Hq as <-. intros it d Hin. cbn in Hin.
    destruct Hin as [Hin|[Hin|[]]]; injection Hin as <- _; intros f Hf; cbn in Hf; destruct Hf as [<-|[]]; left; exists 0; split; reflexivity.
  - split; [reflexivity|]. split; [repeat constructor|vm_compute; reflexivity].
  - split; [reflexivity|]. split; [repeat constructor|vm_compute; reflexivity].
Qed.

(** ** C95 *)

(** RK4: if the fields and equations of the second simulation are those of the
    first in the order given by [s], every field has the same values. *)
Theorem C95_rk4_partial : forall s L cs es m lib L' cs' es' m' lib', declared L cs es -> declared L' cs' es' ->
  run_calls new_mstate (cs ++ [CInit]) = Ok m -> run_calls new_mstate (cs' ++ [CInit]) = Ok m' ->
  forall n ft, good_library L n lib -> good_library L' n lib' -> good_transform n ft ->
  map q_field es = l_fields L -> map q_field es' = l_fields L' ->
  corresponds (fun i j => i < length (l_fields L) /\ j = s i) L cs es lib L' cs' es' lib' -> field_independent cs lib -> field_independent cs' lib' ->
  forall filt dt steps step e e', fits L n m e -> fits L' n m' e' ->
  (forall i, i < length (l_fields L) -> nth_error (e_fields e) i = nth_error (e_fields e') (s i)) ->
  exists e1 e1', rk4_propagate (simulation n ft lib m) ft filt dt steps step e = Some (e1, step + steps)
    /\ rk4_propagate (simulation n ft lib' m') ft filt dt steps step e' = Some (e1', step + steps)
    /\ forall i, i < length (l_fields L) -> nth_error (e_fields e1) i = nth_error (e_fields e1') (s i).
Proof.
  intros s L cs es m lib L' cs' es' m' lib' HD HD' Em Em' n ft GL GL' GT HO HO' HC HI HI' filt dt steps step e e' Hf Hf' HA.
  destruct (C93_rk4 _ L cs es m lib L' cs' es' m' lib' HD HD' Em Em' n ft GL GL' GT HO HO' HC HI HI' filt dt steps step e e' Hf Hf') as (e1 & e1' & E1 & E2 & HA1).
  - intros i j [Hi ->]. apply HA, Hi.
  - exists e1, e1'. split; [exact E1|]. split; [exact E2|]. intros i Hi. apply HA1. split; [exact Hi|reflexivity].
Qed.
Print Assumptions C95_rk4_partial.

(** *** The coupled fields of C92 declared in the other order *)
Definition swap_calls : list call :=
  [CField (lit "eta"); CField (lit "conc"); CEquation (lit "deta/dt = conc*eta - eta + conc"); CEquation (lit "dconc/dt = eta - conc")].
Definition swap_eqs : list eqtext := [couple_q1; couple_q0].
Lemma swap_declared : declared Ls swap_calls swap_eqs.
Proof.
  constructor.
  - good_language.
  - split; [reflexivity|]. intros n. cbn. tauto.
  - exists (firstn 2 swap_calls), (skipn 2 swap_calls). split; [reflexivity|]. split; [|split].
    + intros c H. cbn in H. repeat (destruct H as [<-|H]; [exact (fun x => x)|]). destruct H.
    + intros c H. cbn in H. repeat (destruct H as [<-|H]; [exact (fun x => x)|]). destruct H.
    + discriminate.
  - intros b a eq s E. unfold swap_calls in E.
    do 4 (destruct b as [|? b]; [discriminate E|injection E as <- E]). destruct b; discriminate E.
  - cbn. intuition discriminate.
  - intros k name t ds H. cbn in H. intuition discriminate.
  - constructor; [reflexivity|]. constructor; [reflexivity|constructor].
  - constructor; [|constructor; [|constructor]]; (split; [cbn; auto|]); (split; [discriminate|]).
    + split; [split; [exists [], [plainw "conc" None; plainw "eta" None], []; good_prod|vm_compute; intuition discriminate]|].
      constructor; [|constructor; [|constructor]].
      * split; [right; reflexivity|]. split; [exists [], [plainw "eta" None], []; good_prod|vm_compute; intuition discriminate].
      * split; [left; reflexivity|]. split; [exists [], [plainw "conc" None], []; good_prod|vm_compute; intuition discriminate].
    + split; [split; [exists [], [plainw "eta" None], []; good_prod|vm_compute; intuition discriminate]|].
      constructor; [|constructor]. split; [right; reflexivity|]. split; [exists [], [plainw "conc" None], []; good_prod|vm_compute; intuition discriminate].
Qed.
Definition swap_state : mstate := match run_calls new_mstate (swap_calls ++ [CInit]) with Ok m => m | _ => new_mstate end.
Lemma swap_run : run_calls new_mstate (swap_calls ++ [CInit]) = Ok swap_state.
Proof. vm_compute. reflexivity. Qed.
Definition swap_env : env := {| e_fields := [[C1; C1]; [C1; C0]]; e_derived := [[C0; C0]] |}.
Lemma swap_fits : fits Ls 2 swap_state swap_env.
Proof. split; [reflexivity|]. split; [repeat constructor|vm_compute; reflexivity]. Qed.

Lemma swap_corresponds : corresponds (fun i j => i < length (l_fields Lo) /\ j = 1 - i) Lo couple_calls couple_eqs (no_library 2 keep) Ls swap_calls swap_eqs (no_library 2 keep).
Proof.
  assert (N0 : same_field (fun i j => i < length (l_fields Lo) /\ j = 1 - i) Lo Ls (lit "conc") (lit "conc")).
  { exists 0, 1. split; [split; [cbn; lia|reflexivity]|split; reflexivity]. }
  assert (N1 : same_field (fun i j => i < length (l_fields Lo) /\ j = 1 - i) Lo Ls (lit "eta") (lit "eta")).
  { exists 1, 0. split; [split; [cbn; lia|reflexivity]|split; reflexivity]. }
  constructor.
  - intros i j [Hi ->]. split; [exact Hi|change (length (l_fields Ls)) with 2; lia].
  - intros i j j' [_ ->] [_ ->]. reflexivity.
  - intros i i' j [Hi ->] [Hi' E]. change (length (l_fields Lo)) with 2 in *. lia.
  - reflexivity.
  - intros i j q q' [Hi ->] Hq Hq'. cbn in Hi. exists (signed_items q').  split; [apply Permutation_refl|].
    destruct i as [|[|i]]; [| |lia]; injection Hq as <-; injection Hq' as <-.
    + unfold signed_items, couple_q0. cbn [q_first q_lead q_more map fst snd].
      constructor; [|constructor; [|constructor]]; (split; [reflexivity|]); (split; [reflexivity|]).
      * exists [fac "eta" None]. split; [apply Permutation_refl|]. constructor; [split; [left; exact N1|reflexivity]|constructor].
      * exists [fac "conc" None]. split; [apply Permutation_refl|]. constructor; [split; [left; exact N0|reflexivity]|constructor].
    + unfold signed_items, couple_q1. cbn [q_first q_lead q_more map fst snd].
      constructor; [|constructor; [|constructor; [|constructor]]]; (split; [reflexivity|]); (split; [reflexivity|]).
      * exists [fac "conc" None; fac "eta" None]. split; [apply Permutation_refl|]. constructor; [split; [left; exact N0|reflexivity]|constructor; [split; [left; exact N1|reflexivity]|constructor]].
      * exists [fac "eta" None]. split; [apply Permutation_refl|]. constructor; [split; [left; exact N1|reflexivity]|constructor].
      * exists [fac "conc" None]. split; [apply Permutation_refl|]. constructor; [split; [left; exact N0|reflexivity]|constructor].
  - intros i j t k [Hi ->]. cbn in Hi. destruct i as [|[|i]]; [reflexivity|reflexivity|lia].
Qed.

Example C95_nonvacuous : forall steps, exists e1 e1',
  rk4_propagate (simulation 2 ft2 (no_library 2 keep) couple_state) ft2 None 1 steps 0 couple_env = Some (e1, steps)
  /\ rk4_propagate (simulation 2 ft2 (no_library 2 keep) swap_state) ft2 None 1 steps 0 swap_env = Some (e1', steps)
  /\ nth_error (e_fields e1) 0 = nth_error (e_fields e1') 1 /\ nth_error (e_fields e1) 1 = nth_error (e_fields e1') 0.
Proof.
  assert (NT : forall cs k x s, (forall a b c d, ~ In (CTerm a b c d) cs) -> ~ registered cs k x s).
  { intros cs k x s H (b & a & ds & E & _). apply (H k x s ds). rewrite E. apply in_or_app. right. left. reflexivity. }
  intros steps. destruct (C95_rk4_partial (fun i => 1 - i) Lo couple_calls couple_eqs couple_state (no_library 2 keep) Ls swap_calls swap_eqs swap_state (no_library 2 keep)
    couple_declared swap_declared couple_run swap_run 2 ft2 (no_library_good Lo 2 keep eq_refl) (no_library_good Ls 2 keep eq_refl) ft2_good eq_refl eq_refl
    swap_corresponds) with (filt := @None (R -> R)) (dt := 1%R) (steps := steps) (step := 0) (e := couple_env) (e' := swap_env) as (e1 & e1' & E1 & E1' & HA).
  - split; intros name s E E' t H; exfalso; revert H; apply NT; cbn; intuition discriminate.
  - split; intros name s E E' t H; exfalso; revert H; apply NT; cbn; intuition discriminate.
  - exact couple_fits.
  - exact swap_fits.
  - intros i Hi. cbn in Hi. destruct i as [|[|i]]; [reflexivity|reflexivity|lia].
  - exists e1, e1'. split; [exact E1|]. split; [exact E1'|]. split; [apply (HA 0)|apply (HA 1)]; change (length (l_fields Lo)) with 2; lia.
Qed.

Lemma swap_eta d0 d1 E t X A :
  split_written Ls swap_calls 2 ft2 (no_library 2 keep) (e_fields swap_env) [d0; d1] E t couple_q1 0 X A ->
  X = Cadd C1 (nth 0 d1 C0) /\ A = RtoC (-1).
Proof.
  intros (val & lone & im & ex & li & nl & (HV & _) & Hlone & _ & _ & _ & _ & -> & ->).
  assert (E1 := Hlone 1 (lit "conc") _ eq_refl eq_refl).
  assert (V0 := HV 1 (lit "conc") _ eq_refl eq_refl). assert (V1 := HV 0 (lit "eta") _ eq_refl eq_refl).
  change (explicit_item Ls) with (explicit_item Lo). change (implicit_item Ls) with (implicit_item Lo).
  couple_parts.
  change (field_factors Ls [plainw "eta" None]) with [fac "eta" None]; change (field_factors Ls [plainw "conc" None]) with [fac "conc" None];
  change (field_factors Ls [plainw "conc" None; plainw "eta" None]) with [fac "conc" None; fac "eta" None].
  cbn [fac fa_exp option_map fa_name]. rewrite E1, minus_one. unfold amplitude, amplitude_at. cbn [map seq product_value fac fa_name factor_power fa_exp option_map].
  rewrite !V0, !V1. cbn [nth lb_pow no_library keep ft2 fft]. unfold keep. split; ring.
Qed.

Lemma swap_step : exists e',
  euler_step (simulation 2 ft2 (no_library 2 keep) swap_state) ft2 None 1 0 swap_env = Some e'
  /\ nth 0 (fft ft2 (nth 0 (e_fields e') [])) C0 = RtoC 2.
Proof.
  destruct (C92_euler_step Ls swap_calls swap_eqs swap_state swap_declared swap_run 2 ft2 (no_library 2 keep) (no_library_good Ls 2 keep eq_refl)
    ft2_good eq_refl 1 0 swap_env swap_fits) as (e' & Es & Hl & _ & HS).
  exists e'. split; [exact Es|].
  assert (HX := C92_parts_exist Ls swap_calls swap_eqs swap_state swap_declared swap_run 2 ft2 (no_library 2 keep)).
  specialize (HS 0 _ eq_refl). cbv zeta in HS. cbn [map firstn skipn app swap_env e_fields] in HS.
  match type of HS with forall k X A, _ -> split_written _ _ _ _ _ ?F ?S ?E ?T ?Q _ _ _ -> _ => destruct (HX E T Q 0 F S) as (X & A & HXA) end.
  specialize (HS 0 X A ltac:(lia) HXA). destruct (swap_eta _ _ _ _ _ _ HXA) as [-> ->].
  rewrite HS. change (source_sum _ _ _ _ _) with C0.
  transitivity (Cdiv (RtoC 4) (RtoC 2)); [f_equal; [cbn [ft2 fft nth]; csolve|csolve]|]. rewrite RtoC_ratio by lra. f_equal. lra.
Qed.

(** Euler: the order in which the same fields and equations are declared changes the result. *)
Theorem C95_euler_refuted : exists s L cs es m lib L' cs' es' m' lib' n ft dt e e' e1 e1',
  declared L cs es /\ declared L' cs' es' /\ run_calls new_mstate (cs ++ [CInit]) = Ok m /\ run_calls new_mstate (cs' ++ [CInit]) = Ok m'
  /\ good_library L n lib /\ good_library L' n lib' /\ good_transform n ft /\ map q_field es = l_fields L /\ map q_field es' = l_fields L'
  /\ corresponds (fun i j => i < length (l_fields L) /\ j = s i) L cs es lib L' cs' es' lib' /\ fits L n m e /\ fits L' n m' e'
  /\ (forall i, i < length (l_fields L) -> nth_error (e_fields e) i = nth_error (e_fields e') (s i))
  /\ euler_step (simulation n ft lib m) ft None dt 0 e = Some e1 /\ euler_step (simulation n ft lib' m') ft None dt 0 e' = Some e1'
  /\ ~ forall i, i < length (l_fields L) -> nth_error (e_fields e1) i = nth_error (e_fields e1') (s i).
Proof.
  destruct C92_nonvacuous as (e1 & E1 & _ & H1). destruct swap_step as (e1' & E1' & H1').
  exists (fun i => 1 - i), Lo, couple_calls, couple_eqs, couple_state, (no_library 2 keep), Ls, swap_calls, swap_eqs, swap_state, (no_library 2 keep),
    2, ft2, 1%R, couple_env, swap_env, e1, e1'.
  split; [exact couple_declared|]. split; [exact swap_declared|]. split; [exact couple_run|]. split; [exact swap_run|].
  split; [exact (no_library_good Lo 2 keep eq_refl)|]. split; [exact (no_library_good Ls 2 keep eq_refl)|]. split; [exact ft2_good|].
  split; [reflexivity|]. split; [reflexivity|]. split; [exact swap_corresponds|]. split; [exact couple_fits|]. split; [exact swap_fits|].
  split; [intros i Hi; cbn in Hi; destruct i as [|[|i]]; [reflexivity|reflexivity|lia]|]. split; [exact E1|]. split; [exact E1'|].
  intros H. assert (HE := H 1 ltac:(cbn; lia)). change (1 - 1) with 0 in HE.
  assert (HN : nth 1 (e_fields e1) [] = nth 0 (e_fields e1') []).
  { assert (HD : forall (l : list data) i, nth i l [] = match nth_error l i with Some d => d | None => [] end).
    { induction l as [|x l IH]; intros [|i]; try reflexivity. apply IH. }
    rewrite !HD, HE. reflexivity. }
  rewrite HN, H1' in H1. injection H1. lra.
Qed.
Print Assumptions C95_euler_refuted.
