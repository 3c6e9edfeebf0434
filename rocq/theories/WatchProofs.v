From Verif Require Import ListAux FileModel SimSpec SimProofs SimProofs2 SimProofs3 SimProofs4 SimProofs5 SplitProofs4 StepProofs EquationProofs4 SolverSpec SolverProofs ResumeProofs WatchModel.
From Coq Require Import Reals Lia.
From Verif Require Import Complex.
Open Scope nat_scope.

(** Invariants hold along a history. *)
Lemma along {S} (sp : stepper S) (P : S -> Prop) hist N : (forall s s', P s -> st_step sp s = Some s' -> P s') ->
  history sp hist N -> P (hist 0) -> forall k, k <= N -> P (hist k).
Proof. intros HP HH H0. induction k as [|k IH]; intros Hk; [exact H0|]. apply (HP (hist k)); [apply IH; lia|apply HH; lia]. Qed.

Section Watch.
  Variables (L : lang) (cs : list call) (es : list eqtext) (m : mstate).
  Hypothesis HDc : declared L cs es.
  Hypothesis Em : run_calls new_mstate (cs ++ [CInit]) = Ok m.
  Variables (n : nat) (ft : transform) (lib : library).
  Hypothesis GL : good_library L n lib.
  Let p := simulation n ft lib m.

  Lemma watch_field (sp : stepper (env * nat)) sv ne ns s s' tr : NoDup (sv_monitors sv) ->
    solve sp sv ne ns s = Some (s', tr) -> exists hist, hist 0 = s /\ hist (ne * ns) = s' /\ history sp hist (ne * ns)
    /\ forall pm k i, In k (sv_monitors sv) -> nth_error (l_fields L) i = Some (pt_field pm) ->
       monitored lib m pm k tr = pt_data pm ++ map (fun q => Re (nth (pt_site pm) (nth i (e_fields (fst (hist ((q + 1) * ns)))) []) C0)) (seq 0 ne).
  Proof.
    intros ND HS. pose proof (proj1 (solve_some sp sv ne ns s s' tr) HS) as (h & H0 & Hn & Hh & Htr). exists h. split; [exact H0|]. split; [exact Hn|]. split; [exact Hh|].
    intros pm k i Hk Hi. unfold monitored.
    destruct (point_monitor_data sp sv ne ns s s' tr (fun s j => brick_at lib (ms_names m) (fst s) j (pt_field pm)) (pt_site pm) k (pt_data pm) ND Hk HS) as (h' & H0' & Hh' & E).
    rewrite E. f_equal. apply map_ext_in. intros q Hq. apply in_seq in Hq.
    assert (Heq : forall j, j <= ne * ns -> h' j = h j).
    { induction j as [|j IH]; intros Hj; [congruence|]. specialize (Hh' j ltac:(lia)). specialize (Hh j ltac:(lia)). rewrite IH in Hh' by lia. congruence. }
    rewrite Heq by nia. rewrite (brick_field L cs es m HDc Em lib _ _ i (pt_field pm) Hi). reflexivity.
  Qed.

  Lemma euler_derived_brick filt dt t e e' k name c : slots m e -> euler_step p ft filt dt t e = Some e' -> In name (l_functions L) ->
    lb_calc lib name = Some c -> brick_at lib (ms_names m) e' k name = nth k (fft ft (c (e_fields e))) C0.
  Proof.
    intros Hs E Hn Hc. unfold euler_step in E. destruct (euler_fields _ _ _ _ _ _ _ _) as [e3|] eqn:E3; [|discriminate]. injection E as <-.
    unfold brick_at. destruct (last_index_in (pm_derived (ms_names m)) name (mi_functions L _ (state_inv L cs es m HDc Em) name Hn)) as (i & Hi).
    rewrite Hi. cbn [e_derived]. rewrite (euler_fields_derived n ft m lib filt dt t _ _ _ _ E3). cbn [e_derived]. f_equal. apply nth_error_nth. rewrite nth_error_map.
    assert (HI : forall c e1 e2, In c (p_calc p) -> e_fields e1 = e_fields e2 -> c e1 = c e2).
    { intros c0 e1 e2 Hin He. apply in_map_iff in Hin. destruct Hin as (x & <- & _). apply calc_of_fields, He. }
    assert (HS := sync_from_nth (p_calc p) HI 0 e i (calc_of n lib (ms_names m) name)). cbn [Nat.add] in HS. unfold sync. rewrite HS.
    - cbn [option_map]. unfold calc_of. rewrite Hc. reflexivity.
    - unfold p, simulation. cbn [p_calc]. rewrite map_length. unfold slots in Hs. rewrite Hs. lia.
    - unfold p, simulation. cbn [p_calc]. rewrite nth_error_map, (last_index_some _ _ _ Hi). reflexivity.
  Qed.

  Lemma watch_function filt dt sv ne ns e k0 s' tr : NoDup (sv_monitors sv) -> 0 < ns -> slots m e ->
    let sp := euler_stepper p ft filt dt in
    solve sp sv ne ns (e, k0) = Some (s', tr) -> exists hist, hist 0 = (e, k0) /\ hist (ne * ns) = s' /\ history sp hist (ne * ns)
    /\ forall pm k c, In k (sv_monitors sv) -> In (pt_field pm) (l_functions L) -> lb_calc lib (pt_field pm) = Some c ->
       monitored lib m pm k tr = pt_data pm ++ map (fun q => Re (nth (pt_site pm) (fft ft (c (e_fields (fst (hist ((q + 1) * ns - 1)))))) C0)) (seq 0 ne).
  Proof.
    intros ND Hns Hsl sp HS. pose proof (proj1 (solve_some sp sv ne ns _ s' tr) HS) as (h & H0 & Hn & Hh & Htr). exists h. split; [exact H0|]. split; [exact Hn|]. split; [exact Hh|].
    intros pm k c Hk Hf Hc. unfold monitored.
    destruct (point_monitor_data sp sv ne ns _ s' tr (fun s j => brick_at lib (ms_names m) (fst s) j (pt_field pm)) (pt_site pm) k (pt_data pm) ND Hk HS) as (h' & H0' & Hh' & E).
    rewrite E. f_equal. apply map_ext_in. intros q Hq. apply in_seq in Hq.
    assert (Heq : forall j, j <= ne * ns -> h' j = h j).
    { induction j as [|j IH]; intros Hj; [congruence|]. pose proof (Hh' j ltac:(lia)) as A. pose proof (Hh j ltac:(lia)) as B. rewrite IH in A by lia. congruence. }
    assert (HP : forall s s', slots m (fst s) -> st_step sp s = Some s' -> slots m (fst s')).
    { intros [e1 k1] s1 H1 E1. unfold sp, euler_stepper in E1. cbn [st_step fst snd] in E1, H1.
      destruct (euler_step _ _ _ _ _ _) as [e2|] eqn:E2; [|discriminate]. injection E1 as <-. exact (euler_slots n ft m lib _ _ _ _ _ H1 E2). }
    assert (Hr : (q + 1) * ns <= ne * ns) by nia.
    rewrite Heq by exact Hr. remember ((q + 1) * ns - 1) as j eqn:Hj. assert (HSj : (q + 1) * ns = S j) by nia. rewrite HSj.
    assert (Hsj : slots m (fst (h j))).
    { apply (along sp (fun s => slots m (fst s)) h (ne * ns) HP Hh); [rewrite H0; exact Hsl|lia]. }
    specialize (Hh j ltac:(lia)). unfold sp, euler_stepper in Hh. cbn [st_step] in Hh.
    destruct (euler_step _ _ _ _ _ _) as [e2|] eqn:E2; [|discriminate]. injection Hh as Hh. rewrite <- Hh. cbn [fst].
    rewrite (euler_derived_brick _ _ _ _ _ _ _ c Hsj E2 Hf Hc). reflexivity.
  Qed.
End Watch.
