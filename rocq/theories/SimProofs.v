From Verif Require Import ListAux FileModel ParseProofs DerivedProofs EquationProofs EquationProofs4 RegistryProofs RegistryProofs2 RegistryProofs3 StepProofs SimSpec.
From Coq Require Import Lia.
Open Scope nat_scope.

(** ** Tables *)
Lemma last_index_some l n i : last_index l n = Some i -> nth_error l i = Some n.
Proof.
  revert i. induction l as [|x l IH]; intros i H; cbn [last_index] in H; [discriminate|].
  destruct (last_index l n) as [j|]; [injection H as <-; apply IH; reflexivity|].
  destruct (str_eqb x n) eqn:E; [|discriminate]. injection H as <-. apply str_eqb_eq in E. rewrite E. reflexivity.
Qed.
Lemma last_index_in l n : In n l -> exists i, last_index l n = Some i.
Proof.
  induction l as [|x l IH]; intros H; [destruct H|]. cbn [last_index]. destruct (last_index l n) as [j|]; [eauto|].
  destruct H as [-> |H]; [rewrite ParseProofs.str_eqb_refl; eauto|]. destruct (IH H) as (i & Hi). discriminate.
Qed.
Lemma last_index_none l n : ~ In n l -> last_index l n = None.
Proof.
  intros H. destruct (last_index l n) as [i|] eqn:E; [|reflexivity]. exfalso. apply H. apply last_index_some in E. eapply nth_error_In, E.
Qed.

Lemma map_nth_seq (d : data) n : length d = n -> map (fun j => nth j d C0) (seq 0 n) = d.
Proof.
  intros <-. apply nth_ext with C0 C0; [rewrite map_length, seq_length; reflexivity|]. intros k Hk. rewrite map_length, seq_length in Hk.
  rewrite (nth_indep _ C0 (nth 0 d C0)) by (rewrite map_length, seq_length; exact Hk). rewrite (map_nth (fun j => nth j d C0)), seq_nth by exact Hk. reflexivity.
Qed.
Lemma nth_map_seq {A} (f : nat -> A) n k d : k < n -> nth k (map f (seq 0 n)) d = f k.
Proof.
  intros H. rewrite (nth_indep _ d (f 0)) by (rewrite map_length, seq_length; exact H). rewrite map_nth, seq_nth by exact H. reflexivity.
Qed.

Lemma field_value_combine (names : list str) (ds : list data) name d i : NoDup names -> length ds = length names ->
  nth_error names i = Some name -> nth_error ds i = Some d ->
  field_value (combine names (map (fun d j => nth j d C0) ds)) name = Some (fun j => nth j d C0).
Proof.
  revert ds i. induction names as [|x names IH]; intros ds i Hnd Hl Hn Hd; [destruct i; discriminate|].
  destruct ds as [|d0 ds]; [discriminate|]. injection Hl as Hl. inversion Hnd as [|? ? Hx Hr]; subst. cbn [map combine field_value].
  assert (Hno : forall (l : list data), ~ In name names -> field_value (combine names (map (fun d j => nth j d C0) l)) name = None).
  { clear. induction names as [|y names IH]; intros l H; [reflexivity|]. destruct l as [|d l]; [reflexivity|]. cbn [map combine field_value].
    rewrite IH by (intros Hin; apply H; right; exact Hin). destruct (str_eqb y name) eqn:E; [|reflexivity].
    exfalso. apply H. left. apply str_eqb_eq, E. }
  destruct i as [|i]; cbn [nth_error] in Hn, Hd.
  - injection Hn as ->. injection Hd as ->. rewrite Hno by exact Hx. rewrite ParseProofs.str_eqb_refl. reflexivity.
  - rewrite (IH ds i Hr Hl Hn Hd). reflexivity.
Qed.

(** ** Derived fields after SyncDerivedFields *)
Lemma nth_error_set_nth {A} (l : list A) i j x : nth_error (set_nth i x l) j = if Nat.eqb j i then match nth_error l i with Some _ => Some x | None => None end else nth_error l j.
Proof.
  revert i j. induction l as [|y l IH]; intros i j; [destruct i, j; cbn [set_nth nth_error Nat.eqb]; try destruct (Nat.eqb j i); reflexivity|].
  destruct i as [|i], j as [|j]; cbn [set_nth nth_error Nat.eqb]; try reflexivity. apply IH.
Qed.
Lemma sync_from_nth calcs : (forall c e e', In c calcs -> e_fields e = e_fields e' -> c e = c e') ->
  forall i e j c, i + length calcs <= length (e_derived e) -> nth_error calcs j = Some c ->
  nth_error (e_derived (sync_from i calcs e)) (i + j) = Some (c e).
Proof.
  induction calcs as [|c0 calcs IH]; intros Hc i e j c Hl Hj; [destruct j; discriminate|]. cbn [sync_from length] in *.
  assert (Keep : forall cs k e', k > i -> nth_error (e_derived (sync_from k cs e')) i = nth_error (e_derived e') i).
  { clear. induction cs as [|c cs IH]; intros k e' Hk; [reflexivity|]. cbn [sync_from]. rewrite IH by lia. cbn [set_derived e_derived].
    rewrite nth_error_set_nth. destruct (Nat.eqb_spec i k); [lia|reflexivity]. }
  destruct j as [|j]; cbn [nth_error] in Hj.
  - injection Hj as ->. rewrite Nat.add_0_r, Keep by lia. cbn [set_derived e_derived]. rewrite nth_error_set_nth, Nat.eqb_refl.
    destruct (nth_error (e_derived e) i) eqn:E; [reflexivity|]. apply nth_error_None in E. lia.
  - rewrite <- Nat.add_succ_comm. rewrite (IH (fun c e e' H => Hc c e e' (or_intror H)) (S i) (set_derived e i (c0 e)) j c).
    + f_equal. apply Hc; [right; eapply nth_error_In, Hj|reflexivity].
    + cbn [set_derived e_derived]. rewrite set_nth_length. lia.
    + exact Hj.
Qed.

Lemma calc_of_fields n lib p name e e' : e_fields e = e_fields e' -> calc_of n lib p name e = calc_of n lib p name e'.
Proof. intros H. unfold calc_of. rewrite H. reflexivity. Qed.

(** ** Names of derived fields are not names of fields *)
Lemma derived_loop_fresh terms field m n : In n (pm_derived (EquationModel.derived_loop m field terms)) ->
  In n (pm_derived m) \/ ~ In n (pm_fields m).
Proof.
  revert m. induction terms as [|t terms IH]; intros m H; cbn [EquationModel.derived_loop] in H; [left; exact H|].
  match type of H with context [EquationModel.derived_loop ?x field terms] => set (m1 := x) in H end.
  assert (H1 : pm_fields m1 = pm_fields m /\ (In n (pm_derived m1) -> In n (pm_derived m) \/ ~ In n (pm_fields m))).
  { unfold m1. destruct (is_user_term m t); [auto|].
    destruct (sort_factors _) as [|c0 w] eqn:Es; [auto|]. destruct (is_fname m (c0 :: w)) eqn:Ef; [auto|].
    cbn [pm_fields pm_derived]. split; [reflexivity|]. intros Hin. apply in_app_or in Hin. destruct Hin as [Hin|[<-|[]]]; [left; exact Hin|].
    right. intros Hf. unfold is_fname in Ef. rewrite (proj2 (mem_str_In _ _)) in Ef; [discriminate|]. unfold all_field_names. apply in_or_app. left. exact Hf. }
  destruct H1 as [H1 H2]. destruct (IH m1 H) as [H3|H3]; [apply H2, H3|right; rewrite <- H1; exact H3].
Qed.

Section Names.
  Variable L : lang.
  Hypothesis HL : good_lang L.
  Variable cs : list call.
  Hypothesis HDecl : declares cs L.
  Hypothesis HFirst : fields_first cs.

  Lemma function_not_field n : In n (l_functions L) -> ~ In n (l_fields L).
  Proof.
    assert (Hnd := gl_nodup L HL). unfold atoms in Hnd. revert Hnd. generalize (l_fields L), (l_functions L). intros x y Hnd Hy Hx.
    induction x as [|z x IH]; [destruct Hx|]. cbn [app] in Hnd. inversion Hnd as [|? ? Hz Hr]; subst.
    destruct Hx as [->|Hx]; [|exact (IH Hr Hx)]. apply Hz, in_or_app. right. exact Hy.
  Qed.

  Lemma derived_not_field a b m n : cs = a ++ b -> run_calls new_mstate a = Ok m -> In n (pm_derived (ms_names m)) -> ~ In n (l_fields L).
  Proof.
    revert b m. induction a as [|c a IH] using rev_ind; intros b m E Hr Hn.
    { cbn [run_calls] in Hr. injection Hr as <-. destruct Hn. }
    apply run_calls_snoc in Hr. destruct Hr as (m1 & E1 & E2). rewrite <- app_assoc in E. cbn [app] in E.
    assert (T := tracked_run _ _ E1). assert (Hcin : In c cs) by (rewrite E; apply in_or_app; right; left; reflexivity).
    assert (Hfun : forall x, In x (match c with CFunction n => [n] | CTerm _ _ _ ds => ds | _ => [] end) -> ~ In x (l_fields L)).
    { intros x Hx. apply function_not_field. apply HDecl. unfold functions_of. apply in_flat_map. exists c. split; assumption. }
    specialize (IH (c :: b) m1 E E1).
    destruct c as [x|x|x|k x t ds|text|eq s|]; cbn [run_call] in E2.
    - unfold call_field, checked in E2. destruct (name_ok x); [|discriminate]. injection E2 as <-. apply IH, Hn.
    - unfold call_scalar, checked in E2. destruct (name_ok x); [|discriminate]. injection E2 as <-. apply IH, Hn.
    - unfold call_function, checked in E2. destruct (name_ok x); [|discriminate]. cbn [bind] in E2.
      destruct (pm_fields (ms_names m1)); [discriminate|]. injection E2 as <-. cbn [with_names ms_names add_derived pm_derived] in Hn.
      apply in_app_or in Hn. destruct Hn as [Hn|Hn]; [apply IH, Hn|apply Hfun, Hn].
    - unfold call_term, checked in E2. destruct (name_ok x); [|discriminate]. cbn [bind] in E2. injection E2 as <-. cbn [with_names ms_names] in Hn.
      destruct (register_names_spec ds (ms_names (RegistryModel.add_term k x t m1))) as (_ & _ & _ & _ & _ & _ & _ & A8).
      destruct (A8 n Hn) as [H|H]; [apply IH, H|apply Hfun, H].
    - unfold call_equation in E2. destruct (add_equation (ms_names m1) text) as [p| |] eqn:Ea; try discriminate. cbn [bind] in E2.
      injection E2 as <-. cbn [ms_names] in Hn. unfold add_equation, update_derived_fields in Ea.
      destruct (split_char "=" (strip_spaces text)) as [|l [|r ?]]; try discriminate.
      destruct (split_on_many r pm_signs) as [ps| |]; try discriminate. cbn [bind] in Ea.
      destruct (field_name_from_leibniz l) as [f| |]; try discriminate. cbn [bind] in Ea. injection Ea as <-.
      destruct (derived_loop_fresh _ _ _ _ Hn) as [H|H]; [apply IH, H|].
      rewrite (tk_fields _ _ T) in H. destruct (fields_done L cs HDecl HFirst a (CEquation text) b E I) as [HF _]. rewrite HF in H. exact H.
    - unfold call_source in E2. destruct (eq <? 0)%Z; [discriminate|]. destruct (append_at _ _ _); [|discriminate]. injection E2 as <-. apply IH, Hn.
    - unfold call_init in E2. destruct (build_all m1 _); try discriminate. cbn [bind] in E2. injection E2 as <-. apply IH, Hn.
  Qed.
End Names.
