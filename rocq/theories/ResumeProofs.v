(** Steps do not notice time if nothing depends on it, nor old values of
    derived fields; runs under Solve are runs of Propagate. *)
From Coq Require Import Reals Lia Lra.
From Verif Require Import ListAux FileModel StepProofs SolverProofs.
From Verif Require Import ResumeSpec.
From Verif Require Import Complex.
Open Scope R_scope.

(** ** Repeated steps *)
Fixpoint iter_step {S} (sp : stepper S) (n : nat) (s : S) : option S :=
  match n with
  | O => Some s
  | Datatypes.S n' => match st_step sp s with Some s' => iter_step sp n' s' | None => None end
  end.
Lemma iter_add {S} (sp : stepper S) a : forall b s, iter_step sp (a + b) s = match iter_step sp a s with Some s' => iter_step sp b s' | None => None end.
Proof. induction a as [|a IH]; intros b s; cbn [iter_step Nat.add]; [reflexivity|]. destruct (st_step sp s); [apply IH|reflexivity]. Qed.
Lemma solver_iter {S} (sp : stepper S) sv : forall n s, option_map fst (solver_propagate sp sv n s) = iter_step sp n s.
Proof.
  induction n as [|n IH]; intros s; cbn [solver_propagate iter_step]; [reflexivity|]. destruct (st_step sp s) as [s1|]; [|reflexivity].
  rewrite <- IH. destruct (solver_propagate sp sv n s1) as [[? ?]|]; reflexivity.
Qed.
Lemma solve_from_iter {S} (sp : stepper S) sv ns : forall ne i s, option_map fst (solve_from sp sv ne i ns s) = iter_step sp (ne * ns) s.
Proof.
  induction ne as [|ne IH]; intros i s; cbn [solve_from Nat.mul]; [reflexivity|]. rewrite iter_add, <- (solver_iter sp sv).
  destruct (solver_propagate sp sv ns s) as [[s1 tr]|]; cbn [option_map fst]; [|reflexivity].
  rewrite <- (IH (i + 1)%Z). destruct (solve_from sp sv ne (i + 1) ns s1) as [[? ?]|]; reflexivity.
Qed.
Lemma solve_iter {S} (sp : stepper S) sv ne ns s : option_map fst (solve sp sv ne ns s) = iter_step sp (ne * ns) s.
Proof. apply solve_from_iter. Qed.
Lemma solve_of_iter {S} (sp : stepper S) sv ne ns s s' : iter_step sp (ne * ns) s = Some s' -> exists tr, solve sp sv ne ns s = Some (s', tr).
Proof. intros H. rewrite <- (solve_iter sp sv) in H. destruct (solve sp sv ne ns s) as [[s1 tr]|]; [|discriminate]. injection H as ->. exists tr. reflexivity. Qed.
Lemma iter_of_solve {S} (sp : stepper S) sv ne ns s s' tr : solve sp sv ne ns s = Some (s', tr) -> iter_step sp (ne * ns) s = Some s'.
Proof. intros H. rewrite <- (solve_iter sp sv), H. reflexivity. Qed.

Lemma euler_iter p ft filt dt : forall n e k, iter_step (euler_stepper p ft filt dt) n (e, k) = euler_propagate p ft filt dt n k e.
Proof.
  induction n as [|n IH]; intros e k; cbn [iter_step euler_propagate]; [reflexivity|]. cbn [st_step euler_stepper fst snd].
  destruct (euler_step p ft filt dt (time_of dt k) e); [apply IH|reflexivity].
Qed.

(** ** Two simulations that do the same at two times *)
Record alike (p : pde) (t : R) (p' : pde) (t' : R) : Prop := {
  al_calc : p_calc p = p_calc p';
  al_rhs : forall e i n, get_rhs p e i t n = get_rhs p' e i t' n;
  al_denum : forall e i n, get_denum p e i t n = get_denum p' e i t' n
}.
Section Alike.
  Variables (p p' : pde) (t t' : R).
  Hypothesis A : alike p t p' t'.
  Lemma al_sync e : sync p e = sync p' e.
  Proof. unfold sync. rewrite (al_calc _ _ _ _ A). reflexivity. Qed.
  Lemma al_euler_fields ft filt dt : forall todo i e, euler_fields p ft filt dt t todo i e = euler_fields p' ft filt dt t' todo i e.
  Proof.
    induction todo as [|todo IH]; intros i e; cbn [euler_fields]; [reflexivity|]. destruct (nth_error (e_fields e) i) as [d|]; [|reflexivity].
    rewrite (al_rhs _ _ _ _ A), (al_denum _ _ _ _ A). destruct (get_rhs p' e i t' (length d)); [|reflexivity]. destruct (get_denum p' e i t' (length d)); [apply IH|reflexivity].
  Qed.
  Lemma al_euler_step ft filt dt e : euler_step p ft filt dt t e = euler_step p' ft filt dt t' e.
  Proof. unfold euler_step. rewrite al_sync. rewrite al_euler_fields. reflexivity. Qed.
  Lemma al_rhs_all e : forall fs i, rhs_all p e t i fs = rhs_all p' e t' i fs.
  Proof. induction fs as [|d fs IH]; intros i; cbn [rhs_all]; [reflexivity|]. rewrite (al_rhs _ _ _ _ A), IH. reflexivity. Qed.
  Lemma al_stage ft h k : forall todo i e, stage_fields p ft h t todo i k e = stage_fields p' ft h t' todo i k e.
  Proof.
    induction todo as [|todo IH]; intros i e; cbn [stage_fields]; [reflexivity|]. destruct (nth_error (e_fields e) i) as [d|]; [|reflexivity].
    destruct (nth_error k i); [|reflexivity]. rewrite (al_denum _ _ _ _ A). destruct (get_denum p' e i t' (length d)); [apply IH|reflexivity].
  Qed.
  Lemma al_correction ft h k e : correction p ft h t k e = correction p' ft h t' k e.
  Proof. unfold correction. rewrite al_stage. destruct (stage_fields p' ft h t' (length (e_fields e)) 0 k e) as [e1|]; [|reflexivity]. rewrite al_sync. cbv zeta. rewrite al_rhs_all. reflexivity. Qed.
  Lemma al_finish ft filt dt final : forall todo i e, finish_fields p ft filt dt t todo i final e = finish_fields p' ft filt dt t' todo i final e.
  Proof.
    induction todo as [|todo IH]; intros i e; cbn [finish_fields]; [reflexivity|]. destruct (nth_error (e_fields e) i) as [d|]; [|reflexivity].
    destruct (nth_error final i); [|reflexivity]. rewrite (al_denum _ _ _ _ A). destruct (get_denum p' e i t' (length d)); [apply IH|reflexivity].
  Qed.
  Lemma al_rk4_step ft filt dt e : rk4_step p ft filt dt t e = rk4_step p' ft filt dt t' e.
  Proof.
    unfold rk4_step. rewrite al_sync. cbv zeta. rewrite al_rhs_all. destruct (rhs_all p' _ t' 0 _) as [k1|]; [|reflexivity].
    rewrite al_correction. destruct (correction p' ft (1 / 2 * dt) t' k1 _) as [[e3 k2]|]; [|reflexivity].
    rewrite al_correction. destruct (correction p' ft (1 / 2 * dt) t' k2 _) as [[e4 k3]|]; [|reflexivity].
    rewrite al_correction. destruct (correction p' ft (1 * dt) t' k3 _) as [[e5 k4]|]; [|reflexivity].
    rewrite al_finish. reflexivity.
  Qed.
End Alike.

(** ** Simulations with two libraries *)
Section Libraries.
  Variables (n : nat) (ft : transform) (m : mstate) (lib lib' : library) (t t' : R).
  Hypothesis Hpow : lb_pow lib = lb_pow lib'.
  Hypothesis Hscalar : lb_scalar lib = lb_scalar lib'.
  Hypothesis Hcalc : lb_calc lib = lb_calc lib'.
  Hypothesis Hpure : forall s E, lb_pure lib s E t = lb_pure lib' s E t'.
  Hypothesis Hlinear : forall s E, lb_linear lib s E t = lb_linear lib' s E t'.
  Hypothesis Hnonlinear : forall s E, lb_nonlinear lib s E t = lb_nonlinear lib' s E t'.
  Hypothesis Hsource : forall s, lb_source lib s t = lb_source lib' s t'.

  Let f := entry_term n ft lib (ms_names m).
  Let f' := entry_term n ft lib' (ms_names m).
  Let g : nat -> source := fun s t _ => lb_source lib s t.
  Let g' : nat -> source := fun s t _ => lb_source lib' s t.

  Lemma entry_alike en e tmp : f en e t tmp = f' en e t' tmp.
  Proof.
    unfold f, f', entry_term. apply map_ext. intros k. rewrite Hpow. unfold eval_entry, brick_at. rewrite Hscalar.
    destruct en as [b u]. destruct u; destruct b; cbn; rewrite ?Hpure, ?Hlinear, ?Hnonlinear; reflexivity.
  Qed.
  Lemma terms_alike e : forall l st, fold_left (add_term e t) (map f l) st = fold_left (add_term e t') (map f' l) st.
  Proof. induction l as [|x l IH]; intros st; cbn [map fold_left]; [reflexivity|]. rewrite <- IH. f_equal. unfold add_term. rewrite entry_alike. reflexivity. Qed.
  Lemma sources_alike : forall l st, fold_left (add_source t) (map g l) st = fold_left (add_source t') (map g' l) st.
  Proof. induction l as [|x l IH]; intros st; cbn [map fold_left]; [reflexivity|]. rewrite <- IH. f_equal. unfold add_source, g, g'. rewrite Hsource. reflexivity. Qed.
  Lemma equations_alike : forall ts ss i,
    match nth_error (equations_with ts ss f g) i, nth_error (equations_with ts ss f' g') i with
    | Some q, Some q' => exists a b c, q = {| q_terms := map f a; q_denum := map f b; q_sources := map g c |} /\ q' = {| q_terms := map f' a; q_denum := map f' b; q_sources := map g' c |}
    | None, None => True
    | _, _ => False
    end.
  Proof.
    induction ts as [|[a b] ts IH]; intros ss i; cbn [equations_with]; [destruct i; exact I|]. destruct i as [|i]; cbn [nth_error]; [do 3 eexists; split; reflexivity|apply IH].
  Qed.
  Lemma simulations_alike : alike (simulation n ft lib m) t (simulation n ft lib' m) t'.
  Proof.
    constructor.
    - unfold simulation. cbn [p_calc]. apply map_ext. intros name. unfold calc_of. rewrite Hcalc, Hpow. reflexivity.
    - intros e i k. unfold get_rhs, simulation. cbn [p_eqns p_mods]. pose proof (equations_alike (ms_rhs m) (ms_sources m) i) as H.
      fold f f' g g'. destruct (nth_error (equations_with _ _ f g) i), (nth_error (equations_with _ _ f' g') i); try contradiction; [|reflexivity].
      destruct H as (a & b & c & -> & ->). cbn [q_terms q_sources]. rewrite terms_alike, sources_alike. reflexivity.
    - intros e i k. unfold get_denum, simulation. cbn [p_eqns]. pose proof (equations_alike (ms_rhs m) (ms_sources m) i) as H.
      fold f f' g g'. destruct (nth_error (equations_with _ _ f g) i), (nth_error (equations_with _ _ f' g') i); try contradiction; [|reflexivity].
      destruct H as (a & b & c & -> & ->). cbn [q_denum]. rewrite terms_alike. reflexivity.
  Qed.
End Libraries.
Lemma timeless_alike n ft m lib t t' : timeless lib -> alike (simulation n ft lib m) t (simulation n ft lib m) t'.
Proof. intros [H1 H2 H3 H4]. apply simulations_alike; try reflexivity; intros; auto. Qed.
Lemma frozen_alike n ft m lib t0 t : alike (simulation n ft lib m) t0 (simulation n ft (frozen t0 lib) m) t.
Proof. apply simulations_alike; reflexivity. Qed.

(** ** Old values of derived fields do not matter *)
Lemma set_nth_here {A} (x y : A) : forall a b, set_nth (length a) x (a ++ y :: b) = a ++ x :: b.
Proof. induction a as [|z a IH]; intros b; cbn [set_nth length app]; [reflexivity|]. rewrite IH. reflexivity. Qed.
Lemma sync_overwrites fs : forall calcs, (forall c e e', In c calcs -> e_fields e = e_fields e' -> c e = c e') ->
  forall a b, length b = length calcs ->
  sync_from (length a) calcs {| e_fields := fs; e_derived := a ++ b |}
  = {| e_fields := fs; e_derived := a ++ map (fun c => c {| e_fields := fs; e_derived := [] |}) calcs |}.
Proof.
  induction calcs as [|c calcs IH]; intros Hc a b Hb; (destruct b as [|y b]; [|try discriminate]); cbn [sync_from map]; [reflexivity|discriminate|].
  unfold set_derived. cbn [e_fields e_derived]. rewrite set_nth_here.
  rewrite (Hc c {| e_fields := fs; e_derived := a ++ y :: b |} {| e_fields := fs; e_derived := [] |} (or_introl eq_refl) eq_refl).
  set (v := c {| e_fields := fs; e_derived := [] |}). replace (a ++ v :: b) with ((a ++ [v]) ++ b) by (rewrite <- app_assoc; reflexivity).
  replace (S (length a)) with (length (a ++ [v])) by (rewrite app_length; cbn [length]; lia).
  rewrite IH; [|intros c' e e' Hin; apply Hc; right; exact Hin|cbn [length] in Hb; lia]. rewrite <- app_assoc. reflexivity.
Qed.
Section Derived.
  Variables (n : nat) (ft : transform) (m : mstate) (lib : library).
  Let p := simulation n ft lib m.
  Definition slots (e : env) : Prop := length (e_derived e) = length (pm_derived (ms_names m)).
  Lemma sync_forgets e e' : slots e -> slots e' -> e_fields e = e_fields e' -> sync p e = sync p e'.
  Proof.
    intros H H' E. destruct e as [fs ds], e' as [fs' ds']. cbn [e_fields] in E. subst fs'. unfold slots in H, H'. cbn [e_derived] in H, H'. unfold sync.
    assert (Hc : forall c e e', In c (p_calc p) -> e_fields e = e_fields e' -> c e = c e').
    { intros c e e' Hin He. unfold p, simulation in Hin. cbn [p_calc] in Hin. apply in_map_iff in Hin. destruct Hin as (name & <- & _). unfold calc_of. rewrite He. reflexivity. }
    assert (Hl : length (p_calc p) = length (pm_derived (ms_names m))) by (unfold p, simulation; cbn [p_calc]; apply map_length).
    rewrite (sync_overwrites fs (p_calc p) Hc [] ds ltac:(lia) : sync_from 0 (p_calc p) {| e_fields := fs; e_derived := ds |} = _).
    rewrite (sync_overwrites fs (p_calc p) Hc [] ds' ltac:(lia) : sync_from 0 (p_calc p) {| e_fields := fs; e_derived := ds' |} = _). reflexivity.
  Qed.
  Lemma euler_forgets filt dt t e e' : slots e -> slots e' -> e_fields e = e_fields e' -> euler_step p ft filt dt t e = euler_step p ft filt dt t e'.
  Proof. intros H H' E. unfold euler_step. rewrite (sync_forgets e e' H H' E), E. reflexivity. Qed.
  Lemma rk4_forgets filt dt t e e' : slots e -> slots e' -> e_fields e = e_fields e' -> rk4_step p ft filt dt t e = rk4_step p ft filt dt t e'.
  Proof. intros H H' E. unfold rk4_step. rewrite (sync_forgets e e' H H' E). reflexivity. Qed.

  Lemma sync_slots e : slots e -> slots (sync p e).
  Proof. intros H. unfold slots, sync. rewrite sync_from_count. exact H. Qed.
  Lemma euler_fields_derived filt dt t : forall todo i e e', euler_fields p ft filt dt t todo i e = Some e' -> e_derived e' = e_derived e.
  Proof.
    induction todo as [|todo IH]; intros i e e' H; cbn [euler_fields] in H; [injection H as <-; reflexivity|].
    destruct (nth_error (e_fields e) i) as [d|]; [|discriminate]. destruct (get_rhs p e i t (length d)); [|discriminate]. destruct (get_denum p e i t (length d)); [|discriminate].
    rewrite (IH _ _ _ H). reflexivity.
  Qed.
  Lemma euler_slots filt dt t e e' : slots e -> euler_step p ft filt dt t e = Some e' -> slots e'.
  Proof.
    intros H E. unfold euler_step in E. destruct (euler_fields _ _ _ _ _ _ _ _) as [e3|] eqn:E3; [|discriminate]. injection E as <-.
    unfold slots. cbn [e_derived]. rewrite (euler_fields_derived _ _ _ _ _ _ _ E3). cbn [e_derived]. rewrite map_length. exact (sync_slots e H).
  Qed.
  Lemma stage_derived h t k : forall todo i e e', stage_fields p ft h t todo i k e = Some e' -> e_derived e' = e_derived e.
  Proof.
    induction todo as [|todo IH]; intros i e e' H; cbn [stage_fields] in H; [injection H as <-; reflexivity|].
    destruct (nth_error (e_fields e) i) as [d|]; [|discriminate]. destruct (nth_error k i); [|discriminate]. destruct (get_denum p e i t (length d)); [|discriminate].
    rewrite (IH _ _ _ H). reflexivity.
  Qed.
  Lemma finish_derived filt dt t final : forall todo i e e', finish_fields p ft filt dt t todo i final e = Some e' -> e_derived e' = e_derived e.
  Proof.
    induction todo as [|todo IH]; intros i e e' H; cbn [finish_fields] in H; [injection H as <-; reflexivity|].
    destruct (nth_error (e_fields e) i) as [d|]; [|discriminate]. destruct (nth_error final i); [|discriminate]. destruct (get_denum p e i t (length d)); [|discriminate].
    rewrite (IH _ _ _ H). reflexivity.
  Qed.
  Lemma correction_slots h t k e e' k' : slots e -> correction p ft h t k e = Some (e', k') -> slots e'.
  Proof.
    intros H E. unfold correction in E. destruct (stage_fields _ _ _ _ _ _ _ _) as [e1|] eqn:E1; [|discriminate]. cbv zeta in E.
    destruct (rhs_all _ _ _ _ _); [|discriminate]. injection E as <- _. unfold slots. cbn [e_derived]. rewrite map_length. apply sync_slots.
    unfold slots. rewrite (stage_derived _ _ _ _ _ _ _ E1). exact H.
  Qed.
  Lemma rk4_slots filt dt t e e' : slots e -> rk4_step p ft filt dt t e = Some e' -> slots e'.
  Proof.
    intros H E. unfold rk4_step in E. cbv zeta in E. set (e2 := {| e_fields := map (fft ft) (e_fields (sync p e)); e_derived := map (fft ft) (e_derived (sync p e)) |}) in E.
    assert (H2 : slots e2) by (unfold slots, e2; cbn [e_derived]; rewrite map_length; exact (sync_slots e H)).
    destruct (rhs_all p e2 t 0 _) as [k1|]; [|discriminate].
    destruct (correction _ _ (1 / 2 * dt) _ k1 _) as [[e3 k2]|] eqn:E3; [|discriminate]. apply correction_slots in E3; [|exact H2].
    destruct (correction _ _ (1 / 2 * dt) _ k2 _) as [[e4 k3]|] eqn:E4; [|discriminate]. apply correction_slots in E4; [|exact E3].
    destruct (correction _ _ (1 * dt) _ k3 _) as [[e5 k4]|] eqn:E5; [|discriminate]. apply correction_slots in E5; [|exact E4].
    destruct (finish_fields _ _ _ _ _ _ _ _ _) as [e6|] eqn:E6; [|discriminate]. injection E as <-. unfold slots. cbn [e_derived].
    rewrite (finish_derived _ _ _ _ _ _ _ _ E6). exact E5.
  Qed.
End Derived.
