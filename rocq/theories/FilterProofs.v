(** Lemmas for C116. *)
From Verif Require Import ListAux StepProofs ConserveProofs FilterSpec ImplicitModel.
From Coq Require Import Reals Lia Lra.
From Verif Require Import Complex.
Open Scope R_scope.

Lemma mapi_nth (f : nat -> C -> C) : forall d i k, (k < length d)%nat -> nth k (mapi_from i f d) C0 = f (i + k)%nat (nth k d C0).
Proof.
  induction d as [|z d IH]; intros i k Hk; cbn [length] in Hk; [lia|]. destruct k as [|k]; cbn [mapi_from nth]; [f_equal; lia|].
  rewrite IH by lia. f_equal. lia.
Qed.
Lemma filter_nth g ft d k : nth k (apply_filter (Some g) ft d) C0 = Cmul (nth k d C0) (RtoC (gain g ft k)).
Proof.
  destruct (Nat.lt_ge_cases k (length d)) as [H|H].
  - unfold apply_filter. rewrite mapi_nth by exact H. reflexivity.
  - rewrite !nth_overflow; [ring|exact H|rewrite apply_filter_length; exact H].
Qed.
Lemma filter_ext n ft filt filt' : (forall k, (k < n)%nat -> match filt with Some g => gain g ft k | None => 1 end = match filt' with Some g => gain g ft k | None => 1 end) ->
  forall d, length d = n -> apply_filter filt ft d = apply_filter filt' ft d.
Proof.
  intros H d Hd. apply (nth_ext _ _ C0 C0); [rewrite !apply_filter_length; reflexivity|]. intros k Hk. rewrite apply_filter_length, Hd in Hk. specialize (H k Hk).
  destruct filt as [g|], filt' as [g'|]; [| | |reflexivity].
  - rewrite !filter_nth, H. reflexivity.
  - rewrite filter_nth, H. change (RtoC 1) with C1. change (apply_filter None ft d) with d. ring.
  - rewrite filter_nth, <- H. change (RtoC 1) with C1. change (apply_filter None ft d) with d. ring.
Qed.
Lemma filtered_apply g ft n d : good_transform n ft -> length d = n -> filtered g ft n (to_real ft d) = to_real ft (apply_filter (Some g) ft d).
Proof.
  intros GT Hd. unfold filtered. rewrite (gt_inverse n ft GT d Hd). f_equal. apply (nth_ext _ _ C0 C0); [rewrite apply_filter_length, map_length, seq_length; auto|].
  intros k Hk. rewrite map_length, seq_length in Hk. rewrite filter_nth. rewrite (nth_indep _ C0 (Cmul (RtoC (gain g ft 0)) (nth 0 d C0))) by (rewrite map_length, seq_length; exact Hk).
  rewrite (map_nth (fun k => Cmul (RtoC (gain g ft k)) (nth k d C0)) (seq 0 n) 0%nat k), seq_nth by exact Hk. cbn [plus]. ring.
Qed.

Section Lengths.
  Variables (n : nat) (p : pde) (ft : transform) (dt : R).
  Hypothesis GT : good_transform n ft.
  Hypothesis KL : keeps_length n p.

  Lemma set_all_length l i d : all_length n l -> length d = n -> all_length n (set_nth i d l).
  Proof. unfold all_length. intros H Hd. revert i. induction H as [|x l Hx H IH]; intros [|i]; cbn [set_nth]; constructor; auto. Qed.
  Lemma map2_all (f : C -> C -> C) fs ks : all_length n fs -> all_length n ks -> all_length n (map2 (map2 f) fs ks).
  Proof. intros H. revert ks. induction H as [|x l Hx H IH]; intros [|k ks] Hk; cbn [map2]; [constructor..|]. inversion Hk; subst. constructor; [apply map2_length; congruence|apply IH; assumption]. Qed.

  (** Agreement of filters on the modes is enough. *)
  Section Same.
    Variables filt filt' : option (R -> R).
    Hypothesis HG : forall k, (k < n)%nat -> match filt with Some g => gain g ft k | None => 1 end = match filt' with Some g => gain g ft k | None => 1 end.

    Lemma euler_fields_all f t : forall todo i e e', euler_fields p ft f dt t todo i e = Some e' -> all_length n (e_fields e) -> all_length n (e_fields e').
    Proof.
      induction todo as [|todo IH]; intros i e e' H Hl; cbn [euler_fields] in H; [injection H as <-; exact Hl|].
      destruct (nth_error (e_fields e) i) as [d|] eqn:Ed; [|discriminate]. pose proof (all_length_nth n _ _ _ Hl Ed) as Ld. rewrite Ld in H.
      destruct (get_rhs p e i t n) as [r|] eqn:Er; [|discriminate]. destruct (get_denum p e i t n) as [a|] eqn:Ea; [|discriminate].
      apply IH in H; [exact H|]. apply set_all_length; [exact Hl|]. rewrite apply_filter_length. apply map3_length; [exact Ld|exact (get_rhs_length n p e i t r KL Er)|exact (get_denum_length n p e i t a KL Ea)].
    Qed.
    Lemma euler_fields_same t : forall todo i e, all_length n (e_fields e) -> euler_fields p ft filt dt t todo i e = euler_fields p ft filt' dt t todo i e.
    Proof.
      induction todo as [|todo IH]; intros i e Hl; cbn [euler_fields]; [reflexivity|]. destruct (nth_error (e_fields e) i) as [d|] eqn:Ed; [|reflexivity].
      pose proof (all_length_nth n _ _ _ Hl Ed) as Ld. rewrite Ld. destruct (get_rhs p e i t n) as [r|] eqn:Er; [|reflexivity]. destruct (get_denum p e i t n) as [a|] eqn:Ea; [|reflexivity].
      assert (Lu : length (map3 (semi_implicit dt) d r a) = n) by (apply map3_length; [exact Ld|exact (get_rhs_length n p e i t r KL Er)|exact (get_denum_length n p e i t a KL Ea)]).
      rewrite (filter_ext n ft filt filt' HG _ Lu). apply IH. apply set_all_length; [exact Hl|]. rewrite apply_filter_length. exact Lu.
    Qed.
    Lemma euler_step_same t e : all_length n (e_fields e) -> euler_step p ft filt dt t e = euler_step p ft filt' dt t e.
    Proof. intros Hl. unfold euler_step. rewrite sync_fields. rewrite euler_fields_same; [reflexivity|]. apply (spectrum_length n ft GT e Hl). Qed.
    Lemma euler_step_all f t e e' : euler_step p ft f dt t e = Some e' -> all_length n (e_fields e) -> all_length n (e_fields e').
    Proof.
      unfold euler_step. rewrite sync_fields. intros H Hl. destruct (euler_fields p ft f dt t (length (e_fields e)) 0 _) as [e3|] eqn:E; [|discriminate]. injection H as <-. cbn [e_fields].
      apply (real_length n ft GT). apply (euler_fields_all _ _ _ _ _ _ E). apply (spectrum_length n ft GT e Hl).
    Qed.
    Lemma euler_run_same : forall nsteps step e, all_length n (e_fields e) -> euler_propagate p ft filt dt nsteps step e = euler_propagate p ft filt' dt nsteps step e.
    Proof.
      induction nsteps as [|m IH]; intros step e Hl; cbn [euler_propagate]; [reflexivity|]. rewrite (euler_step_same _ e Hl).
      destruct (euler_step p ft filt' dt (time_of dt step) e) as [e'|] eqn:E; [|reflexivity]. apply IH, (euler_step_all _ _ _ _ E Hl).
    Qed.

    Lemma rhs_all_all e t : forall fs i ks, all_length n fs -> rhs_all p e t i fs = Some ks -> all_length n ks.
    Proof.
      induction fs as [|d fs IH]; intros i ks Hl H; cbn [rhs_all] in H; [injection H as <-; constructor|]. pose proof (Forall_inv Hl) as Ld. apply Forall_inv_tail in Hl. cbv beta in Ld. rewrite Ld in H.
      destruct (get_rhs p e i t n) as [r|] eqn:Er; [|discriminate]. destruct (rhs_all p e t (S i) fs) as [rs|] eqn:E; [|discriminate]. injection H as <-.
      constructor; [exact (get_rhs_length n p e i t r KL Er)|exact (IH _ _ Hl E)].
    Qed.
    Lemma stage_all h t k : all_length n k -> forall todo i e e', stage_fields p ft h t todo i k e = Some e' -> all_length n (e_fields e) -> all_length n (e_fields e').
    Proof.
      intros Hk. induction todo as [|todo IH]; intros i e e' H Hl; cbn [stage_fields] in H; [injection H as <-; exact Hl|].
      destruct (nth_error (e_fields e) i) as [d|] eqn:Ed; [|discriminate]. destruct (nth_error k i) as [ki|] eqn:Ek; [|discriminate].
      pose proof (all_length_nth n _ _ _ Hl Ed) as Ld. rewrite Ld in H. destruct (get_denum p e i t n) as [a|] eqn:Ea; [|discriminate].
      apply IH in H; [exact H|]. apply set_all_length; [exact Hl|]. apply (to_real_length n ft GT). apply map3_length; [exact Ld|exact (all_length_nth n _ _ _ Hk Ek)|exact (get_denum_length n p e i t a KL Ea)].
    Qed.
    Lemma correction_all h t k e e' k' : correction p ft h t k e = Some (e', k') -> all_length n k -> all_length n (e_fields e) -> all_length n k'.
    Proof.
      unfold correction. intros H Hk Hl. destruct (stage_fields p ft h t _ 0 k e) as [e1|] eqn:E; [|discriminate]. rewrite sync_fields in H.
      destruct (rhs_all p _ t 0 _) as [ks|] eqn:Er; [|discriminate]. injection H as _ <-. apply (rhs_all_all _ _ _ _ _ (spectrum_length n ft GT e1 (stage_all _ _ _ Hk _ _ _ _ E Hl)) Er).
    Qed.
    Lemma finish_same t final : all_length n final -> forall todo i e, all_length n (e_fields e) -> finish_fields p ft filt dt t todo i final e = finish_fields p ft filt' dt t todo i final e.
    Proof.
      intros Hf. induction todo as [|todo IH]; intros i e Hl; cbn [finish_fields]; [reflexivity|].
      destruct (nth_error (e_fields e) i) as [d|] eqn:Ed; [|reflexivity]. destruct (nth_error final i) as [fi|] eqn:Ef; [|reflexivity].
      pose proof (all_length_nth n _ _ _ Hl Ed) as Ld. rewrite Ld. destruct (get_denum p e i t n) as [a|] eqn:Ea; [|reflexivity].
      match goal with |- context [map2 ?f fi a] => assert (Lu : length (map2 f fi a) = n) by (apply map2_length; [exact (all_length_nth n _ _ _ Hf Ef)|exact (get_denum_length n p e i t a KL Ea)]) end.
      rewrite (filter_ext n ft filt filt' HG _ Lu). apply IH. apply set_all_length; [exact Hl|]. rewrite apply_filter_length. exact Lu.
    Qed.
    Lemma finish_all f t final : all_length n final -> forall todo i e e', finish_fields p ft f dt t todo i final e = Some e' -> all_length n (e_fields e) -> all_length n (e_fields e').
    Proof.
      intros Hf. induction todo as [|todo IH]; intros i e e' H Hl; cbn [finish_fields] in H; [injection H as <-; exact Hl|].
      destruct (nth_error (e_fields e) i) as [d|] eqn:Ed; [|discriminate]. destruct (nth_error final i) as [fi|] eqn:Ef; [|discriminate].
      pose proof (all_length_nth n _ _ _ Hl Ed) as Ld. rewrite Ld in H. destruct (get_denum p e i t n) as [a|] eqn:Ea; [|discriminate].
      apply IH in H; [exact H|]. apply set_all_length; [exact Hl|]. rewrite apply_filter_length. apply map2_length; [exact (all_length_nth n _ _ _ Hf Ef)|exact (get_denum_length n p e i t a KL Ea)].
    Qed.
  End Same.

  (** The part of an RK4 step before the filter. *)
  Definition rk4_before (t : R) (e : env) : option (list data * env) :=
    let e1 := sync p e in
    let init := map (fft ft) (e_fields e1) in
    let e2 := {| e_fields := init; e_derived := map (fft ft) (e_derived e1) |} in
    match rhs_all p e2 t 0 init with
    | None => None
    | Some k1 =>
        match correction p ft (1 / 2 * dt) t k1 (with_fields e2 init) with
        | None => None
        | Some (e3, k2) =>
            match correction p ft (1 / 2 * dt) t k2 (with_fields e3 init) with
            | None => None
            | Some (e4, k3) =>
                match correction p ft (1 * dt) t k3 (with_fields e4 init) with
                | None => None
                | Some (e5, k4) => Some (accumulate (1 / 6 * dt) (accumulate (1 / 3 * dt) (accumulate (1 / 3 * dt) (accumulate (1 / 6 * dt) init k1) k2) k3) k4, with_fields e5 init)
                end
            end
        end
    end.
  Lemma rk4_step_before filt t e : rk4_step p ft filt dt t e = match rk4_before t e with None => None | Some (final, e5) =>
    match finish_fields p ft filt dt t (length (e_fields e)) 0 final e5 with None => None | Some e6 => Some {| e_fields := map (to_real ft) (e_fields e6); e_derived := e_derived e6 |} end end.
  Proof.
    unfold rk4_step, rk4_before. rewrite sync_fields, map_length. destruct (rhs_all p _ t 0 _) as [k1|]; [|reflexivity].
    destruct (correction p ft (1 / 2 * dt) t k1 _) as [[e3 k2]|]; [|reflexivity]. destruct (correction p ft (1 / 2 * dt) t k2 _) as [[e4 k3]|]; [|reflexivity].
    destruct (correction p ft (1 * dt) t k3 _) as [[e5 k4]|]; reflexivity.
  Qed.
  Lemma rk4_before_all t e final e5 : rk4_before t e = Some (final, e5) -> all_length n (e_fields e) -> all_length n final /\ all_length n (e_fields e5) /\ length (e_fields e5) = length (e_fields e).
  Proof.
    unfold rk4_before. rewrite sync_fields. intros H Hl. assert (HI := spectrum_length n ft GT e Hl).
    destruct (rhs_all p _ t 0 _) as [k1|] eqn:E1; [|discriminate]. assert (K1 : all_length n k1) by (eapply rhs_all_all; eassumption).
    destruct (correction p ft (1 / 2 * dt) t k1 _) as [[e3 k2]|] eqn:E2; [|discriminate]. assert (K2 : all_length n k2) by (eapply correction_all; [exact E2|exact K1|exact HI]).
    destruct (correction p ft (1 / 2 * dt) t k2 _) as [[e4 k3]|] eqn:E3; [|discriminate]. assert (K3 : all_length n k3) by (eapply correction_all; [exact E3|exact K2|exact HI]).
    destruct (correction p ft (1 * dt) t k3 _) as [[e5' k4]|] eqn:E4; [|discriminate]. assert (K4 : all_length n k4) by (eapply correction_all; [exact E4|exact K3|exact HI]).
    injection H as <- <-. split; [|split; [exact HI|apply map_length]]. unfold accumulate. apply map2_all; [apply map2_all; [apply map2_all; [apply map2_all|]|]|]; assumption.
  Qed.
  Lemma rk4_step_same filt filt' t e : (forall k, (k < n)%nat -> match filt with Some g => gain g ft k | None => 1 end = match filt' with Some g => gain g ft k | None => 1 end) ->
    all_length n (e_fields e) -> rk4_step p ft filt dt t e = rk4_step p ft filt' dt t e.
  Proof.
    intros HG Hl. rewrite !rk4_step_before. destruct (rk4_before t e) as [[final e5]|] eqn:E; [|reflexivity]. destruct (rk4_before_all _ _ _ _ E Hl) as (H1 & H2 & _).
    rewrite (finish_same filt filt' HG t final H1 _ _ e5 H2). reflexivity.
  Qed.
  Lemma rk4_step_all f t e e' : rk4_step p ft f dt t e = Some e' -> all_length n (e_fields e) -> all_length n (e_fields e').
  Proof.
    rewrite rk4_step_before. intros H Hl. destruct (rk4_before t e) as [[final e5]|] eqn:E; [|discriminate]. destruct (rk4_before_all _ _ _ _ E Hl) as (H1 & H2 & _).
    destruct (finish_fields p ft f dt t _ 0 final e5) as [e6|] eqn:E6; [|discriminate]. injection H as <-. apply (real_length n ft GT). apply (finish_all _ _ _ H1 _ _ _ _ E6 H2).
  Qed.
  Lemma rk4_run_same filt filt' : (forall k, (k < n)%nat -> match filt with Some g => gain g ft k | None => 1 end = match filt' with Some g => gain g ft k | None => 1 end) ->
    forall nsteps step e, all_length n (e_fields e) -> rk4_propagate p ft filt dt nsteps step e = rk4_propagate p ft filt' dt nsteps step e.
  Proof.
    intros HG. induction nsteps as [|m IH]; intros step e Hl; cbn [rk4_propagate]; [reflexivity|]. rewrite (rk4_step_same filt filt' _ e HG Hl).
    destruct (rk4_step p ft filt' dt (time_of dt step) e) as [e'|] eqn:E; [|reflexivity]. apply IH, (rk4_step_all _ _ _ _ E Hl).
  Qed.

  (** Modes with the factor 0. *)
  Section Removed.
    Variables (g : R -> R) (k : nat).
    Hypothesis Hk : gain g ft k = 0.
    Definition clean (i : nat) (fs : list data) : Prop := forall j d, (j < i)%nat -> nth_error fs j = Some d -> nth k d C0 = C0.
    Lemma clean_set i fs d : clean i fs -> (i < length fs)%nat -> clean (S i) (set_nth i (apply_filter (Some g) ft d) fs).
    Proof.
      intros H Hi j x Hj Hx. destruct (Nat.eq_dec i j) as [<-|Hne].
      - rewrite nth_error_set_nth_eq in Hx by exact Hi. replace x with (apply_filter (Some g) ft d) by congruence. rewrite filter_nth, Hk. change (RtoC 0) with C0. ring.
      - rewrite nth_error_set_nth_neq in Hx by exact Hne. apply (H j x); [lia|exact Hx].
    Qed.
    Lemma euler_clean t : forall todo i e e', euler_fields p ft (Some g) dt t todo i e = Some e' -> clean i (e_fields e) -> clean (i + todo) (e_fields e').
    Proof.
      induction todo as [|todo IH]; intros i e e' H Hc; cbn [euler_fields] in H; [injection H as <-; rewrite Nat.add_0_r; exact Hc|].
      destruct (nth_error (e_fields e) i) as [d|] eqn:Ed; [|discriminate]. destruct (get_rhs p e i t (length d)) as [r|]; [|discriminate]. destruct (get_denum p e i t (length d)) as [a|]; [|discriminate].
      apply IH in H; [rewrite Nat.add_succ_r; exact H|]. cbn [set_field e_fields]. apply clean_set; [exact Hc|]. apply nth_error_Some. congruence.
    Qed.
    Lemma finish_clean t final : forall todo i e e', finish_fields p ft (Some g) dt t todo i final e = Some e' -> clean i (e_fields e) -> clean (i + todo) (e_fields e') /\ length (e_fields e') = length (e_fields e).
    Proof.
      induction todo as [|todo IH]; intros i e e' H Hc; cbn [finish_fields] in H; [injection H as <-; rewrite Nat.add_0_r; split; [exact Hc|reflexivity]|].
      destruct (nth_error (e_fields e) i) as [d|] eqn:Ed; [|discriminate]. destruct (nth_error final i) as [fi|]; [|discriminate]. destruct (get_denum p e i t (length d)) as [a|]; [|discriminate].
      apply IH in H; [rewrite Nat.add_succ_r; cbn [set_field e_fields] in H; rewrite set_nth_length in H; exact H|]. cbn [set_field e_fields]. apply clean_set; [exact Hc|]. apply nth_error_Some. congruence.
    Qed.
    Lemma clean_real fs : all_length n fs -> clean (length fs) fs -> forall d, In d (map (to_real ft) fs) -> nth k (fft ft d) C0 = C0.
    Proof.
      intros Hl Hc d Hd. apply in_map_iff in Hd. destruct Hd as (x & <- & Hx). unfold all_length in Hl. rewrite Forall_forall in Hl. rewrite (gt_inverse n ft GT) by (apply Hl; exact Hx).
      apply In_nth_error in Hx. destruct Hx as (j & Hj). apply (Hc j x); [apply nth_error_Some; congruence|exact Hj].
    Qed.
    Lemma euler_step_removed t e e' : all_length n (e_fields e) -> euler_step p ft (Some g) dt t e = Some e' -> forall d, In d (e_fields e') -> nth k (fft ft d) C0 = C0.
    Proof.
      unfold euler_step. rewrite sync_fields. intros Hl H. destruct (euler_fields p ft (Some g) dt t (length (e_fields e)) 0 _) as [e3|] eqn:E; [|discriminate]. injection H as <-. cbn [e_fields].
      pose proof (spectrum_length n ft GT e Hl) as HS. apply clean_real; [apply (euler_fields_all _ _ _ _ _ _ E HS)|].
      destruct (euler_fields_keeps p ft (Some g) dt t _ _ _ _ E) as (_ & Hlen & _). cbn [e_fields] in Hlen. rewrite map_length in Hlen. rewrite Hlen. apply (euler_clean _ _ 0 _ _ E). intros j d Hj. lia.
    Qed.
    Lemma rk4_step_removed t e e' : all_length n (e_fields e) -> rk4_step p ft (Some g) dt t e = Some e' -> forall d, In d (e_fields e') -> nth k (fft ft d) C0 = C0.
    Proof.
      rewrite rk4_step_before. intros Hl H. destruct (rk4_before t e) as [[final e5]|] eqn:E; [|discriminate]. destruct (rk4_before_all _ _ _ _ E Hl) as (H1 & H2 & H3).
      destruct (finish_fields p ft (Some g) dt t _ 0 final e5) as [e6|] eqn:E6; [|discriminate]. injection H as <-. apply clean_real; [apply (finish_all _ _ _ H1 _ _ _ _ E6 H2)|].
      destruct (finish_clean t final _ 0 _ _ E6) as (Hc & Hlen); [intros j d Hj; lia|]. rewrite Hlen, H3. exact Hc.
    Qed.
    Lemma euler_run_removed : forall nsteps step e e' s', all_length n (e_fields e) -> euler_propagate p ft (Some g) dt (S nsteps) step e = Some (e', s') -> forall d, In d (e_fields e') -> nth k (fft ft d) C0 = C0.
    Proof.
      induction nsteps as [|m IH]; intros step e e' s' Hl H; cbn [euler_propagate] in H; destruct (euler_step p ft (Some g) dt (time_of dt step) e) as [e1|] eqn:E; try discriminate.
      - injection H as <- _. apply (euler_step_removed _ _ _ Hl E).
      - apply (IH (S step) e1 e' s'); [apply (euler_step_all _ _ _ _ E Hl)|exact H].
    Qed.
    Lemma rk4_run_removed : forall nsteps step e e' s', all_length n (e_fields e) -> rk4_propagate p ft (Some g) dt (S nsteps) step e = Some (e', s') -> forall d, In d (e_fields e') -> nth k (fft ft d) C0 = C0.
    Proof.
      induction nsteps as [|m IH]; intros step e e' s' Hl H; cbn [rk4_propagate] in H; destruct (rk4_step p ft (Some g) dt (time_of dt step) e) as [e1|] eqn:E; try discriminate.
      - injection H as <- _. apply (rk4_step_removed _ _ _ Hl E).
      - apply (IH (S step) e1 e' s'); [apply (rk4_step_all _ _ _ _ E Hl)|exact H].
    Qed.
  End Removed.

  (** An RK4 step with a filter is the step without, filtered. *)
  Section Last.
    Variable g : R -> R.
    Hypothesis CD : constant_denum p.
    Lemma finish_last t final : all_length n final -> forall todo i e f e', all_length n (e_fields e) -> all_length n (e_fields f) -> length (e_fields e) = length (e_fields f) -> e_derived e = e_derived f ->
      (forall j, (j < i)%nat -> nth_error (e_fields f) j = option_map (apply_filter (Some g) ft) (nth_error (e_fields e) j)) ->
      finish_fields p ft None dt t todo i final e = Some e' ->
      exists f', finish_fields p ft (Some g) dt t todo i final f = Some f' /\ length (e_fields e') = length (e_fields f') /\ e_derived e' = e_derived f' /\
      forall j, (j < i + todo)%nat -> nth_error (e_fields f') j = option_map (apply_filter (Some g) ft) (nth_error (e_fields e') j).
    Proof.
      intros Hf. induction todo as [|todo IH]; intros i e f e' He Hf' Hlen Hder Hi H; cbn [finish_fields] in *; [injection H as <-; exists f; rewrite Nat.add_0_r; auto|].
      destruct (nth_error (e_fields e) i) as [d|] eqn:Ed; [|discriminate]. assert (Hil : (i < length (e_fields e))%nat) by (apply nth_error_Some; congruence).
      destruct (nth_error (e_fields f) i) as [d'|] eqn:Ed'; [|apply nth_error_None in Ed'; lia]. destruct (nth_error final i) as [fi|] eqn:Efi; [|discriminate].
      rewrite (all_length_nth n _ _ _ He Ed) in H. rewrite (all_length_nth n _ _ _ Hf' Ed'), (CD f e). destruct (get_denum p e i t n) as [a|] eqn:Ea; [|discriminate].
      match goal with |- context [map2 ?h fi a] => assert (Lu : length (map2 h fi a) = n) by (apply map2_length; [exact (all_length_nth n _ _ _ Hf Efi)|exact (get_denum_length n p e i t a KL Ea)]) end.
      rewrite Nat.add_succ_r. match type of H with finish_fields _ _ _ _ _ _ _ _ ?X = _ => refine (IH (S i) X _ e' _ _ _ _ _ H) end; cbn [set_field e_fields e_derived].
      - apply set_all_length; [exact He|exact Lu].
      - apply set_all_length; [exact Hf'|]. rewrite apply_filter_length. exact Lu.
      - rewrite !set_nth_length. exact Hlen.
      - exact Hder.
      - intros j Hj. destruct (Nat.eq_dec i j) as [<-|Hne].
        + rewrite !nth_error_set_nth_eq by lia. reflexivity.
        + rewrite !nth_error_set_nth_neq by exact Hne. apply Hi. lia.
    Qed.
    Lemma rk4_last t e e' : all_length n (e_fields e) -> rk4_step p ft None dt t e = Some e' ->
      rk4_step p ft (Some g) dt t e = Some {| e_fields := map (filtered g ft n) (e_fields e'); e_derived := e_derived e' |}.
    Proof.
      rewrite !rk4_step_before. intros Hl H. destruct (rk4_before t e) as [[final e5]|] eqn:E; [|discriminate]. destruct (rk4_before_all _ _ _ _ E Hl) as (H1 & H2 & H3).
      destruct (finish_fields p ft None dt t _ 0 final e5) as [e6|] eqn:E6; [|discriminate]. injection H as <-. cbn [e_fields e_derived].
      destruct (finish_last t final H1 _ 0 e5 e5 e6 H2 H2 eq_refl eq_refl ltac:(intros j Hj; lia) E6) as (f6 & F6 & Q1 & Q2 & Q3). rewrite F6. f_equal. rewrite Q2. f_equal.
      assert (A6 := finish_all _ _ _ H1 _ _ _ _ E6 H2). unfold all_length in A6. rewrite Forall_forall in A6.
      assert (Hlen : length (e_fields e6) = length (e_fields e)).
      { assert (Z : forall todo i x y, finish_fields p ft None dt t todo i final x = Some y -> length (e_fields y) = length (e_fields x)).
        { induction todo as [|todo IH]; intros i x y HH; cbn [finish_fields] in HH; [injection HH as <-; reflexivity|]. destruct (nth_error (e_fields x) i) as [d|]; [|discriminate]. destruct (nth_error final i) as [fi|]; [|discriminate].
          destruct (get_denum p x i t (length d)) as [a|]; [|discriminate]. apply IH in HH. cbn [set_field e_fields] in HH. rewrite set_nth_length in HH. exact HH. }
        rewrite (Z _ _ _ _ E6). exact H3. }
      apply nth_error_ext. intros j. rewrite !nth_error_map. destruct (Nat.lt_ge_cases j (length (e_fields e))) as [Hj|Hj].
      - rewrite (Q3 j ltac:(lia)). destruct (nth_error (e_fields e6) j) as [d|] eqn:Ed; cbn [option_map]; [|reflexivity]. f_equal. symmetry. apply (filtered_apply g ft n d GT). apply A6. exact (nth_error_In _ _ Ed).
      - rewrite (proj2 (nth_error_None (e_fields f6) j)), (proj2 (nth_error_None (e_fields e6) j)) by lia. reflexivity.
    Qed.
    (** So is an Euler step of a model with one field. *)
    Lemma euler_last t e e' : length (e_fields e) = 1%nat -> all_length n (e_fields e) -> euler_step p ft None dt t e = Some e' ->
      euler_step p ft (Some g) dt t e = Some {| e_fields := map (filtered g ft n) (e_fields e'); e_derived := e_derived e' |}.
    Proof.
      intros H1 Hl. unfold euler_step. rewrite sync_fields, H1. destruct (e_fields e) as [|d [|]] eqn:Ee; cbn [length] in H1; try discriminate H1. cbn [map euler_fields e_fields nth_error].
      assert (Ld : length (fft ft d) = n) by (apply (gt_fft_len n ft GT); inversion Hl; assumption). rewrite Ld.
      match goal with |- context [get_rhs p ?E 0 t n] => destruct (get_rhs p E 0 t n) as [r|] eqn:Er; [|discriminate]; destruct (get_denum p E 0 t n) as [a|] eqn:Ea; [|discriminate] end.
      assert (Lu : length (map3 (semi_implicit dt) (fft ft d) r a) = n) by (apply map3_length; [exact Ld|exact (get_rhs_length n p _ _ t r KL Er)|exact (get_denum_length n p _ _ t a KL Ea)]).
      intros H. injection H as <-. cbn [set_field set_nth e_fields e_derived map]. rewrite (filtered_apply g ft n _ GT) by exact Lu. reflexivity.
    Qed.
  End Last.

  (** ** ImplicitEuler *)
  Lemma vec2fields_shape : forall fs gs x, all_length n fs -> all_length n gs -> length fs = length gs -> vec2fields x fs = vec2fields x gs.
  Proof.
    induction fs as [|d fs IH]; intros [|d' gs] x H H' Hl; cbn [length] in Hl; try discriminate Hl; [reflexivity|]. inversion H; inversion H'; subst. cbn [vec2fields].
    replace (length d') with (length d) by congruence. f_equal. apply IH; [assumption|assumption|congruence].
  Qed.
  Lemma vec2fields_all : forall fs x, all_length n fs -> length x = (length fs * n)%nat -> all_length n (vec2fields x fs).
  Proof.
    induction fs as [|d fs IH]; intros x H Hx; cbn [vec2fields]; [constructor|]. inversion H; subst. cbn [length] in Hx. constructor; [rewrite map_length, firstn_length; lia|]. apply IH; [assumption|]. rewrite skipn_length. lia.
  Qed.

  Lemma euler_fields_shape f f' t : forall todo i e e1 e', length (e_fields e) = length (e_fields e1) -> e_derived e = e_derived e1 -> euler_fields p ft f dt t todo i e = Some e' ->
    exists e1', euler_fields p ft f' dt t todo i e1 = Some e1' /\ length (e_fields e') = length (e_fields e1') /\ e_derived e' = e_derived e1'.
  Proof.
    induction todo as [|todo IH]; intros i e e1 e' Hl Hd H; cbn [euler_fields] in *; [injection H as <-; exists e1; auto|].
    destruct (nth_error (e_fields e) i) as [d|] eqn:Ed; [|discriminate]. assert (Hil : (i < length (e_fields e))%nat) by (apply nth_error_Some; congruence).
    destruct (nth_error (e_fields e1) i) as [d'|] eqn:Ed'; [|apply nth_error_None in Ed'; lia].
    destruct (get_rhs p e i t (length d)) as [r|] eqn:Er; [|discriminate]. destruct (get_denum p e i t (length d)) as [a|] eqn:Ea; [|discriminate].
    assert (Hi : (i < length (p_eqns p))%nat) by (unfold get_rhs in Er; apply nth_error_Some; destruct (nth_error (p_eqns p) i); congruence).
    destruct (get_rhs_some p t e1 i (length d') Hi) as (r' & ->). destruct (get_denum_some p t e1 i (length d') Hi) as (a' & ->).
    refine (IH (S i) _ _ e' _ _ H); cbn [set_field e_fields e_derived]; [rewrite !set_nth_length; exact Hl|exact Hd].
  Qed.
  Lemma euler_step_shape f f' t e e' : euler_step p ft f dt t e = Some e' -> exists e1, euler_step p ft f' dt t e = Some e1 /\ length (e_fields e') = length (e_fields e1) /\ e_derived e' = e_derived e1.
  Proof.
    unfold euler_step. intros H. destruct (euler_fields p ft f dt t _ 0 _) as [e3|] eqn:E; [|discriminate]. injection H as <-.
    destruct (euler_fields_shape f f' t _ _ _ _ _ eq_refl eq_refl E) as (e4 & -> & L4 & D4). eexists. split; [reflexivity|]. cbn [e_fields e_derived]. rewrite !map_length. auto.
  Qed.
  Section Implicit.
    Variable solve : (list R -> option (list R)) -> list R -> list R.
    Hypothesis SL : forall F x, length (solve F x) = length x.
    Hypothesis SI : forall F F' x x', (forall y, F y = F' y) -> length x = length x' -> solve F x = solve F' x'.
    Lemma fields2vec_length fs : all_length n fs -> length (fields2vec fs) = (length fs * n)%nat.
    Proof. unfold fields2vec. induction 1 as [|d fs Hd H IH]; [reflexivity|]. cbn [map concat length]. rewrite app_length, map_length, IH. lia. Qed.
    Lemma ie_step_filter f f' t e e' : all_length n (e_fields e) -> ie_step solve p ft f dt t e = Some e' -> ie_step solve p ft f' dt t e = Some e' /\ all_length n (e_fields e').
    Proof.
      intros Hl. unfold ie_step, ie_problem. destruct (rhs_all p _ t 0 _) as [prev|]; [|discriminate].
      destruct (euler_step p ft f dt t _) as [e2|] eqn:E; [|discriminate]. destruct (euler_step_shape f f' t _ _ E) as (e3 & E3 & L3 & D3). rewrite E3. intros H. injection H as <-.
      assert (H0 : all_length n (e_fields (model_ifft ft (model_fft p ft e)))). { unfold model_ifft, model_fft. rewrite sync_fields. cbn [e_fields]. apply (real_length n ft GT), (spectrum_length n ft GT e Hl). }
      pose proof (euler_step_all _ _ _ _ E H0) as A2. pose proof (euler_step_all _ _ _ _ E3 H0) as A3.
      assert (LV : length (fields2vec (e_fields e2)) = length (fields2vec (e_fields e3))) by (rewrite !fields2vec_length by assumption; congruence).
      split.
      - f_equal. rewrite D3. f_equal. rewrite (vec2fields_shape (e_fields e2) (e_fields e3) _ A2 A3 L3). f_equal. symmetry. apply SI; [|exact LV].
        intros y. unfold update_equation. rewrite (vec2fields_shape (e_fields e2) (e_fields e3) y A2 A3 L3), D3. reflexivity.
      - cbn [e_fields]. apply vec2fields_all; [exact A2|]. rewrite SL. apply fields2vec_length. exact A2.
    Qed.
    Lemma ie_run_filter f f' : forall nsteps step e r, all_length n (e_fields e) -> ie_propagate solve p ft f dt nsteps step e = Some r -> ie_propagate solve p ft f' dt nsteps step e = Some r.
    Proof.
      induction nsteps as [|k IH]; intros step e r Hl H; cbn [ie_propagate] in *; [exact H|]. destruct (ie_step solve p ft f dt (ie_time dt step) e) as [e'|] eqn:E; [|discriminate].
      destruct (ie_step_filter f f' _ _ _ Hl E) as (-> & Hl'). apply IH; assumption.
    Qed.
  End Implicit.
End Lengths.
