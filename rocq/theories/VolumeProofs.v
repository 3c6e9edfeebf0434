From Verif Require Import VolumeSpec EnergyProofs EnergyProofs2 EnergyProofs3 EnergyProofs4 StepProofs ConserveProofs SddProofs Vec CVec Complex.
From Coq Require Import Lra Lia.
Open Scope R_scope.

Lemma append_term_nth f : forall qs i j, nth_error (append_term i f qs) j =
  match nth_error qs j with
  | Some q => Some (if Nat.eqb j i then {| q_terms := q_terms q ++ [f]; q_denum := q_denum q; q_sources := q_sources q |} else q)
  | None => None
  end.
Proof.
  induction qs as [|q qs IH]; intros [|i] [|j]; cbn [append_term nth_error Nat.eqb]; try reflexivity.
  - destruct (nth_error qs j); reflexivity.
  - apply IH.
Qed.
Lemma append_term_length f : forall qs i, length (append_term i f qs) = length qs.
Proof. induction qs as [|q qs IH]; intros [|i]; cbn; auto. Qed.
Lemma append_term_in f : forall qs i q, In q (append_term i f qs) ->
  exists q0, In q0 qs /\ (q = q0 \/ q = {| q_terms := q_terms q0 ++ [f]; q_denum := q_denum q0; q_sources := q_sources q0 |}).
Proof.
  induction qs as [|q1 qs IH]; intros [|i] q H; cbn [append_term In] in H; try tauto.
  - destruct H as [<-|H]; [exists q1; cbn; auto|exists q; cbn; auto].
  - destruct H as [<-|H]; [exists q1; cbn; auto|]. destruct (IH i q H) as (q0 & H1 & H2). exists q0. cbn. auto.
Qed.

Lemma other_mods mods i d : (forall m, In m mods -> fst m <> i) -> apply_mods mods i d = d.
Proof.
  unfold apply_mods. revert d. induction mods as [|m mods IH]; intros d H; cbn [fold_left]; [reflexivity|].
  destruct (Nat.eqb_spec (fst m) i) as [E|_]; [exfalso; exact (H m (or_introl eq_refl) E)|]. apply IH. intros m' Hm. apply H. right. exact Hm.
Qed.

(** ** The loop over the fields in an Euler step *)
Section Loop.
  Variables (p : pde) (ft : transform) (filt : option (R -> R)) (dt t : R).

  Lemma euler_fields_app a : forall b j e, euler_fields p ft filt dt t (a + b) j e =
    match euler_fields p ft filt dt t a j e with Some s => euler_fields p ft filt dt t b (j + a) s | None => None end.
  Proof.
    induction a as [|a IH]; intros b j e; cbn [Nat.add euler_fields]; [rewrite Nat.add_0_r; reflexivity|].
    destruct (nth_error (e_fields e) j) as [d|]; [|reflexivity]. destruct (get_rhs p e j t (length d)); [|reflexivity]. destruct (get_denum p e j t (length d)); [|reflexivity].
    rewrite IH. replace (S j + a)%nat with (j + S a)%nat by lia. reflexivity.
  Qed.

  Lemma euler_fields_above todo : forall j e e', euler_fields p ft filt dt t todo j e = Some e' -> forall k, (j + todo <= k)%nat -> nth_error (e_fields e') k = nth_error (e_fields e) k.
  Proof.
    induction todo as [|todo IH]; intros j e e' H k Hk; cbn [euler_fields] in H; [injection H as <-; reflexivity|].
    destruct (nth_error (e_fields e) j) as [d|]; [|discriminate]. destruct (get_rhs p e j t (length d)); [|discriminate]. destruct (get_denum p e j t (length d)); [|discriminate].
    rewrite (IH _ _ _ H k) by lia. cbn. apply nth_error_set_nth_neq. lia.
  Qed.

  Lemma euler_fields_lengths n todo : keeps_length n p -> forall j e e', all_length n (e_fields e) -> euler_fields p ft filt dt t todo j e = Some e' -> all_length n (e_fields e').
  Proof.
    intros KL. induction todo as [|todo IH]; intros j e e' HL H; cbn [euler_fields] in H; [injection H as <-; exact HL|].
    destruct (nth_error (e_fields e) j) as [d|] eqn:Ed; [|discriminate]. assert (Ld := all_length_nth n _ _ _ HL Ed). rewrite Ld in H.
    destruct (get_rhs p e j t n) as [r|] eqn:Er; [|discriminate]. destruct (get_denum p e j t n) as [a|] eqn:Ea; [|discriminate].
    apply (IH _ _ _) in H; [exact H|]. cbn [set_field e_fields].
    apply set_nth_all; [exact HL|]. rewrite apply_filter_length. apply map3_length; [exact Ld|exact (get_rhs_length _ _ _ _ _ _ KL Er)|exact (get_denum_length _ _ _ _ _ _ KL Ea)].
  Qed.
End Loop.

Section Model.
  Variables (n : nat) (p : pde) (i ind : nat) (ft : transform).
  Hypothesis OK : vol_ok n p i ind ft.
  Let Hn : (0 < n)%nat := vo_nodes _ _ _ _ _ OK.
  Let GT := vo_ft _ _ _ _ _ OK.
  Let KL := vo_lengths _ _ _ _ _ OK.

  Section Value.
    Variable v : multiplier.
    Let pv := with_multiplier p i ind v.

    Lemma wm_denum e j t k : get_denum pv e j t k = get_denum p e j t k.
    Proof.
      unfold get_denum, pv, with_multiplier. cbn [p_eqns]. rewrite append_term_nth. destruct (nth_error (p_eqns p) j) as [q|]; [|reflexivity].
      destruct (Nat.eqb j i); reflexivity.
    Qed.
    Lemma wm_other e j t k : j <> i -> get_rhs pv e j t k = get_rhs p e j t k.
    Proof.
      intros Hj. unfold get_rhs, pv, with_multiplier. cbn [p_eqns p_mods]. rewrite append_term_nth. destruct (nth_error (p_eqns p) j) as [q|]; [|reflexivity].
      destruct (Nat.eqb_spec j i); [contradiction|reflexivity].
    Qed.
    Lemma wm_sync e : sync pv e = sync p e.
    Proof. reflexivity. Qed.
    Lemma wm_spectrum e : spectrum pv ft e = spectrum p ft e.
    Proof. reflexivity. Qed.

    (** Sources after the multiplier term: only the sum differs. *)
    Lemma sources_shift t srcs : (forall s tmp, In s srcs -> length tmp = n -> length (s t tmp) = n) ->
      (forall s tmp tmp', In s srcs -> length tmp = length tmp' -> s t tmp = s t tmp') ->
      forall d d' tmp tmp' z, length d = n -> length d' = n -> length tmp = n -> length tmp' = n ->
      nth 0 d' C0 = Cadd (nth 0 d C0) z ->
      nth 0 (fst (fold_left (add_source t) srcs (d', tmp'))) C0 = Cadd (nth 0 (fst (fold_left (add_source t) srcs (d, tmp))) C0) z.
    Proof.
      intros HL HI. induction srcs as [|s srcs IH]; intros d d' tmp tmp' z L1 L2 L3 L4 E; cbn [fold_left fst]; [exact E|].
      unfold add_source at 2 4. cbn [fst snd]. rewrite (HI s tmp' tmp (or_introl eq_refl)) by lia. assert (Ls := HL s tmp (or_introl eq_refl) L3).
      apply IH; try assumption; try (rewrite vadd_length; assumption).
      - intros s' tmp0 Hs. apply HL. right. exact Hs.
      - intros s' t1 t2 Hs. apply HI. right. exact Hs.
      - assert (N1 : d <> []) by (intros ->; cbn in L1; lia). assert (N2 : d' <> []) by (intros ->; cbn in L2; lia). assert (N3 : s t tmp <> []) by (intros Q; rewrite Q in Ls; cbn in Ls; lia).
        rewrite !vadd_nth0 by assumption. rewrite E. csolve.
    Qed.

    Lemma wm_rhs e t r : get_rhs p e i t n = Some r -> exists r', get_rhs pv e i t n = Some r' /\ length r' = n
      /\ nth 0 r' C0 = Cadd (nth 0 r C0) (Cmul (nth 0 (nth ind (e_derived e) []) C0) (RtoC (lp_value v))).
    Proof.
      intros E. unfold get_rhs in *. unfold pv, with_multiplier. cbn [p_eqns p_mods]. rewrite append_term_nth.
      destruct (nth_error (p_eqns p) i) as [q|] eqn:Eq; [|discriminate]. assert (Hq := nth_error_In _ _ Eq). rewrite Nat.eqb_refl. cbn [q_terms q_sources].
      injection E as <-. eexists. split; [reflexivity|]. rewrite !(other_mods _ _ _ (vo_mods _ _ _ _ _ OK)). rewrite fold_left_app. cbn [fold_left].
      destruct (fold_terms_length n e t (q_terms q) (repeat C0 n, repeat C0 n)) as [L1 L2]; [apply repeat_length|apply repeat_length|intros f tmp Hf; eapply (kl_term _ _ KL); eauto|].
      destruct (fold_left (add_term e t) (q_terms q) (repeat C0 n, repeat C0 n)) as [d tmp] eqn:ED. cbn [fst snd] in L1, L2.
      unfold add_term at 1 2. cbn [fst snd]. set (w := lp_term v ind e t tmp). assert (Lw : length w = n) by (unfold w, lp_term; rewrite map_length, seq_length; exact L2).
      split.
      - apply fold_sources_length; cbn [fst snd]; [rewrite vadd_length; exact L1|exact Lw|intros f tmp' Hf; eapply (kl_source _ _ KL); eauto].
      - apply sources_shift; try assumption.
        + intros s tmp' Hs Ht. eapply (kl_source _ _ KL); eauto.
        + intros s t1 t2 Hs Ht. exact (vo_sources _ _ _ _ _ OK q s t t1 t2 Hq Hs Ht).
        + rewrite vadd_length. exact L1.
        + rewrite vadd_nth0; [|intros ->; cbn in L1; lia|intros Q; rewrite Q in Lw; cbn in Lw; lia]. f_equal. unfold w, lp_term.
          rewrite L2, (nth_map_seq (fun i0 => Cmul (nth i0 (nth ind (e_derived e) []) C0) (RtoC (lp_value v)))) by exact Hn. reflexivity.
    Qed.

    Lemma rhs_some e t : exists r, get_rhs p e i t n = Some r.
    Proof. unfold get_rhs. destruct (nth_error (p_eqns p) i) eqn:E; [eauto|]. apply nth_error_None in E. pose proof (vo_field _ _ _ _ _ OK). lia. Qed.

    (** The real part at node 0, in the words of the specification. *)
    Lemma wm_rate e t : exists r', get_rhs pv e i t n = Some r' /\ length r' = n /\ Re (nth 0 r' C0) = rate p i n t e + lp_value v * indicator ind e.
    Proof.
      destruct (rhs_some e t) as (r & E). destruct (wm_rhs e t r E) as (r' & E' & L & N). exists r'. split; [exact E'|]. split; [exact L|].
      rewrite N. unfold rate, indicator. rewrite E. destruct (nth 0 r C0), (nth 0 (nth ind (e_derived e) []) C0). cbn. ring.
    Qed.

    Lemma wm_lengths : keeps_length n pv.
    Proof.
      constructor.
      - apply (kl_calc _ _ KL).
      - intros q f e t tmp Hq Hf Ht. destruct (append_term_in _ _ _ _ Hq) as (q0 & H0 & [->| ->]); [eapply (kl_term _ _ KL); eauto|]. cbn [q_terms q_denum] in Hf.
        destruct Hf as [Hf|Hf]; [|eapply (kl_term _ _ KL); eauto]. apply in_app_or in Hf. destruct Hf as [Hf|[<-|[]]]; [eapply (kl_term _ _ KL); eauto|].
        unfold lp_term. rewrite map_length, seq_length. exact Ht.
      - intros q s t tmp Hq Hs Ht. destruct (append_term_in _ _ _ _ Hq) as (q0 & H0 & [->| ->]); eapply (kl_source _ _ KL); eauto.
      - apply (kl_mod _ _ KL).
    Qed.
  End Value.

  Lemma turn_same v dt t todo : forall j e, (j + todo <= i)%nat -> euler_fields (with_multiplier p i ind v) ft None dt t todo j e = euler_fields p ft None dt t todo j e.
  Proof.
    induction todo as [|todo IH]; intros j e Hj; cbn [euler_fields]; [reflexivity|]. destruct (nth_error (e_fields e) j) as [d|]; [|reflexivity].
    rewrite wm_other, wm_denum by lia. destruct (get_rhs p e j t (length d)); [|reflexivity]. destruct (get_denum p e j t (length d)); [|reflexivity]. apply IH. lia.
  Qed.

  Lemma total_csum e d : nth_error (e_fields e) i = Some d -> length d = n -> total n i e = Re (Csum d).
  Proof. intros E H. unfold total. rewrite (nth_error_nth _ _ [] E), Csum_seq, csum_re, H. reflexivity. Qed.

  (** One Euler step: shape of the result, change of the total, new multiplier. *)
  Lemma euler_vol t dt e v : suits n p e -> exists e' v',
    vol_step euler_step p i ind ft dt t n (e, v) = Some (e', v') /\ suits n p e' /\
    total n i e' = total n i e + dt * (euler_rate p ft dt t i n e + lp_value v * indicator ind (spectrum p ft e)) /\
    lp_first v' = false /\ lp_integral v' = total n i e' /\
    lp_value v' = if lp_first v then lp_value v
                  else lp_value v - (total n i e' - lp_integral v) / (dt * indicator ind (spectrum p ft e)).
  Proof.
    intros (Hf & H1 & H2). set (pv := with_multiplier p i ind v). assert (Hi := vo_field _ _ _ _ _ OK). unfold vol_step. cbn [fst snd]. fold pv.
    assert (HE : exists e3, euler_fields pv ft None dt t (length (e_fields e)) 0 (spectrum p ft e) = Some e3).
    { destruct (euler_step_sequential pv ft None dt t e) as (e' & Y' & E & _); [unfold pv, with_multiplier; cbn [p_eqns]; rewrite append_term_length; lia|].
      unfold euler_step in E. rewrite sync_fields in E. change (sync pv e) with (sync p e) in E. fold (spectrum p ft e) in E.
      destruct (euler_fields pv ft None dt t (length (e_fields e)) 0 (spectrum p ft e)) as [e3|]; [eauto|discriminate]. }
    destruct HE as (e3 & E3). unfold euler_step. rewrite sync_fields. change (sync pv e) with (sync p e). fold (spectrum p ft e). rewrite E3.
    set (s := spectrum p ft e) in *.
    assert (LS : all_length n (e_fields s)).
    { unfold s, spectrum. cbn [e_fields]. apply Forall_forall. intros x Hx. apply in_map_iff in Hx. destruct Hx as (d & <- & Hd). apply (gt_fft_len _ _ GT). unfold all_length in Hf. rewrite Forall_forall in Hf. auto. }
    assert (L3 := euler_fields_lengths pv ft None dt t n _ (wm_lengths v) _ _ _ LS E3).
    destruct (euler_fields_keeps pv ft None dt t _ _ _ _ E3) as (D3 & C3 & _).
    assert (Cs : length (e_fields s) = length (e_fields e)) by apply map_length.
    assert (Ds : length (e_derived s) = length (e_derived e)) by (unfold s, spectrum; cbn [e_derived]; rewrite map_length; unfold sync; apply sync_from_count).
    (* the turn of field i *)
    replace (length (e_fields e)) with (i + S (length (e_fields e) - S i))%nat in E3 by lia. rewrite euler_fields_app in E3. cbn [Nat.add] in E3.
    unfold pv in E3 at 1. rewrite turn_same in E3 by lia. destruct (euler_fields p ft None dt t i 0 s) as [mix|] eqn:EM; [|discriminate].
    destruct (euler_fields_keeps p ft None dt t _ _ _ _ EM) as (DM & CM & _). assert (AM := euler_fields_above p ft None dt t _ _ _ _ EM i ltac:(lia)).
    cbn [euler_fields] in E3. rewrite AM in E3.
    destruct (nth_error (e_fields e) i) as [d|] eqn:Ed; [|apply nth_error_None in Ed; lia].
    assert (Ld : length d = n) by exact (all_length_nth n _ _ _ Hf Ed).
    assert (Es : nth_error (e_fields s) i = Some (fft ft d)) by (unfold s, spectrum; cbn [e_fields]; rewrite nth_error_map, Ed; reflexivity). rewrite Es in E3.
    assert (Lfd : length (fft ft d) = n) by exact (gt_fft_len _ _ GT _ Ld). rewrite Lfd in E3.
    destruct (wm_rate v mix t) as (r & Er & Lr & Nr). fold pv in Er. rewrite Er in E3.
    destruct (get_denum pv mix i t n) as [a|] eqn:Ea; [|discriminate]. unfold pv in Ea. rewrite wm_denum in Ea.
    assert (La := get_denum_length _ _ _ _ _ _ KL Ea). assert (Za := vo_denum _ _ _ _ _ OK _ _ _ Ea).
    destruct (euler_fields_keeps pv ft None dt t _ _ _ _ E3) as (_ & _ & K3). specialize (K3 i ltac:(lia)). cbn [set_field e_fields] in K3.
    rewrite nth_error_set_nth_eq in K3 by lia. cbn [apply_filter] in K3.
    set (y' := map3 (semi_implicit dt) (fft ft d) r a) in *. assert (Ly : length y' = n) by (unfold y'; apply map3_length; assumption).
    assert (Ld' : length (to_real ft y') = n) by (apply (to_real_length n ft GT); exact Ly).
    set (e' := {| e_fields := map (to_real ft) (e_fields e3); e_derived := e_derived e3 |}).
    assert (E' : nth_error (e_fields e') i = Some (to_real ft y')) by (unfold e'; cbn [e_fields]; rewrite nth_error_map, K3; reflexivity).
    assert (S1 : Csum (to_real ft y') = Cadd (Csum d) (Cmul (RtoC dt) (nth 0 r C0))).
    { rewrite <- (gt_zero _ _ GT _ Ld'), (gt_inverse _ _ GT _ Ly), <- (gt_zero _ _ GT d Ld). unfold y'.
      destruct (fft ft d) as [|y0 ys]; [cbn in Lfd; lia|]. destruct r as [|r0 rs]; [cbn in Lr; lia|]. destruct a as [|a0 as_]; [cbn in La; lia|].
      cbn [map3 nth] in *. rewrite Za. unfold semi_implicit. apply Cdiv_one. }
    assert (IM : indicator ind mix = indicator ind s) by (unfold indicator; rewrite DM; reflexivity).
    assert (VV : total n i e' = total n i e + dt * (euler_rate p ft dt t i n e + lp_value v * indicator ind s)).
    { rewrite (total_csum e' _ E' Ld'), (total_csum e _ Ed Ld), S1. unfold euler_rate. fold s. rewrite EM, <- IM, <- Nr. destruct (Csum d), (nth 0 r C0). cbn. ring. }
    eexists _, _. split; [reflexivity|]. split; [|split; [exact VV|]].
    - split; [|split].
      + unfold e'. cbn [e_fields]. apply Forall_forall. intros x Hx. apply in_map_iff in Hx. destruct Hx as (z & <- & Hz). apply (to_real_length n ft GT). unfold all_length in L3. rewrite Forall_forall in L3. auto.
      + unfold e'. cbn [e_fields]. rewrite map_length. lia.
      + unfold e'. cbn [e_derived]. rewrite D3. lia.
    - unfold lp_finished. fold (total n i e'). assert (IE : Re (nth 0 (nth ind (e_derived e') []) C0) = indicator ind s) by (unfold e', indicator; cbn [e_derived]; rewrite D3; reflexivity). rewrite IE.
      destruct (lp_first v); cbn [lp_first lp_integral lp_value]; auto.
  Qed.
End Model.
