From Verif Require Import VolumeSpec EnergyProofs EnergyProofs2 EnergyProofs3 EnergyProofs4 StepProofs ConserveProofs SddProofs WatchProofs2 VolumeProofs Vec CVec Complex.
From Coq Require Import Lra Lia.
Open Scope R_scope.

Lemma history_exists step p i ind ft dt clock n (P : env -> Prop) : (forall t e v, P e -> exists e' v', vol_step step p i ind ft dt t n (e, v) = Some (e', v') /\ P e') ->
  forall N e, P e -> exists st, vol_history step p i ind ft dt clock n N e st /\ forall k, (k <= N)%nat -> P (fst (st k)).
Proof.
  intros HS. induction N as [|N IH]; intros e He.
  - exists (fun _ => (e, new_multiplier)). split; [split; [reflexivity|intros k Hk; lia]|]. intros k _. exact He.
  - destruct (IH e He) as (st & [H0 H1] & HP). destruct (st N) as [eN vN] eqn:EN. assert (PN := HP N (le_n N)). rewrite EN in PN. cbn [fst] in PN.
    destruct (HS (clock N) eN vN PN) as (e' & v' & E & P'). exists (fun k => if Nat.leb k N then st k else (e', v')). split; [split|].
    + exact H0.
    + intros k Hk. destruct (Nat.leb_spec k N) as [A|A]; [|lia]. destruct (Nat.leb_spec (S k) N) as [B|B]; [apply H1; lia|]. replace k with N by lia. rewrite EN. exact E.
    + intros k Hk. destruct (Nat.leb_spec k N) as [A|A]; [apply HP; exact A|exact P'].
Qed.

Section Run.
  Variables (n : nat) (p : pde) (i ind : nat) (ft : transform) (dt : R).
  Hypothesis OK : vol_ok n p i ind ft.
  Hypothesis Hdt : dt <> 0.

  Lemma euler_states clock N e st : suits n p e -> vol_history euler_step p i ind ft dt clock n N e st ->
    forall k, (k <= N)%nat -> suits n p (fst (st k)) /\ lp_first (snd (st k)) = (k =? 0)%nat /\ ((1 <= k)%nat -> lp_integral (snd (st k)) = total n i (fst (st k)))
      /\ ((k <= 1)%nat -> lp_value (snd (st k)) = 0)
      /\ ((2 <= k)%nat -> indicator ind (spectrum p ft (fst (st (k - 1)%nat))) <> 0 ->
          lp_value (snd (st k)) = - (euler_rate p ft dt (clock (k - 1)%nat) i n (fst (st (k - 1)%nat)) / indicator ind (spectrum p ft (fst (st (k - 1)%nat))))).
  Proof.
    intros He [H0 H1]. induction k as [|k IH]; intros Hk.
    - rewrite H0. cbn [fst snd]. split; [exact He|]. split; [reflexivity|]. split; [lia|]. split; [reflexivity|lia].
    - destruct (IH ltac:(lia)) as (I1 & I2 & I3 & I4 & I5). specialize (H1 k ltac:(lia)). destruct (st k) as [ek vk] eqn:Ek. cbn [fst snd] in *.
      destruct (euler_vol n p i ind ft OK (clock k) dt ek vk I1) as (e' & v' & E & S' & V & F & G & L). rewrite H1 in E. injection E as E. rewrite E. cbn [fst snd].
      split; [exact S'|]. split; [exact F|]. split; [intros _; exact G|]. rewrite I2 in L. split.
      + intros Hk1. replace k with 0%nat in * by lia. cbn [Nat.eqb] in L. rewrite L. apply I4. lia.
      + intros Hk2 HI. replace (S k - 1)%nat with k in * by lia. rewrite Ek in *. cbn [fst] in *. destruct (Nat.eqb_spec k 0) as [Q|Q]; [lia|]. rewrite L, V, I3 by lia. field. split; assumption.
  Qed.

  (** The change of the total in every step of a run with a new multiplier. *)
  Lemma euler_changes clock N e st : suits n p e -> vol_history euler_step p i ind ft dt clock n N e st ->
    forall k, (k < N)%nat -> let F := fun k => euler_rate p ft dt (clock k) i n (fst (st k)) in let I := fun k => indicator ind (spectrum p ft (fst (st k))) in
    ((k < 2)%nat -> total n i (fst (st (S k))) = total n i (fst (st k)) + dt * F k)
    /\ ((2 <= k)%nat -> I k <> 0 -> I (k - 1)%nat <> 0 -> total n i (fst (st (S k))) = total n i (fst (st k)) + dt * I k * (F k / I k - F (k - 1)%nat / I (k - 1)%nat)).
  Proof.
    intros He Hh k Hk F I. destruct (euler_states clock N e st He Hh k ltac:(lia)) as (S1 & S2 & S3 & S4 & S5). destruct Hh as [_ H1]. specialize (H1 k Hk). destruct (st k) as [ek vk] eqn:Ek. cbn [fst snd] in *.
    destruct (euler_vol n p i ind ft OK (clock k) dt ek vk S1) as (e' & v' & E & _ & V & _). rewrite H1 in E. injection E as E. rewrite E. cbn [fst].
    assert (FK : F k = euler_rate p ft dt (clock k) i n ek) by (unfold F; rewrite Ek; reflexivity). assert (IK : I k = indicator ind (spectrum p ft ek)) by (unfold I; rewrite Ek; reflexivity).
    rewrite V, <- FK, <- IK. split.
    - intros H. rewrite S4 by lia. ring.
    - intros H N1 N2. rewrite S5 by assumption. fold (F (k - 1)%nat). fold (I (k - 1)%nat). field. split; assumption.
  Qed.

  Lemma euler_drift clock N e st eps M : 0 < dt -> suits n p e -> vol_history euler_step p i ind ft dt clock n N e st ->
    (forall k, (1 <= k < N)%nat -> indicator ind (spectrum p ft (fst (st k))) <> 0 /\ Rabs (indicator ind (spectrum p ft (fst (st k)))) <= M) ->
    (forall k, (2 <= k < N)%nat -> Rabs (euler_rate p ft dt (clock k) i n (fst (st k)) / indicator ind (spectrum p ft (fst (st k)))
       - euler_rate p ft dt (clock (k - 1)%nat) i n (fst (st (k - 1)%nat)) / indicator ind (spectrum p ft (fst (st (k - 1)%nat)))) <= eps) ->
    forall k, (2 <= k <= N)%nat -> Rabs (total n i (fst (st k)) - total n i (fst (st 2%nat))) <= INR (k - 2) * (dt * M * eps).
  Proof.
    intros Hpos He Hh HI HR. induction k as [|k IH]; intros Hk; [lia|]. destruct (Nat.eq_dec k 1) as [->|Q].
    - replace (total n i (fst (st 2%nat)) - total n i (fst (st 2%nat))) with 0 by ring. rewrite Rabs_R0. cbn. lra.
    - specialize (IH ltac:(lia)). destruct (euler_changes clock N e st He Hh k ltac:(lia)) as [_ D]. cbv zeta in D.
      destruct (HI k ltac:(lia)) as [N1 B1]. destruct (HI (k - 1)%nat ltac:(lia)) as [N2 _]. specialize (D ltac:(lia) N1 N2). specialize (HR k ltac:(lia)).
      set (d := euler_rate p ft dt (clock k) i n (fst (st k)) / _ - _) in *. assert (B : Rabs (dt * indicator ind (spectrum p ft (fst (st k))) * d) <= dt * M * eps).
      { rewrite !Rabs_mult, (Rabs_right dt) by lra. apply Rmult_le_compat; [apply Rmult_le_pos; [lra|apply Rabs_pos]|apply Rabs_pos|apply Rmult_le_compat_l; lra|exact HR]. }
      rewrite D. replace (S k - 2)%nat with (S (k - 2)) by lia. rewrite S_INR.
      replace (total n i (fst (st k)) + dt * indicator ind (spectrum p ft (fst (st k))) * d - total n i (fst (st 2%nat))) with ((total n i (fst (st k)) - total n i (fst (st 2%nat))) + dt * indicator ind (spectrum p ft (fst (st k))) * d) by ring.
      eapply Rle_trans; [apply Rabs_triang|]. lra.
  Qed.
End Run.

(** ** RK4 *)
Section RK4.
  Variables (n : nat) (p : pde) (i ind : nat) (ft : transform).
  Hypothesis OK : vol_ok n p i ind ft.
  Hypothesis CD : constant_denum p.
  Hypothesis DF : derived_from_fields p.

  Let GT := vo_ft _ _ _ _ _ OK.

  Lemma wm_constant v : constant_denum (with_multiplier p i ind v).
  Proof. intros e e' j t k. rewrite !wm_denum. apply CD. Qed.
  Lemma wm_derived v : derived_from_fields (with_multiplier p i ind v).
  Proof. exact DF. Qed.
  Lemma wm_at v d S : at_amplitudes (with_multiplier p i ind v) ft d S = at_amplitudes p ft d S.
  Proof. reflexivity. Qed.

  Lemma rk4_vol t dt e v : suits n p e -> exists e' v' k1 s2 k2 s3 k3 s4 k4,
    let P := with_multiplier p i ind v in let Y := map (fft ft) (e_fields e) in
    let g := fun S => rate p i n t (at_amplitudes p ft (e_derived e) S) + lp_value v * indicator ind (at_amplitudes p ft (e_derived e) S) in
    vol_step rk4_step p i ind ft dt t n (e, v) = Some (e', v') /\ suits n p e' /\
    (nonlinear_part P ft t (e_derived e) Y k1 /\
     implicit_stage p (dt / 2) t e Y k1 s2 /\ nonlinear_part P ft t (e_derived e) s2 k2 /\
     implicit_stage p (dt / 2) t e Y k2 s3 /\ nonlinear_part P ft t (e_derived e) s3 k3 /\
     implicit_stage p dt t e Y k3 s4 /\ nonlinear_part P ft t (e_derived e) s4 k4) /\
    total n i e' = total n i e + dt / 6 * (g Y + 2 * g s2 + 2 * g s3 + g s4) /\
    lp_first v' = false /\ lp_integral v' = total n i e' /\
    lp_value v' = if lp_first v then lp_value v
                  else lp_value v - (total n i e' - lp_integral v) / (dt * indicator ind (at_amplitudes p ft (e_derived e) s4)).
  Proof.
    intros Hs. assert (Hs' := Hs). destruct Hs' as (Hf & H1 & H2). assert (Hn := vo_nodes _ _ _ _ _ OK). assert (Hi := vo_field _ _ _ _ _ OK). assert (KL := vo_lengths _ _ _ _ _ OK). set (P := with_multiplier p i ind v).
    assert (LP : length (p_eqns P) = length (p_eqns p)) by apply append_term_length.
    destruct (rk4_step_scheme n P ft None dt t GT (wm_lengths n p i ind ft OK v) (wm_constant v) (wm_derived v) e Hf ltac:(lia) H2) as (_ & _ & _ & _ & _ & _ & _ & e' & _ & _ & _ & _ & _ & _ & _ & ER & _).
    destruct (rk4_whole n P ft None dt t GT (wm_lengths n p i ind ft OK v) (wm_constant v) (wm_derived v) e e' Hf ltac:(lia) H2 ER)
      as (k1 & s2 & k2 & s3 & k3 & s4 & k4 & N1 & S2 & N2 & S3 & N3 & S4 & N4 & Lf & HDr & HF). set (Y := map (fft ft) (e_fields e)) in *.
    exists e', (lp_finished dt n i ind e' v), k1, s2, k2, s3, k3, s4, k4. cbv zeta. fold P Y.
    split; [unfold vol_step; cbn [fst snd]; fold P; rewrite ER; reflexivity|].
    assert (IS : forall h K S, implicit_stage P h t e Y K S -> implicit_stage p h t e Y K S).
    { intros h K S [A B]. split; [exact A|]. intros j y k a Hy Hk Ha. apply (B j y k a Hy Hk). unfold P. rewrite wm_denum. exact Ha. }
    assert (LY : length Y = length (e_fields e)) by apply map_length.
    assert (AY : all_length n Y). { apply Forall_forall. intros x Hx. apply in_map_iff in Hx. destruct Hx as (d & <- & Hd). apply (gt_fft_len _ _ GT). unfold all_length in Hf. rewrite Forall_forall in Hf. auto. }
    assert (IL : forall h K S, length K = length Y -> implicit_stage p h t e Y K S -> all_length n K -> all_length n S).
    { intros h K S LK [A B] AK. apply Forall_forall. intros x Hx. apply In_nth_error in Hx. destruct Hx as (j & Hj). assert (j < length Y)%nat by (rewrite <- A; apply nth_error_Some; congruence).
      destruct (nth_error Y j) as [y|] eqn:Ey; [|apply nth_error_None in Ey; lia]. destruct (nth_error K j) as [k|] eqn:Ek; [|apply nth_error_None in Ek; lia].
      assert (Ly := all_length_nth n _ _ _ AY Ey). destruct (get_denum_some p t e j (length y)) as (a & Ha); [lia|]. rewrite (B j y k a eq_refl eq_refl Ha) in Hj || rewrite (B j y k a Ey Ek Ha) in Hj. injection Hj as <-.
      rewrite Ly in Ha. apply map3_length; [exact Ly|exact (all_length_nth n _ _ _ AK Ek)|exact (get_denum_length _ _ _ _ _ _ KL Ha)]. }
    assert (NL : forall S K, length S = length Y -> all_length n S -> nonlinear_part P ft t (e_derived e) S K -> length K = length Y /\ all_length n K
      /\ exists r, nth_error K i = Some r /\ length r = n /\ Re (nth 0 r C0) = rate p i n t (at_amplitudes p ft (e_derived e) S) + lp_value v * indicator ind (at_amplitudes p ft (e_derived e) S)).
    { intros S K LS AS [A B]. assert (BB : forall j y, nth_error S j = Some y -> nth_error K j = get_rhs P (at_amplitudes p ft (e_derived e) S) j t n).
      { intros j y Hy. rewrite (B j y Hy), (all_length_nth n _ _ _ AS Hy). reflexivity. }
      split; [lia|]. split.
      - apply Forall_forall. intros x Hx. apply In_nth_error in Hx. destruct Hx as (j & Hj). assert (j < length S)%nat by (rewrite <- A; apply nth_error_Some; congruence).
        destruct (nth_error S j) as [y|] eqn:Ey; [|apply nth_error_None in Ey; lia]. rewrite (BB j y Ey) in Hj. exact (get_rhs_length _ _ _ _ _ _ (wm_lengths n p i ind ft OK v) Hj).
      - destruct (nth_error S i) as [y|] eqn:Ey; [|apply nth_error_None in Ey; lia]. destruct (wm_rate n p i ind ft OK v (at_amplitudes p ft (e_derived e) S) t) as (r & Er & Lr & Nr).
        exists r. split; [rewrite (BB i y Ey); exact Er|]. split; assumption. }
    apply IS in S2, S3, S4.
    destruct (NL Y k1 eq_refl AY N1) as (L1 & A1 & r1 & E1 & R1 & G1). assert (AS2 := IL _ _ _ L1 S2 A1).
    destruct (NL s2 k2 (proj1 S2) AS2 N2) as (L2 & A2 & r2 & E2 & R2 & G2). assert (AS3 := IL _ _ _ L2 S3 A2).
    destruct (NL s3 k3 (proj1 S3) AS3 N3) as (L3 & A3 & r3 & E3 & R3 & G3). assert (AS4 := IL _ _ _ L3 S4 A3).
    destruct (NL s4 k4 (proj1 S4) AS4 N4) as (L4 & A4 & r4 & E4 & R4 & G4).
    assert (Suits : suits n p e').
    { split; [|split].
      - apply Forall_forall. intros x Hx. apply In_nth_error in Hx. destruct Hx as (j & Hj). assert (Hlt : (j < length Y)%nat) by (rewrite LY, <- Lf; apply nth_error_Some; congruence).
        assert (G : forall k : list data, length k = length Y -> exists r, nth_error k j = Some r) by (intros k Hk; destruct (nth_error k j) eqn:E; [eauto|apply nth_error_None in E; lia]).
        destruct (G Y eq_refl) as (y & Ey). destruct (G k1 L1) as (q1 & Q1). destruct (G k2 L2) as (q2 & Q2). destruct (G k3 L3) as (q3 & Q3). destruct (G k4 L4) as (q4 & Q4).
        destruct (get_denum_some P t e j (length y)) as (a & Ha); [lia|]. rewrite (HF j y a q1 q2 q3 q4 Ey Ha Q1 Q2 Q3 Q4) in Hj. injection Hj as <-.
        apply (to_real_length n ft GT). cbn [apply_filter]. rewrite map_length, seq_length. reflexivity.
      - lia.
      - rewrite HDr, <- H2. cbn [at_amplitudes e_derived]. rewrite map_length. unfold sync. rewrite sync_from_count. reflexivity. }
    split; [exact Suits|]. split; [auto 10|].
    assert (VV : total n i e' = total n i e + dt / 6 * (Re (nth 0 r1 C0) + 2 * Re (nth 0 r2 C0) + 2 * Re (nth 0 r3 C0) + Re (nth 0 r4 C0))).
    { destruct (nth_error (e_fields e) i) as [d|] eqn:Ed; [|apply nth_error_None in Ed; lia]. assert (Ld := all_length_nth n _ _ _ Hf Ed).
      assert (Ey : nth_error Y i = Some (fft ft d)) by (unfold Y; rewrite nth_error_map, Ed; reflexivity). assert (Ly : length (fft ft d) = n) by exact (gt_fft_len _ _ GT _ Ld).
      destruct (get_denum_some P t e i (length (fft ft d))) as (a & Ha); [lia|]. assert (Hx := HF i _ a r1 r2 r3 r4 Ey Ha E1 E2 E3 E4). cbn [apply_filter] in Hx.
      rewrite Ly in Ha. unfold P in Ha. rewrite wm_denum in Ha. assert (Za := vo_denum _ _ _ _ _ OK _ _ _ Ha).
      set (y' := map _ (seq 0 n)) in Hx. assert (Ly' : length y' = n) by (unfold y'; rewrite map_length, seq_length; reflexivity). assert (Ld' : length (to_real ft y') = n) by (apply (to_real_length n ft GT); exact Ly').
      rewrite (total_csum n i e' _ Hx Ld'), (total_csum n i e _ Ed Ld), <- (gt_zero _ _ GT _ Ld'), (gt_inverse _ _ GT _ Ly'), <- (gt_zero _ _ GT d Ld).
      unfold y'. rewrite (nth_map_seq (fun j => Cdiv (combine4 dt (nth j (fft ft d) C0) (nth j r1 C0) (nth j r2 C0) (nth j r3 C0) (nth j r4 C0)) (Csub C1 (Cmul (RtoC dt) (nth j a C0))))) by exact Hn.
      rewrite Za, Cdiv_one. unfold combine4.
      destruct (nth 0 (fft ft d) C0), (nth 0 r1 C0), (nth 0 r2 C0), (nth 0 r3 C0), (nth 0 r4 C0). cbn. field. }
    split; [rewrite VV, G1, G2, G3, G4; reflexivity|].
    unfold lp_finished. fold (total n i e'). assert (IE : Re (nth 0 (nth ind (e_derived e') []) C0) = indicator ind (at_amplitudes p ft (e_derived e) s4)) by (unfold indicator; rewrite HDr; reflexivity). rewrite IE.
    destruct (lp_first v); cbn [lp_first lp_integral lp_value]; auto.
  Qed.

  (** With a steady forcing and a steady indicator the total stays the same
      after the first two steps. *)
  Lemma rk4_states clock dt N e st : dt <> 0 -> suits n p e -> vol_history rk4_step p i ind ft dt clock n N e st ->
    forall I0 c, I0 <> 0 ->
    (forall t d S, length d = length (p_calc p) -> rate p i n t (at_amplitudes p ft d S) = c * I0 /\ indicator ind (at_amplitudes p ft d S) = I0) ->
    forall k, (k <= N)%nat -> suits n p (fst (st k)) /\ lp_first (snd (st k)) = (k =? 0)%nat /\ ((1 <= k)%nat -> lp_integral (snd (st k)) = total n i (fst (st k)))
      /\ lp_value (snd (st k)) = (if (k <=? 1)%nat then 0 else - c)
      /\ total n i (fst (st k)) = total n i e + INR (Nat.min k 2) * (dt * (c * I0)).
  Proof.
    intros Hdt He [H0 H1] I0 c HI HC. induction k as [|k IH]; intros Hk.
    - rewrite H0. cbn [fst snd]. split; [exact He|]. split; [reflexivity|]. split; [lia|]. split; [reflexivity|]. cbn. ring.
    - destruct (IH ltac:(lia)) as (I1 & I2 & I3 & I4 & I5). specialize (H1 k ltac:(lia)). destruct (st k) as [ek vk] eqn:Ek. cbn [fst snd] in *.
      destruct (rk4_vol (clock k) dt ek vk I1) as (e' & v' & k1 & s2 & k2 & s3 & k3 & s4 & k4 & E & S' & _ & V & F & G & L). rewrite H1 in E. injection E as E. rewrite E. cbn [fst snd].
      assert (HD := proj2 (proj2 I1)). 
      assert (HRt : forall S, rate p i n (clock k) (at_amplitudes p ft (e_derived ek) S) = c * I0) by (intros S; apply (HC (clock k) _ S HD)).
      assert (HIn : forall S, indicator ind (at_amplitudes p ft (e_derived ek) S) = I0) by (intros S; apply (HC (clock k) _ S HD)).
      cbv zeta in V. rewrite !HRt, !HIn in V. rewrite HIn in L.
      split; [exact S'|]. split; [exact F|]. split; [intros _; exact G|]. rewrite I2 in L. rewrite I4 in V, L. split.
      + destruct k as [|k]; [exact L|]. cbn [Nat.eqb] in L. rewrite L, V, (I3 ltac:(lia)). destruct k as [|k]; cbn [Nat.leb]; field; split; assumption.
      + rewrite V, I5. destruct k as [|[|k]].
        * replace (INR (Nat.min 0 2)) with 0 by reflexivity. replace (INR (Nat.min 1 2)) with 1 by reflexivity. cbn [Nat.leb]. field.
        * replace (INR (Nat.min 1 2)) with 1 by reflexivity. replace (INR (Nat.min 2 2)) with (1 + 1) by reflexivity. cbn [Nat.leb]. field.
        * replace (Nat.min (S (S k)) 2) with 2%nat by lia. replace (Nat.min (S (S (S k))) 2) with 2%nat by lia. cbn [Nat.leb]. field.
  Qed.

  Lemma rk4_suits t dt e v : suits n p e -> exists e' v', vol_step rk4_step p i ind ft dt t n (e, v) = Some (e', v') /\ suits n p e'.
  Proof. intros H. destruct (rk4_vol t dt e v H) as (e' & v' & k1 & s2 & k2 & s3 & k3 & s4 & k4 & E & S' & _). eauto. Qed.
End RK4.
Lemma euler_suits n p i ind ft (OK : vol_ok n p i ind ft) t dt e v : suits n p e -> exists e' v', vol_step euler_step p i ind ft dt t n (e, v) = Some (e', v') /\ suits n p e'.
Proof. intros H. destruct (euler_vol n p i ind ft OK t dt e v H) as (e' & v' & E & S' & _). eauto. Qed.
