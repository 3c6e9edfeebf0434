From Verif Require ConserveProofs.
From Verif Require Import ListAux FileModel SimSpec SimProofs SimProofs2 SimProofs3 SimProofs4 SimProofs5 SplitProofs4 StepProofs EquationProofs4 SolverSpec SolverProofs ResumeProofs WatchModel WatchSpec WatchProofs.
From Coq Require Import Reals Lia Lra.
From Verif Require Import Complex.
Open Scope R_scope.

(** ** What a Runge-Kutta step leaves in the registered functions *)
Section Stage.
  Variables (n : nat) (p : pde) (ft : transform) (filt : option (R -> R)) (dt t : R).
  Hypothesis GT : good_transform n ft.
  Hypothesis KL : keeps_length n p.
  Hypothesis CD : constant_denum p.
  Hypothesis DF : derived_from_fields p.

  Lemma correction_derived h k Y d0 e : all_length n Y -> all_length n k -> length k = length Y ->
    (length Y <= length (p_eqns p))%nat -> length (e_derived e) = length d0 -> length d0 = length (p_calc p) ->
    exists St e' k', implicit_stage p h t e Y k St /\ correction p ft h t k (with_fields e Y) = Some (e', k') /\
      e_derived e' = e_derived (at_amplitudes p ft d0 St) /\ nonlinear_part p ft t d0 St k' /\ all_length n k'.
  Proof.
    intros HY Hk Hkl HlY Hd Hc.
    destruct (stage_exists n p t KL h k Y e HY Hk Hkl HlY) as (St & HSt & HSl).
    unfold correction.
    destruct (stage_fields_spec n p ft t CD h k Y HY Hk Hkl HlY (length Y) 0 (with_fields e Y)) as (e1 & E1 & L1 & D1 & N1);
      [reflexivity|reflexivity|reflexivity|intros; lia|].
    change (length (e_fields (with_fields e Y))) with (length Y). rewrite E1.
    assert (F1 : e_fields e1 = map (to_real ft) St).
    { apply nth_error_ext. intros j. rewrite nth_error_map.
      destruct (nth_error Y j) as [y|] eqn:Ey.
      - assert (Hj : (j < length Y)%nat) by (apply nth_error_Some; congruence).
        destruct (nth_error k j) as [kj|] eqn:Ek; [|apply nth_error_None in Ek; lia].
        destruct (get_denum_some p t e j n) as (a & Ha); [lia|].
        rewrite (N1 j y kj a); [|exact Ey|exact Ek|rewrite (CD _ e); exact Ha].
        destruct HSt as [_ HSt]. rewrite (HSt j y kj a Ey Ek); [reflexivity|].
        rewrite (all_length_nth n Y j y HY Ey). exact Ha.
      - apply nth_error_None in Ey. destruct HSt as [HSL _].
        rewrite (proj2 (nth_error_None (e_fields e1) j)) by lia.
        rewrite (proj2 (nth_error_None St j)) by lia. reflexivity. }
    rewrite sync_fields, F1, map_map.
    assert (F2 : map (fun x => fft ft (to_real ft x)) St = St).
    { rewrite <- (map_id St) at 2. apply map_ext_in. intros x Hx. unfold all_length in HSl. rewrite Forall_forall in HSl.
      apply (gt_inverse n ft GT). auto. }
    rewrite F2. cbn [e_fields].
    set (e3 := {| e_fields := St; e_derived := map (fft ft) (e_derived (sync p e1)) |}).
    assert (E3 : e3 = at_amplitudes p ft d0 St).
    { unfold e3, at_amplitudes. f_equal. f_equal. rewrite <- F1.
      destruct e1 as [f1 d1]. cbn [e_fields e_derived] in *. apply DF; [rewrite D1; cbn; lia|exact Hc]. }
    assert (HSL : length St = length Y) by apply HSt.
    destruct (rhs_all_spec n p ft t GT KL e3 St 0) as (k' & Ek' & Lk' & Ak' & Nk'); [cbn; lia|exact HSl|].
    rewrite Ek'. exists St, e3, k'. split; [exact HSt|]. split; [reflexivity|]. split; [rewrite E3; reflexivity|]. split; [|exact Ak'].
    split; [exact Lk'|]. intros i y Hy. rewrite (Nk' i y Hy), E3. reflexivity.
  Qed.

  Lemma rk4_whole e e' : all_length n (e_fields e) -> (length (e_fields e) <= length (p_eqns p))%nat ->
    length (e_derived e) = length (p_calc p) -> rk4_step p ft filt dt t e = Some e' ->
    let Y := map (fft ft) (e_fields e) in
    exists k1 s2 k2 s3 k3 s4 k4,
      nonlinear_part p ft t (e_derived e) Y k1 /\
      implicit_stage p (dt / 2) t e Y k1 s2 /\ nonlinear_part p ft t (e_derived e) s2 k2 /\
      implicit_stage p (dt / 2) t e Y k2 s3 /\ nonlinear_part p ft t (e_derived e) s3 k3 /\
      implicit_stage p dt t e Y k3 s4 /\ nonlinear_part p ft t (e_derived e) s4 k4 /\
      length (e_fields e') = length (e_fields e) /\ e_derived e' = e_derived (at_amplitudes p ft (e_derived e) s4) /\
      forall i y a r1 r2 r3 r4, nth_error Y i = Some y -> get_denum p e i t (length y) = Some a ->
        nth_error k1 i = Some r1 -> nth_error k2 i = Some r2 -> nth_error k3 i = Some r3 -> nth_error k4 i = Some r4 ->
        nth_error (e_fields e') i = Some (to_real ft (apply_filter filt ft
          (map (fun j => Cdiv (combine4 dt (nth j y C0) (nth j r1 C0) (nth j r2 C0) (nth j r3 C0) (nth j r4 C0))
                              (Csub C1 (Cmul (RtoC dt) (nth j a C0)))) (seq 0 n)))).
  Proof.
    intros Hlen Heq Hcalc ER. set (Y := map (fft ft) (e_fields e)).
    assert (HY : all_length n Y).
    { unfold all_length, Y in *. rewrite Forall_forall in *. intros d Hd. apply in_map_iff in Hd. destruct Hd as (x & <- & Hx).
      apply (gt_fft_len n ft GT). auto. }
    assert (LY : length Y = length (e_fields e)) by apply map_length.
    set (d0 := e_derived e).
    set (e2 := {| e_fields := Y; e_derived := map (fft ft) (e_derived (sync p e)) |}).
    assert (E2 : e2 = at_amplitudes p ft d0 Y).
    { unfold e2, at_amplitudes. f_equal. f_equal. f_equal. unfold Y. rewrite map_map.
      assert (I : map (fun x => to_real ft (fft ft x)) (e_fields e) = e_fields e).
      { rewrite <- (map_id (e_fields e)) at 2. apply map_ext_in. intros x Hx. apply (gt_left n ft GT).
        unfold all_length in Hlen. rewrite Forall_forall in Hlen. auto. }
      rewrite I. destruct e; reflexivity. }
    destruct (rhs_all_spec n p ft t GT KL e2 Y 0) as (k1 & Ek1 & Lk1 & Ak1 & Nk1); [cbn; lia|exact HY|].
    assert (N1 : nonlinear_part p ft t d0 Y k1).
    { split; [exact Lk1|]. intros i y Hy. rewrite (Nk1 i y Hy), E2. reflexivity. }
    assert (Le2 : length (e_derived e2) = length d0).
    { unfold e2. cbn. rewrite map_length. unfold sync. apply sync_from_count. }
    destruct (correction_spec n p ft t GT KL CD DF (1 / 2 * dt) k1 Y d0 e2 HY Ak1 Lk1 ltac:(lia) Le2 Hcalc) as (s2 & k2 & e3 & S2 & AS2 & C2 & N2 & A2 & L3).
    assert (Lk2 : length k2 = length Y) by (destruct N2 as [N2 _]; destruct S2 as [S2 _]; lia).
    destruct (correction_spec n p ft t GT KL CD DF (1 / 2 * dt) k2 Y d0 e3 HY A2 Lk2 ltac:(lia) L3 Hcalc) as (s3 & k3 & e4 & S3 & AS3 & C3 & N3 & A3 & L4).
    assert (Lk3 : length k3 = length Y) by (destruct N3 as [N3 _]; destruct S3 as [S3 _]; lia).
    destruct (correction_derived (1 * dt) k3 Y d0 e4 HY A3 Lk3 ltac:(lia) L4 Hcalc) as (s4 & e5 & k4 & S4 & C4 & D5 & N4 & A4).
    assert (ST : forall h ee K St, implicit_stage p h t ee Y K St -> implicit_stage p h t e Y K St).
    { intros h ee K St [H1 H2]. split; [exact H1|]. intros i y k a Hy Hk Ha. apply (H2 i y k a Hy Hk).
      rewrite (CD _ e). exact Ha. }
    assert (Lk4 : length k4 = length Y) by (destruct N4 as [N4 _]; destruct S4 as [S4 _]; lia).
    set (f4 := accumulate (1 / 6 * dt) (accumulate (1 / 3 * dt) (accumulate (1 / 3 * dt) (accumulate (1 / 6 * dt) Y k1) k2) k3) k4).
    assert (Lf : length f4 = length Y).
    { unfold f4. rewrite !accumulate_length; auto; rewrite ?accumulate_length; auto; rewrite ?accumulate_length; auto; rewrite ?accumulate_length; auto. }
    destruct (finish_fields_spec n p ft filt dt t CD f4 Y HY Lf ltac:(lia) (length Y) 0 (with_fields e5 Y)) as (e6 & E6 & L6 & N6);
      [reflexivity|reflexivity|reflexivity|intros; lia|].
    unfold rk4_step in ER. rewrite sync_fields in ER. fold Y in ER. fold e2 in ER. rewrite Ek1, C2, C3, C4 in ER. fold f4 in ER. rewrite E6 in ER. injection ER as <-.
    replace (1 / 2 * dt) with (dt / 2) in * by field. replace (1 * dt) with dt in * by ring.
    exists k1, s2, k2, s3, k3, s4, k4.
    split; [exact N1|]. split; [eapply ST; exact S2|]. split; [exact N2|].
    split; [eapply ST; exact S3|]. split; [exact N3|]. split; [eapply ST; exact S4|]. split; [exact N4|].
    cbn [e_fields e_derived]. rewrite map_length. split; [lia|].
    split; [rewrite (finish_fields_derived _ _ _ _ _ _ _ _ _ _ E6); exact D5|].
    intros i y a r1 r2 r3 r4 Hy Ha H1 H2 H3 H4.
    rewrite (all_length_nth n Y i y HY Hy) in Ha.
    rewrite nth_error_map.
    rewrite (N6 i (map2 (fun y k => Cadd y (Cmul (RtoC (1 / 6 * dt)) k))
     (map2 (fun y k => Cadd y (Cmul (RtoC (1 / 3 * dt)) k))
      (map2 (fun y k => Cadd y (Cmul (RtoC (1 / 3 * dt)) k))
       (map2 (fun y k => Cadd y (Cmul (RtoC (1 / 6 * dt)) k)) y r1) r2) r3) r4) a).
    - cbn [option_map]. rewrite (combine4_steps dt y r1 r2 r3 r4 a n);
        [reflexivity|exact (all_length_nth n Y i y HY Hy)|exact (all_length_nth n k1 i r1 Ak1 H1)|exact (all_length_nth n k2 i r2 A2 H2)
        |exact (all_length_nth n k3 i r3 A3 H3)|exact (all_length_nth n k4 i r4 A4 H4)|exact (get_denum_length n p e i t a KL Ha)].
    - unfold f4. repeat (apply accumulate_nth; [|assumption]). assumption.
    - rewrite (CD _ e). exact Ha.
  Qed.

  Lemma rk4_derived e e' : all_length n (e_fields e) -> (length (e_fields e) <= length (p_eqns p))%nat ->
    length (e_derived e) = length (p_calc p) -> rk4_step p ft filt dt t e = Some e' ->
    exists fs, predicted p ft dt t e fs /\ e_derived e' = map (fft ft) (e_derived (sync p {| e_fields := fs; e_derived := e_derived e |})).
  Proof.
    intros Hlen Heq Hcalc ER. destruct (rk4_whole e e' Hlen Heq Hcalc ER) as (k1 & s2 & k2 & s3 & k3 & s4 & k4 & N1 & S2 & N2 & S3 & N3 & S4 & _ & _ & HDr & _).
    exists (map (to_real ft) s4). split; [|exact HDr]. exists k1, s2, k2, s3, k3, s4. auto 10.
  Qed.
End Stage.

Lemma finite_choice {A} N (Q : nat -> A -> Prop) (a0 : A) : (forall j, (j < N)%nat -> exists a, Q j a) -> exists f, forall j, (j < N)%nat -> Q j (f j).
Proof.
  induction N as [|N IH]; intros H; [exists (fun _ => a0); intros; lia|]. destruct IH as (f & Hf); [intros j Hj; apply H; lia|]. destruct (H N) as (a & Ha); [lia|].
  exists (fun j => if Nat.eqb j N then a else f j). intros j Hj. destruct (Nat.eqb_spec j N) as [->|Q']; [exact Ha|apply Hf; lia].
Qed.

(** ** Monitors of registered functions with RK4 *)
Section Watch2.
  Variables (L : lang) (cs : list call) (es : list eqtext) (m : mstate).
  Hypothesis HDc : declared L cs es.
  Hypothesis Em : run_calls new_mstate (cs ++ [CInit]) = Ok m.
  Variables (n : nat) (ft : transform) (lib : library).
  Hypothesis GT : good_transform n ft.
  Hypothesis GL : good_library L n lib.
  Hypothesis FI : field_independent cs lib.
  Hypothesis HO : map q_field es = l_fields L.
  Let p := simulation n ft lib m.
  Let KL : keeps_length n p := sim_keeps_length L m n ft lib GL.
  Let CD : constant_denum p := sim_denum L cs es m HDc Em n ft lib FI.
  Let DF : derived_from_fields p := sim_derived m n ft lib.

  Lemma rk4_keeps filt dt t e e' : fits L n m e -> rk4_step p ft filt dt t e = Some e' -> fits L n m e'.
  Proof.
    intros Hf ER. assert (Hf' := Hf). destruct Hf' as (H1 & H2 & H3). assert (HE := sim_enough L cs es m HDc Em n ft lib HO e Hf). fold p in HE.
    destruct (rk4_step_scheme n p ft filt dt t GT KL CD DF e H2 HE) as (k1 & s2 & k2 & s3 & k3 & s4 & k4 & e2 & N1 & S2 & N2 & S3 & N3 & S4 & N4 & ER2 & Lf & Ld & HN).
    { unfold p, simulation. cbn [p_calc]. rewrite map_length. exact H3. }
    rewrite ER in ER2. injection ER2 as <-. split; [lia|]. split; [|lia].
    apply Forall_forall. intros d Hd. apply In_nth_error in Hd. destruct Hd as (i & Hi).
    assert (Hlt : (i < length (e_fields e))%nat) by (rewrite <- Lf; apply nth_error_Some; congruence).
    assert (LY : length (map (fft ft) (e_fields e)) = length (e_fields e)) by apply map_length.
    destruct (nth_error (map (fft ft) (e_fields e)) i) as [y|] eqn:Ey; [|apply nth_error_None in Ey; lia].
    destruct (get_denum_some p t e i (length y)) as (a & Ha); [lia|].
    assert (G : forall k : list data, length k = length (e_fields e) -> exists r, nth_error k i = Some r).
    { intros k Hk. destruct (nth_error k i) eqn:E; [eauto|]. apply nth_error_None in E. lia. }
    destruct (G k1) as (r1 & E1); [rewrite <- LY; apply N1|]. destruct (G k2) as (r2 & E2); [rewrite <- LY, <- (proj1 S2); apply N2|].
    destruct (G k3) as (r3 & E3); [rewrite <- LY, <- (proj1 S3); apply N3|]. destruct (G k4) as (r4 & E4); [rewrite <- LY, <- (proj1 S4); apply N4|].
    rewrite (HN i y a r1 r2 r3 r4 Ey Ha E1 E2 E3 E4) in Hi. injection Hi as <-. apply (ConserveProofs.to_real_length n ft GT). rewrite apply_filter_length, map_length, seq_length. reflexivity.
  Qed.

  Lemma rk4_derived_brick filt dt t e e' : fits L n m e -> rk4_step p ft filt dt t e = Some e' ->
    exists fs, predicted p ft dt t e fs /\ forall name c, In name (l_functions L) -> lb_calc lib name = Some c ->
      forall k, brick_at lib (ms_names m) e' k name = nth k (fft ft (c fs)) C0.
  Proof.
    intros Hf ER. assert (Hf' := Hf). destruct Hf' as (H1 & H2 & H3). assert (HE := sim_enough L cs es m HDc Em n ft lib HO e Hf). fold p in HE.
    destruct (rk4_derived n p ft filt dt t GT KL CD DF e e' H2 HE) as (fs & HP & HDr); [|exact ER|].
    { unfold p, simulation. cbn [p_calc]. rewrite map_length. exact H3. }
    exists fs. split; [exact HP|]. intros name c Hn Hc k.
    unfold brick_at. destruct (last_index_in (pm_derived (ms_names m)) name (mi_functions L _ (state_inv L cs es m HDc Em) name Hn)) as (i & Hi).
    rewrite Hi, HDr. f_equal. apply nth_error_nth. rewrite nth_error_map.
    assert (HI : forall c e1 e2, In c (p_calc p) -> e_fields e1 = e_fields e2 -> c e1 = c e2).
    { intros c0 e1 e2 Hin He. apply in_map_iff in Hin. destruct Hin as (x & <- & _). apply calc_of_fields, He. }
    assert (HS := sync_from_nth (p_calc p) HI 0 {| e_fields := fs; e_derived := e_derived e |} i (calc_of n lib (ms_names m) name)). cbn [Nat.add] in HS. unfold sync. rewrite HS.
    - cbn [option_map]. unfold calc_of. rewrite Hc. reflexivity.
    - unfold p, simulation. cbn [p_calc e_derived]. rewrite map_length, H3. lia.
    - unfold p, simulation. cbn [p_calc]. rewrite nth_error_map, (last_index_some _ _ _ Hi). reflexivity.
  Qed.

  Lemma watch_function_rk4 filt dt sv ne ns e k0 s' tr : NoDup (sv_monitors sv) -> (0 < ns)%nat -> fits L n m e ->
    let sp := rk4_stepper p ft filt dt in
    solve sp sv ne ns (e, k0) = Some (s', tr) -> exists hist P, hist 0%nat = (e, k0) /\ hist (ne * ns)%nat = s' /\ history sp hist (ne * ns)
    /\ (forall j, (j < ne * ns)%nat -> predicted p ft dt (time_of dt (snd (hist j))) (fst (hist j)) (P j))
    /\ forall pm k c, In k (sv_monitors sv) -> In (pt_field pm) (l_functions L) -> lb_calc lib (pt_field pm) = Some c ->
       monitored lib m pm k tr = pt_data pm ++ map (fun q => Re (nth (pt_site pm) (fft ft (c (P ((q + 1) * ns - 1)%nat))) C0)) (seq 0 ne).
  Proof.
    intros ND Hns Hsl sp HS. pose proof (proj1 (solve_some sp sv ne ns _ s' tr) HS) as (h & H0 & Hn & Hh & Htr).
    assert (HP : forall s s', fits L n m (fst s) -> st_step sp s = Some s' -> fits L n m (fst s')).
    { intros [e1 k1] s1 H1 E1. unfold sp, rk4_stepper in E1. cbn [st_step fst snd] in E1, H1.
      destruct (rk4_step _ _ _ _ _ _) as [e2|] eqn:E2; [|discriminate]. injection E1 as <-. exact (rk4_keeps _ _ _ _ _ H1 E2). }
    assert (HF : forall j, (j <= ne * ns)%nat -> fits L n m (fst (h j))).
    { intros j Hj. apply (along sp (fun s => fits L n m (fst s)) h (ne * ns) HP Hh); [rewrite H0; exact Hsl|exact Hj]. }
    assert (ST : forall j, (j < ne * ns)%nat -> exists fs, predicted p ft dt (time_of dt (snd (h j))) (fst (h j)) fs
      /\ forall name c, In name (l_functions L) -> lb_calc lib name = Some c -> forall k, brick_at lib (ms_names m) (fst (h (S j))) k name = nth k (fft ft (c fs)) C0).
    { intros j Hj. specialize (Hh j Hj). unfold sp, rk4_stepper in Hh. cbn [st_step] in Hh. destruct (rk4_step _ _ _ _ _ _) as [e2|] eqn:E2; [|discriminate]. injection Hh as Hh. rewrite <- Hh. cbn [fst].
      exact (rk4_derived_brick filt dt _ _ _ (HF j ltac:(lia)) E2). }
    destruct (finite_choice (ne * ns) (fun j fs => predicted p ft dt (time_of dt (snd (h j))) (fst (h j)) fs
      /\ forall name c, In name (l_functions L) -> lb_calc lib name = Some c -> forall k, brick_at lib (ms_names m) (fst (h (S j))) k name = nth k (fft ft (c fs)) C0) [] ST) as (P & HPj).
    exists h, P. split; [exact H0|]. split; [exact Hn|]. split; [exact Hh|]. split; [intros j Hj; apply (HPj j Hj)|].
    intros pm k c Hk Hf Hc. unfold monitored.
    destruct (point_monitor_data sp sv ne ns _ s' tr (fun s j => brick_at lib (ms_names m) (fst s) j (pt_field pm)) (pt_site pm) k (pt_data pm) ND Hk HS) as (h' & H0' & Hh' & E).
    rewrite E. f_equal. apply map_ext_in. intros q Hq. apply in_seq in Hq.
    assert (Heq : forall j, (j <= ne * ns)%nat -> h' j = h j).
    { induction j as [|j IH]; intros Hj; [congruence|]. pose proof (Hh' j ltac:(lia)) as A. pose proof (Hh j ltac:(lia)) as B. rewrite IH in A by lia. congruence. }
    assert (Hr : ((q + 1) * ns <= ne * ns)%nat) by nia.
    rewrite Heq by exact Hr. remember ((q + 1) * ns - 1)%nat as j eqn:Hj. assert (HSj : ((q + 1) * ns)%nat = S j) by nia. rewrite HSj.
    rewrite (proj2 (HPj j ltac:(lia)) (pt_field pm) c Hf Hc). reflexivity.
  Qed.
End Watch2.
