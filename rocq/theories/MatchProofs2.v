From Verif Require Import ListAux FileModel ParseProofs DerivedProofs EquationProofs EquationProofs4 EquationProofs8.
From Verif Require Import RegistryProofs RegistryProofs2 RegistryProofs3 StepProofs SplitSpec MatchSpec SimProofs SimProofs2 SimProofs3 SimProofs4 SimProofs5 SimProofs6 SplitProofs4 MatchProofs.
From Coq Require Import Lia Permutation.
Open Scope nat_scope.

Lemma agree_map rel (f : data -> data) fs fs' : agree rel fs fs' -> agree rel (map f fs) (map f fs').
Proof. intros H i j Hr. rewrite !nth_error_map, (H i j Hr). reflexivity. Qed.

Lemma nth_error_skipn_add {A} : forall k (l : list A) j, nth_error (skipn k l) j = nth_error l (k + j).
Proof. induction k as [|k IH]; intros [|x l] j; [reflexivity|reflexivity|destruct j; reflexivity|apply IH]. Qed.

Lemma nth_error_mix (A B : list data) i a : i <= length A -> nth_error (firstn i A ++ skipn i B) a = if a <? i then nth_error A a else nth_error B a.
Proof.
  intros H. destruct (a <? i) eqn:E.
  - apply Nat.ltb_lt in E. rewrite nth_error_app1 by (rewrite firstn_length; lia). apply nth_error_firstn_lt, E.
  - apply Nat.ltb_ge in E. rewrite nth_error_app2 by (rewrite firstn_length; lia). rewrite firstn_length, Nat.min_l by exact H. rewrite nth_error_skipn_add. f_equal. lia.
Qed.

Section One.
  Variables (L : lang) (cs : list call) (es : list eqtext) (m : mstate).
  Hypothesis HD : declared L cs es.
  Hypothesis Em : run_calls new_mstate (cs ++ [CInit]) = Ok m.
  Variables (n : nat) (ft : transform) (lib : library).
  Hypothesis GL : good_library L n lib.
  Hypothesis GT : good_transform n ft.
  Hypothesis Horder : map q_field es = l_fields L.
  Let p := simulation n ft lib m.

  Lemma to_real_all Y : all_length n Y -> all_length n (map (to_real ft) Y).
  Proof.
    unfold all_length. rewrite !Forall_forall. intros H d Hd. apply in_map_iff in Hd. destruct Hd as (y & <- & Hy).
    unfold to_real. rewrite div_real_length. apply (gt_ifft_len n ft GT), H, Hy.
  Qed.

  Lemma fft_all Y : all_length n Y -> all_length n (map (fft ft) Y).
  Proof.
    unfold all_length. rewrite !Forall_forall. intros H d Hd. apply in_map_iff in Hd. destruct Hd as (y & <- & Hy). apply (gt_fft_len n ft GT), H, Hy.
  Qed.

  Lemma euler_facts filt dt t e : fits L n m e ->
    exists e1 Y, euler_step p ft filt dt t e = Some e1 /\ e_fields e1 = map (to_real ft) Y /\ length Y = length (l_fields L) /\ fits L n m e1
    /\ forall i y, nth_error (map (fft ft) (e_fields e)) i = Some y -> length y = n /\
       let mix := {| e_fields := firstn i Y ++ skipn i (map (fft ft) (e_fields e)); e_derived := e_derived (spectrum p ft e) |} in
       exists r a, get_rhs p mix i t n = Some r /\ get_denum p mix i t n = Some a /\ nth_error Y i = Some (apply_filter filt ft (map3 (semi_implicit dt) y r a)).
  Proof.
    intros Hf. destruct (euler_step_sequential p ft filt dt t e (sim_enough L cs es m HD Em n ft lib Horder e Hf)) as (e1 & Y & Es & Ef & LY & HY).
    change (e_fields (spectrum p ft e)) with (map (fft ft) (e_fields e)) in HY.
    assert (HK := sim_keeps_length L m n ft lib GL). fold p in HK.
    assert (AS := fft_all _ (proj1 (proj2 Hf))).
    assert (Hy : forall i y, nth_error (map (fft ft) (e_fields e)) i = Some y -> length y = n) by (intros i y; apply (all_length_nth n _ i y AS)).
    assert (AY : all_length n Y).
    { apply all_length_intro. intros i d Hd.
      assert (Hlt : i < length (map (fft ft) (e_fields e))) by (rewrite map_length, <- LY; apply nth_error_Some; congruence).
      destruct (nth_error (map (fft ft) (e_fields e)) i) as [y|] eqn:Ey; [|apply nth_error_None in Ey; lia].
      destruct (HY i y Ey) as (r & a & Er & Ea & Hi). rewrite Hd in Hi. injection Hi as ->. rewrite apply_filter_length. rewrite (Hy i y Ey) in Er, Ea.
      apply map3_length; [exact (Hy i y Ey)|exact (get_rhs_length n p _ _ _ _ HK Er)|exact (get_denum_length n p _ _ _ _ HK Ea)]. }
    exists e1, Y. split; [exact Es|]. split; [exact Ef|]. split; [rewrite LY; apply Hf|]. split.
    - split; [rewrite Ef, map_length, LY; apply Hf|]. split; [rewrite Ef; apply to_real_all, AY|].
      destruct Hf as (_ & _ & H3). rewrite <- H3. unfold euler_step in Es.
      destruct (euler_fields _ _ _ _ _ _ _ _) as [e3|] eqn:E3; [|discriminate]. injection Es as <-. cbn [e_derived].
      destruct (euler_fields_keeps _ _ _ _ _ _ _ _ _ E3) as (-> & _). cbn [e_derived]. rewrite map_length. unfold sync. apply sync_from_count.
    - intros i y Ey. split; [exact (Hy i y Ey)|]. cbv zeta. destruct (HY i y Ey) as (r & a & Er & Ea & Hi). rewrite (Hy i y Ey) in Er, Ea. exists r, a. auto.
  Qed.

  Lemma back_all S : all_length n S -> map (fft ft) (map (to_real ft) S) = S.
  Proof.
    intros AS. rewrite map_map. rewrite <- (map_id S) at 2. apply map_ext_in. intros x Hx. apply (gt_inverse n ft GT). unfold all_length in AS. rewrite Forall_forall in AS. apply AS, Hx.
  Qed.
End One.

Section Two.
  Variable rel : nat -> nat -> Prop.
  Variables (L : lang) (cs : list call) (es : list eqtext) (m : mstate) (lib : library).
  Variables (L' : lang) (cs' : list call) (es' : list eqtext) (m' : mstate) (lib' : library).
  Hypothesis HD : declared L cs es.
  Hypothesis HD' : declared L' cs' es'.
  Hypothesis Em : run_calls new_mstate (cs ++ [CInit]) = Ok m.
  Hypothesis Em' : run_calls new_mstate (cs' ++ [CInit]) = Ok m'.
  Variables (n : nat) (ft : transform).
  Hypothesis GL : good_library L n lib.
  Hypothesis GL' : good_library L' n lib'.
  Hypothesis GT : good_transform n ft.
  Hypothesis Horder : map q_field es = l_fields L.
  Hypothesis Horder' : map q_field es' = l_fields L'.
  Hypothesis HC : corresponds rel L cs es lib L' cs' es' lib'.
  Let p := simulation n ft lib m.
  Let p' := simulation n ft lib' m'.
  Variables (filt : option (R -> R)) (dt : R).

  Lemma euler_match t e e' : keeps_order rel -> fits L n m e -> fits L' n m' e' -> agree rel (e_fields e) (e_fields e') ->
    exists e1 e1', euler_step p ft filt dt t e = Some e1 /\ euler_step p' ft filt dt t e' = Some e1' /\ fits L n m e1 /\ fits L' n m' e1'
    /\ agree rel (e_fields e1) (e_fields e1').
  Proof.
    intros HO Hf Hf' HA.
    destruct (euler_facts L cs es m HD Em n ft lib GL GT Horder filt dt t e Hf) as (e1 & Y & Es & Ef & LY & Hf1 & HY).
    destruct (euler_facts L' cs' es' m' HD' Em' n ft lib' GL' GT Horder' filt dt t e' Hf') as (e1' & Y' & Es' & Ef' & LY' & Hf1' & HY').
    fold p in Es, HY. fold p' in Es', HY'.
    exists e1, e1'. split; [exact Es|]. split; [exact Es'|]. split; [exact Hf1|]. split; [exact Hf1'|]. rewrite Ef, Ef'. apply agree_map.
    assert (HS := agree_map rel (fft ft) _ _ HA).
    assert (Hind : forall N i j, i < N -> rel i j -> nth_error Y i = nth_error Y' j).
    { induction N as [|N IH]; intros i j Hi Hr; [lia|]. destruct (co_range _ _ _ _ _ _ _ _ _ HC i j Hr) as [Ri Rj].
      assert (Li : i < length (map (fft ft) (e_fields e))) by (rewrite map_length; destruct Hf as (-> & _); exact Ri).
      destruct (nth_error (map (fft ft) (e_fields e)) i) as [y|] eqn:Ey; [|apply nth_error_None in Ey; lia].
      assert (Ey' := Ey). rewrite (HS i j Hr) in Ey'.
      destruct (HY i y Ey) as (Ly & r & a & Er & Ea & Hi1). destruct (HY' j y Ey') as (_ & r' & a' & Er' & Ea' & Hj1).
      set (mix := {| e_fields := firstn i Y ++ skipn i (map (fft ft) (e_fields e)); e_derived := e_derived (spectrum p ft e) |}) in *.
      set (mix' := {| e_fields := firstn j Y' ++ skipn j (map (fft ft) (e_fields e')); e_derived := e_derived (spectrum p' ft e') |}) in *.
      destruct (rhs_match rel L cs es m lib L' cs' es' m' lib' HD HD' Em Em' n ft GL GL' Horder Horder' HC i j mix mix' e e' t Hr Hf Hf' HA eq_refl eq_refl)
        as (r0 & a0 & F1 & F2 & F3 & F4 & _).
      - unfold mix. cbn [e_fields]. rewrite app_length, firstn_length, skipn_length, map_length. destruct Hf as (-> & _). lia.
      - unfold mix'. cbn [e_fields]. rewrite app_length, firstn_length, skipn_length, map_length. destruct Hf' as (-> & _). lia.
      - intros a1 b1 H1. unfold mix, mix'. cbn [e_fields]. rewrite !nth_error_mix by lia.
        assert (Hlt : (a1 <? i) = (b1 <? j)).
        { destruct (Nat.lt_trichotomy a1 i) as [H|[H|H]].
          - assert (H' := HO _ _ _ _ H1 Hr H). rewrite !(proj2 (Nat.ltb_lt _ _)) by assumption. reflexivity.
          - subst a1. rewrite (co_function _ _ _ _ _ _ _ _ _ HC i b1 j H1 Hr), !Nat.ltb_irrefl. reflexivity.
          - assert (H' := HO _ _ _ _ Hr H1 H). rewrite !(proj2 (Nat.ltb_ge _ _)) by lia. reflexivity. }
        rewrite <- Hlt. destruct (a1 <? i) eqn:E; [|apply HS, H1]. apply Nat.ltb_lt in E. apply IH; [lia|exact H1].
      - fold p in F1, F3. fold p' in F2, F4. rewrite F1 in Er. injection Er as <-. rewrite F2 in Er'. injection Er' as <-. rewrite F3 in Ea. injection Ea as <-. rewrite F4 in Ea'. injection Ea' as <-.
        rewrite Hi1, Hj1. reflexivity. }
    intros i j Hr. exact (Hind (S i) i j (Nat.lt_succ_diag_r i) Hr).
  Qed.

  Lemma euler_match_many : keeps_order rel -> forall steps step e e', fits L n m e -> fits L' n m' e' -> agree rel (e_fields e) (e_fields e') ->
    exists e1 e1', euler_propagate p ft filt dt steps step e = Some (e1, step + steps) /\ euler_propagate p' ft filt dt steps step e' = Some (e1', step + steps)
    /\ agree rel (e_fields e1) (e_fields e1').
  Proof.
    intros HO. induction steps as [|steps IH]; intros step e e' Hf Hf' HA; cbn [euler_propagate].
    - exists e, e'. rewrite Nat.add_0_r. auto.
    - destruct (euler_match (time_of dt step) e e' HO Hf Hf' HA) as (e1 & e1' & -> & -> & Hf1 & Hf1' & HA1).
      destruct (IH (S step) e1 e1' Hf1 Hf1' HA1) as (e2 & e2' & E2 & E2' & HA2). exists e2, e2'.
      replace (step + S steps) with (S step + steps) by lia. auto.
  Qed.

  Hypothesis HI : field_independent cs lib.
  Hypothesis HI' : field_independent cs' lib'.

  Lemma part_match t e e' S S' K K' : fits L n m e -> fits L' n m' e' -> all_length n S -> all_length n S' ->
    length S = length (e_fields e) -> length S' = length (e_fields e') -> agree rel S S' ->
    nonlinear_part p ft t (e_derived e) S K -> nonlinear_part p' ft t (e_derived e') S' K' -> agree rel K K'.
  Proof.
    intros Hf Hf' AS AS' LS LS' HA [LK NK] [LK' NK'] i j Hr. destruct (co_range _ _ _ _ _ _ _ _ _ HC i j Hr) as [Ri Rj].
    assert (Li : i < length S) by (rewrite LS; destruct Hf as (-> & _); exact Ri).
    destruct (nth_error S i) as [y|] eqn:Ey; [|apply nth_error_None in Ey; lia]. assert (Ey' := Ey). rewrite (HA i j Hr) in Ey'.
    rewrite (NK i y Ey), (NK' j y Ey'), (all_length_nth n S i y AS Ey).
    set (e0 := {| e_fields := map (to_real ft) S; e_derived := e_derived e |}). set (e0' := {| e_fields := map (to_real ft) S'; e_derived := e_derived e' |}).
    assert (Hf0 : fits L n m e0).
    { split; [cbn [e0 e_fields]; rewrite map_length, LS; apply Hf|]. split; [apply (to_real_all n ft GT), AS|apply Hf]. }
    assert (Hf0' : fits L' n m' e0').
    { split; [cbn [e0' e_fields]; rewrite map_length, LS'; apply Hf'|]. split; [apply (to_real_all n ft GT), AS'|apply Hf']. }
    assert (Esp : spectrum p ft e0 = at_amplitudes p ft (e_derived e) S) by (unfold spectrum, at_amplitudes, e0; cbn [e_fields]; rewrite (back_all n ft GT S AS); reflexivity).
    assert (Esp' : spectrum p' ft e0' = at_amplitudes p' ft (e_derived e') S') by (unfold spectrum, at_amplitudes, e0'; cbn [e_fields]; rewrite (back_all n ft GT S' AS'); reflexivity).
    destruct (rhs_match rel L cs es m lib L' cs' es' m' lib' HD HD' Em Em' n ft GL GL' Horder Horder' HC i j (at_amplitudes p ft (e_derived e) S) (at_amplitudes p' ft (e_derived e') S') e0 e0' t Hr Hf0 Hf0')
      as (r0 & a0 & F1 & F2 & _).
    - cbn [e0 e0' e_fields]. apply agree_map, HA.
    - fold p. rewrite Esp. reflexivity.
    - fold p'. rewrite Esp'. reflexivity.
    - cbn [at_amplitudes e_fields]. rewrite LS. apply Hf.
    - cbn [at_amplitudes e_fields]. rewrite LS'. apply Hf'.
    - exact HA.
    - fold p in F1. fold p' in F2. rewrite F1, F2. reflexivity.
  Qed.

  Lemma denum_match t e e' i j : rel i j -> fits L n m e -> fits L' n m' e' -> agree rel (e_fields e) (e_fields e') ->
    exists a, get_denum p e i t n = Some a /\ get_denum p' e' j t n = Some a /\ length a = n.
  Proof.
    intros Hr Hf Hf' HA. assert (HS := agree_map rel (fft ft) _ _ HA).
    destruct (rhs_match rel L cs es m lib L' cs' es' m' lib' HD HD' Em Em' n ft GL GL' Horder Horder' HC i j (spectrum p ft e) (spectrum p' ft e') e e' t Hr Hf Hf' HA eq_refl eq_refl)
      as (r0 & a0 & _ & _ & F3 & F4 & _ & La).
    - unfold spectrum. cbn [e_fields]. rewrite map_length. apply Hf.
    - unfold spectrum. cbn [e_fields]. rewrite map_length. apply Hf'.
    - exact HS.
    - exists a0. split; [rewrite <- F3; exact (sim_denum L cs es m HD Em n ft lib HI e (spectrum p ft e) i t n)|].
      split; [rewrite <- F4; exact (sim_denum L' cs' es' m' HD' Em' n ft lib' HI' e' (spectrum p' ft e') j t n)|exact La].
  Qed.

  Lemma stage_match h t e e' Y Y' K K' S S' : fits L n m e -> fits L' n m' e' -> agree rel (e_fields e) (e_fields e') ->
    length Y = length (e_fields e) -> length Y' = length (e_fields e') -> all_length n Y -> length K = length Y ->
    agree rel Y Y' -> agree rel K K' -> implicit_stage p h t e Y K S -> implicit_stage p' h t e' Y' K' S' -> agree rel S S'.
  Proof.
    intros Hf Hf' HA LY LY' AY LK HY HK [LS NS] [LS' NS'] i j Hr. destruct (co_range _ _ _ _ _ _ _ _ _ HC i j Hr) as [Ri Rj].
    destruct (denum_match t e e' i j Hr Hf Hf' HA) as (a & Ea & Ea' & _).
    assert (Li : i < length Y) by (rewrite LY; destruct Hf as (-> & _); exact Ri).
    destruct (nth_error Y i) as [y|] eqn:Ey; [|apply nth_error_None in Ey; lia]. assert (Ey' := Ey). rewrite (HY i j Hr) in Ey'.
    destruct (nth_error K i) as [k|] eqn:Ek; [|apply nth_error_None in Ek; lia]. assert (Ek' := Ek). rewrite (HK i j Hr) in Ek'.
    rewrite <- (all_length_nth n Y i y AY Ey) in Ea, Ea'. rewrite (NS i y k a Ey Ek Ea), (NS' j y k a Ey' Ek' Ea'). reflexivity.
  Qed.

  Lemma rk4_match t e e' : fits L n m e -> fits L' n m' e' -> agree rel (e_fields e) (e_fields e') ->
    exists e1 e1', rk4_step p ft filt dt t e = Some e1 /\ rk4_step p' ft filt dt t e' = Some e1' /\ fits L n m e1 /\ fits L' n m' e1'
    /\ agree rel (e_fields e1) (e_fields e1').
  Proof.
    intros Hf Hf' HA.
    destruct (rk4_step_scheme n p ft filt dt t GT (sim_keeps_length L m n ft lib GL) (sim_denum L cs es m HD Em n ft lib HI) (sim_derived m n ft lib) e
      (proj1 (proj2 Hf)) (sim_enough L cs es m HD Em n ft lib Horder e Hf) (calc_count L m n ft lib e Hf))
      as (k1 & s2 & k2 & s3 & k3 & s4 & k4 & e1 & N1 & I2 & N2 & I3 & N3 & I4 & N4 & Es & Lf & Ld & Hfin).
    destruct (rk4_step_scheme n p' ft filt dt t GT (sim_keeps_length L' m' n ft lib' GL') (sim_denum L' cs' es' m' HD' Em' n ft lib' HI') (sim_derived m' n ft lib') e'
      (proj1 (proj2 Hf')) (sim_enough L' cs' es' m' HD' Em' n ft lib' Horder' e' Hf') (calc_count L' m' n ft lib' e' Hf'))
      as (k1' & s2' & k2' & s3' & k3' & s4' & k4' & e1' & N1' & I2' & N2' & I3' & N3' & I4' & N4' & Es' & Lf' & Ld' & Hfin').
    set (Y := map (fft ft) (e_fields e)) in *. set (Y' := map (fft ft) (e_fields e')) in *.
    assert (AY : all_length n Y) by (apply (fft_all n ft GT), Hf). assert (AY' : all_length n Y') by (apply (fft_all n ft GT), Hf').
    assert (LY : length Y = length (e_fields e)) by apply map_length. assert (LY' : length Y' = length (e_fields e')) by apply map_length.
    assert (HY : agree rel Y Y') by (apply agree_map, HA).
    assert (PL := part_length L m n ft lib GL t e). assert (PL' := part_length L' m' n ft lib' GL' t e').
    assert (SL := fun h => stage_length L cs es m HD Em n ft lib GL Horder h t e). assert (SL' := fun h => stage_length L' cs' es' m' HD' Em' n ft lib' GL' Horder' h t e').
    destruct (PL _ _ LY Hf AY N1) as [A1 L1]. destruct (PL' _ _ LY' Hf' AY' N1') as [A1' L1'].
    assert (H1 := part_match t e e' _ _ _ _ Hf Hf' AY AY' LY LY' HY N1 N1').
    destruct (SL _ _ _ _ Hf LY AY A1 L1 I2) as [AS2 LS2]. destruct (SL' _ _ _ _ Hf' LY' AY' A1' L1' I2') as [AS2' LS2'].
    assert (HS2 := stage_match _ t e e' _ _ _ _ _ _ Hf Hf' HA LY LY' AY L1 HY H1 I2 I2').
    destruct (PL _ _ LS2 Hf AS2 N2) as [A2 L2]. destruct (PL' _ _ LS2' Hf' AS2' N2') as [A2' L2'].
    assert (H2 := part_match t e e' _ _ _ _ Hf Hf' AS2 AS2' LS2 LS2' HS2 N2 N2').
    assert (L2y : length k2 = length Y) by congruence. assert (L2y' : length k2' = length Y') by congruence.
    destruct (SL _ _ _ _ Hf LY AY A2 L2y I3) as [AS3 LS3]. destruct (SL' _ _ _ _ Hf' LY' AY' A2' L2y' I3') as [AS3' LS3'].
    assert (HS3 := stage_match _ t e e' _ _ _ _ _ _ Hf Hf' HA LY LY' AY L2y HY H2 I3 I3').
    destruct (PL _ _ LS3 Hf AS3 N3) as [A3 L3]. destruct (PL' _ _ LS3' Hf' AS3' N3') as [A3' L3'].
    assert (H3 := part_match t e e' _ _ _ _ Hf Hf' AS3 AS3' LS3 LS3' HS3 N3 N3').
    assert (L3y : length k3 = length Y) by congruence. assert (L3y' : length k3' = length Y') by congruence.
    destruct (SL _ _ _ _ Hf LY AY A3 L3y I4) as [AS4 LS4]. destruct (SL' _ _ _ _ Hf' LY' AY' A3' L3y' I4') as [AS4' LS4'].
    assert (HS4 := stage_match _ t e e' _ _ _ _ _ _ Hf Hf' HA LY LY' AY L3y HY H3 I4 I4').
    destruct (PL _ _ LS4 Hf AS4 N4) as [A4 L4]. destruct (PL' _ _ LS4' Hf' AS4' N4') as [A4' L4'].
    assert (H4 := part_match t e e' _ _ _ _ Hf Hf' AS4 AS4' LS4 LS4' HS4 N4 N4').
    assert (L4y : length k4 = length Y) by congruence. assert (L4y' : length k4' = length Y') by congruence.
    assert (FIT : forall (K : lang) ds qs (mm : mstate) ll (ee ee1 : env) YY kk1 kk2 kk3 kk4, declared K ds qs -> run_calls new_mstate (ds ++ [CInit]) = Ok mm -> good_library K n ll -> map q_field qs = l_fields K ->
       fits K n mm ee -> length (e_fields ee1) = length (e_fields ee) -> length (e_derived ee1) = length (e_derived ee) ->
       length YY = length (e_fields ee) -> all_length n YY -> length kk1 = length YY -> length kk2 = length YY -> length kk3 = length YY -> length kk4 = length YY ->
       (forall i y a r1 r2 r3 r4, nth_error YY i = Some y -> get_denum (simulation n ft ll mm) ee i t (length y) = Some a ->
        nth_error kk1 i = Some r1 -> nth_error kk2 i = Some r2 -> nth_error kk3 i = Some r3 -> nth_error kk4 i = Some r4 ->
        nth_error (e_fields ee1) i = Some (to_real ft (apply_filter filt ft
          (map (fun j => Cdiv (combine4 dt (nth j y C0) (nth j r1 C0) (nth j r2 C0) (nth j r3 C0) (nth j r4 C0))
                              (Csub C1 (Cmul (RtoC dt) (nth j a C0)))) (seq 0 n))))) -> fits K n mm ee1).
    { intros K ds qs mm ll ee ee1 YY kk1 kk2 kk3 kk4 D E GK HOK (G1 & G2 & G3) T1 T2 T3 T4 T5 T6 T7 T8 T9.
      split; [congruence|]. split; [|congruence]. apply all_length_intro. intros i d Hd.
      assert (Hi : i < length YY) by (rewrite T3, <- T1; apply nth_error_Some; congruence).
      destruct (nth_error YY i) as [y|] eqn:Ey; [|apply nth_error_None in Ey; lia].
      destruct (nth_error kk1 i) as [r1|] eqn:E1; [|apply nth_error_None in E1; lia].
      destruct (nth_error kk2 i) as [r2|] eqn:E2; [|apply nth_error_None in E2; lia].
      destruct (nth_error kk3 i) as [r3|] eqn:E3; [|apply nth_error_None in E3; lia].
      destruct (nth_error kk4 i) as [r4|] eqn:E4; [|apply nth_error_None in E4; lia].
      destruct (get_denum_some (simulation n ft ll mm) t ee i (length y)) as (a & Ea).
      { assert (HE := sim_enough K ds qs mm D E n ft ll HOK ee (conj G1 (conj G2 G3))). lia. }
      rewrite (T9 i y a r1 r2 r3 r4 Ey Ea E1 E2 E3 E4) in Hd. injection Hd as <-.
      unfold to_real. rewrite div_real_length. apply (gt_ifft_len n ft GT). rewrite apply_filter_length, map_length, seq_length. reflexivity. }
    exists e1, e1'. split; [exact Es|]. split; [exact Es'|].
    split; [exact (FIT L cs es m lib e e1 Y k1 k2 k3 k4 HD Em GL Horder Hf Lf Ld LY AY L1 L2y L3y L4y Hfin)|].
    split; [exact (FIT L' cs' es' m' lib' e' e1' Y' k1' k2' k3' k4' HD' Em' GL' Horder' Hf' Lf' Ld' LY' AY' L1' L2y' L3y' L4y' Hfin')|].
    intros i j Hr. destruct (co_range _ _ _ _ _ _ _ _ _ HC i j Hr) as [Ri Rj].
    destruct (denum_match t e e' i j Hr Hf Hf' HA) as (a & Ea & Ea' & _).
    assert (Li : i < length Y) by (rewrite LY; destruct Hf as (-> & _); exact Ri).
    destruct (nth_error Y i) as [y|] eqn:Ey; [|apply nth_error_None in Ey; lia]. assert (Ey' := Ey). rewrite (HY i j Hr) in Ey'.
    destruct (nth_error k1 i) as [r1|] eqn:E1; [|apply nth_error_None in E1; lia]. assert (E1' := E1). rewrite (H1 i j Hr) in E1'.
    destruct (nth_error k2 i) as [r2|] eqn:E2; [|apply nth_error_None in E2; lia]. assert (E2' := E2). rewrite (H2 i j Hr) in E2'.
    destruct (nth_error k3 i) as [r3|] eqn:E3; [|apply nth_error_None in E3; lia]. assert (E3' := E3). rewrite (H3 i j Hr) in E3'.
    destruct (nth_error k4 i) as [r4|] eqn:E4; [|apply nth_error_None in E4; lia]. assert (E4' := E4). rewrite (H4 i j Hr) in E4'.
    rewrite <- (all_length_nth n Y i y AY Ey) in Ea, Ea'.
    rewrite (Hfin i y a r1 r2 r3 r4 Ey Ea E1 E2 E3 E4), (Hfin' j y a r1 r2 r3 r4 Ey' Ea' E1' E2' E3' E4'). reflexivity.
  Qed.

  Lemma rk4_match_many : forall steps step e e', fits L n m e -> fits L' n m' e' -> agree rel (e_fields e) (e_fields e') ->
    exists e1 e1', rk4_propagate p ft filt dt steps step e = Some (e1, step + steps) /\ rk4_propagate p' ft filt dt steps step e' = Some (e1', step + steps)
    /\ agree rel (e_fields e1) (e_fields e1').
  Proof.
    induction steps as [|steps IH]; intros step e e' Hf Hf' HA; cbn [rk4_propagate].
    - exists e, e'. rewrite Nat.add_0_r. auto.
    - destruct (rk4_match (time_of dt step) e e' Hf Hf' HA) as (e1 & e1' & -> & -> & Hf1 & Hf1' & HA1).
      destruct (IH (S step) e1 e1' Hf1 Hf1' HA1) as (e2 & e2' & E2 & E2' & HA2). exists e2, e2'.
      replace (step + S steps) with (S step + steps) by lia. auto.
  Qed.
End Two.
