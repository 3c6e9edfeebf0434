From Verif Require Import ListAux FileModel ParseProofs RegistryProofs RegistryProofs2 RegistryProofs3 StepProofs SimSpec SimProofs SimProofs2 SimProofs3 SimProofs4 SimProofs5.
From Coq Require Import Lia.
Open Scope nat_scope.

Section Schemes.
  Variables (L : lang) (cs : list call) (es : list eqtext) (m : mstate).
  Hypothesis HD : declared L cs es.
  Hypothesis Em : run_calls new_mstate (cs ++ [CInit]) = Ok m.
  Variables (n : nat) (ft : transform) (lib : library).
  Hypothesis GL : good_library L n lib.
  Hypothesis GT : good_transform n ft.
  Hypothesis Horder : map q_field es = l_fields L.
  Let p := simulation n ft lib m.

  Lemma order_nth i q : nth_error es i = Some q -> nth_error (l_fields L) i = Some (q_field q).
  Proof. intros Hi. rewrite <- Horder, nth_error_map, Hi. reflexivity. Qed.

  Lemma euler_first dt t e q : fits L n m e -> nth_error es 0 = Some q ->
    exists e' d d' a, euler_step p ft None dt t e = Some e' /\ nth_error (e_fields e) 0 = Some d /\ nth_error (e_fields e') 0 = Some d'
    /\ length d' = n /\ get_denum p (spectrum p ft e) 0 t n = Some a
    /\ forall k, k < n -> Csub C1 (Cmul (RtoC dt) (nth k a C0)) <> C0 ->
       forall M, written L cs n ft lib (e_fields e) (spectrum p ft e) t q k M ->
       Cmul (Csub C1 (Cmul (RtoC dt) (nth k a C0))) (Csub (nth k (fft ft d') C0) (nth k (fft ft d) C0))
       = Cmul (RtoC dt) (Cadd M (source_sum cs lib t 0 k)).
  Proof.
    intros Hf Hq. destruct (declared_rhs L cs es HD) as (m' & Em' & _ & HR). rewrite Em in Em'. injection Em' as <-.
    destruct (HR n ft lib e t 0 q GL Hf Hq (order_nth 0 q Hq)) as (r & a & y & Er & Ea & Ey & Lr & La & HV). fold p in Er, Ea, Ey, HV.
    destruct (euler_step_sequential p ft None dt t e (sim_enough L cs es m HD Em n ft lib Horder e Hf)) as (e' & Y' & Es & Ef & LY & HY).
    assert (Ly : length y = n) by (apply (spectrum_length n p ft GT e (proj1 (proj2 Hf)) 0 y Ey)).
    destruct (HY 0 y Ey) as (r' & a' & Er' & Ea' & HY0). rewrite Ly in Er', Ea'. cbn [firstn skipn app] in Er', Ea'.
    assert (Emix : {| e_fields := e_fields (spectrum p ft e); e_derived := e_derived (spectrum p ft e) |} = spectrum p ft e) by (destruct (spectrum p ft e); reflexivity).
    rewrite Emix in Er', Ea'. rewrite Er in Er'. injection Er' as <-. rewrite Ea in Ea'. injection Ea' as <-.
    assert (Hd : exists d, nth_error (e_fields e) 0 = Some d /\ y = fft ft d).
    { unfold spectrum in Ey. cbn [e_fields] in Ey. rewrite nth_error_map in Ey. destruct (nth_error (e_fields e) 0) as [d|]; [|discriminate]. injection Ey as <-. eauto. }
    destruct Hd as (d & Hd & ->). cbn [apply_filter] in HY0.
    assert (LY0 : length (map3 (semi_implicit dt) (fft ft d) r a) = n) by (rewrite (map3_length _ _ _ _ n) by assumption; reflexivity).
    exists e', d, (to_real ft (map3 (semi_implicit dt) (fft ft d) r a)), a. split; [exact Es|]. split; [exact Hd|].
    split; [rewrite Ef, nth_error_map, HY0; reflexivity|]. split.
    { unfold to_real. rewrite div_real_length. apply (gt_ifft_len n ft GT), LY0. }
    split; [exact Ea|]. intros k Hk Hne M HW. rewrite (gt_inverse n ft GT _ LY0), (nth_map3 (semi_implicit dt) _ _ _ k n) by assumption.
    rewrite <- (HV k Hk M HW). unfold semi_implicit. field. exact Hne.
  Qed.

  Lemma stage_written t e i q S K a : fits L n m e -> field_independent cs lib -> length S = length (e_fields e) -> all_length n S ->
    nth_error es i = Some q -> nonlinear_part p ft t (e_derived e) S K -> get_denum p e i t n = Some a ->
    forall k, k < n -> as_written L cs n ft lib p (e_derived e) t q i k S (nth k (nth i K []) C0) (nth k a C0).
  Proof.
    intros Hf HI LS AS Hq [LK NK] Ea k Hk M HW.
    destruct (declared_rhs L cs es HD) as (m' & Em' & _ & HR). rewrite Em in Em'. injection Em' as <-.
    set (e1 := {| e_fields := map (to_real ft) S; e_derived := e_derived e |}).
    assert (Hback : map (fft ft) (map (to_real ft) S) = S).
    { rewrite map_map. rewrite <- (map_id S) at 2. apply map_ext_in. intros x Hx. apply (gt_inverse n ft GT). unfold all_length in AS. rewrite Forall_forall in AS. apply AS, Hx. }
    assert (Hf1 : fits L n m e1).
    { destruct Hf as (H1 & H2 & H3). split; [cbn [e1 e_fields]; rewrite map_length; congruence|]. split; [|exact H3]. cbn [e1 e_fields].
      unfold all_length in *. rewrite Forall_forall in *. intros x Hx. apply in_map_iff in Hx. destruct Hx as (y & <- & Hy). unfold to_real. rewrite div_real_length. apply (gt_ifft_len n ft GT), AS, Hy. }
    assert (Esp : spectrum p ft e1 = at_amplitudes p ft (e_derived e) S).
    { unfold spectrum, at_amplitudes, e1. cbn [e_fields]. rewrite Hback. reflexivity. }
    destruct (HR n ft lib e1 t i q GL Hf1 Hq (order_nth i q Hq)) as (r & a' & y & Er & Ea' & Ey & Lr & La & HV). fold p in Er, Ea', Ey, HV.
    rewrite Esp in Er, Ea', Ey, HV. rewrite (sim_denum L cs es m HD Em n ft lib HI (at_amplitudes p ft (e_derived e) S) e) in Ea'. fold p in Ea'. rewrite Ea in Ea'. injection Ea' as <-.
    cbn [at_amplitudes e_fields] in Ey. assert (Ly : length y = n) by (apply (all_length_nth n S i y AS Ey)).
    assert (HK := NK i y Ey). rewrite Ly, Er in HK. rewrite (nth_error_nth _ _ _ HK), (nth_error_nth _ _ _ Ey). exact (HV k Hk M HW).
  Qed.

  Lemma part_length t e S K : length S = length (e_fields e) -> fits L n m e -> all_length n S -> nonlinear_part p ft t (e_derived e) S K -> all_length n K /\ length K = length S.
  Proof.
    intros LS Hf AS [LK NK]. split; [|exact LK]. apply all_length_intro. intros i d Hd.
    assert (Hi : i < length S) by (rewrite <- LK; apply nth_error_Some; congruence).
    destruct (nth_error S i) as [y|] eqn:Ey; [|apply nth_error_None in Ey; lia]. rewrite (NK i y Ey), (all_length_nth n S i y AS Ey) in Hd.
    exact (get_rhs_length n p _ i t d (sim_keeps_length L m n ft lib GL) Hd).
  Qed.
  Lemma stage_length h t e Y K S : fits L n m e -> length Y = length (e_fields e) -> all_length n Y -> all_length n K -> length K = length Y ->
    implicit_stage p h t e Y K S -> all_length n S /\ length S = length (e_fields e).
  Proof.
    intros Hf LY AY AK LK [LS NS]. split; [|congruence]. apply all_length_intro. intros i d Hd.
    assert (Hi : i < length Y) by (rewrite <- LS; apply nth_error_Some; congruence).
    destruct (nth_error Y i) as [y|] eqn:Ey; [|apply nth_error_None in Ey; lia].
    destruct (nth_error K i) as [k|] eqn:Ek; [|apply nth_error_None in Ek; lia].
    assert (Ly := all_length_nth n Y i y AY Ey). assert (Lk := all_length_nth n K i k AK Ek).
    destruct (get_denum_some p t e i n) as (a & Ea).
    { pose proof (sim_enough L cs es m HD Em n ft lib Horder e Hf) as H. fold p in H. lia. }
    rewrite <- Ly in Ea. rewrite (NS i y k a Ey Ek Ea) in Hd. injection Hd as <-. rewrite Ly in Ea.
    rewrite (map3_length _ _ _ _ n); [reflexivity|exact Ly|exact Lk|]. exact (get_denum_length n p e i t a (sim_keeps_length L m n ft lib GL) Ea).
  Qed.
  Lemma stage_nth h t e Y K S i a k : length Y = length (e_fields e) -> all_length n Y -> all_length n K -> length K = length Y -> i < length Y ->
    implicit_stage p h t e Y K S -> get_denum p e i t n = Some a -> k < n ->
    nth k (nth i S []) C0 = semi_implicit h (nth k (nth i Y []) C0) (nth k (nth i K []) C0) (nth k a C0).
  Proof.
    intros LY AY AK LK Hi [LS NS] Ea Hk.
    destruct (nth_error Y i) as [y|] eqn:Ey; [|apply nth_error_None in Ey; lia].
    destruct (nth_error K i) as [r|] eqn:Ek; [|apply nth_error_None in Ek; lia].
    assert (Ly := all_length_nth n Y i y AY Ey). assert (Lk := all_length_nth n K i r AK Ek). assert (Ea' := Ea). rewrite <- Ly in Ea'.
    rewrite (nth_error_nth _ _ _ (NS i y r a Ey Ek Ea')), (nth_error_nth _ _ _ Ey), (nth_error_nth _ _ _ Ek).
    apply (nth_map3 (semi_implicit h) y r a k n); try assumption. exact (get_denum_length n p e i t a (sim_keeps_length L m n ft lib GL) Ea).
  Qed.

  Lemma rk4_written dt t e : fits L n m e -> field_independent cs lib ->
    exists S1 S2 S3 S4 K1 K2 K3 K4 e', rk4_step p ft None dt t e = Some e' /\ length (e_fields e') = length (e_fields e)
    /\ S1 = map (fft ft) (e_fields e) /\ Forall (fun S => length S = length (e_fields e) /\ all_length n S) [S1; S2; S3; S4]
    /\ forall i q, nth_error es i = Some q -> exists a d', get_denum p e i t n = Some a /\ nth_error (e_fields e') i = Some d' /\ length d' = n
    /\ forall k, k < n ->
       let at_ := fun S : list data => nth k (nth i S []) C0 in let ak := nth k a C0 in
       as_written L cs n ft lib p (e_derived e) t q i k S1 (at_ K1) ak
       /\ at_ S2 = semi_implicit (dt / 2) (at_ S1) (at_ K1) ak /\ as_written L cs n ft lib p (e_derived e) t q i k S2 (at_ K2) ak
       /\ at_ S3 = semi_implicit (dt / 2) (at_ S1) (at_ K2) ak /\ as_written L cs n ft lib p (e_derived e) t q i k S3 (at_ K3) ak
       /\ at_ S4 = semi_implicit dt (at_ S1) (at_ K3) ak /\ as_written L cs n ft lib p (e_derived e) t q i k S4 (at_ K4) ak
       /\ nth k (fft ft d') C0 = Cdiv (combine4 dt (at_ S1) (at_ K1) (at_ K2) (at_ K3) (at_ K4)) (Csub C1 (Cmul (RtoC dt) ak)).
  Proof.
    intros Hf HI. destruct (rk4_step_scheme n p ft None dt t GT (sim_keeps_length L m n ft lib GL) (sim_denum L cs es m HD Em n ft lib HI) (sim_derived m n ft lib) e
      (proj1 (proj2 Hf)) (sim_enough L cs es m HD Em n ft lib Horder e Hf) (calc_count L m n ft lib e Hf))
      as (k1 & s2 & k2 & s3 & k3 & s4 & k4 & e' & N1 & I2 & N2 & I3 & N3 & I4 & N4 & Es & Lf & _ & Hfin).
    set (Y := map (fft ft) (e_fields e)) in *.
    assert (LY : length Y = length (e_fields e)) by apply map_length.
    assert (AY : all_length n Y).
    { unfold all_length, Y. apply Forall_forall. intros x Hx. apply in_map_iff in Hx. destruct Hx as (d & <- & Hd). apply (gt_fft_len n ft GT).
      destruct Hf as (_ & H & _). unfold all_length in H. rewrite Forall_forall in H. apply H, Hd. }
    destruct (part_length t e Y k1 LY Hf AY N1) as [A1 L1].
    destruct (stage_length (dt / 2) t e Y k1 s2 Hf LY AY A1 L1 I2) as [AS2 LS2]. destruct (part_length t e s2 k2 LS2 Hf AS2 N2) as [A2 L2].
    assert (L2' : length k2 = length Y) by congruence.
    destruct (stage_length (dt / 2) t e Y k2 s3 Hf LY AY A2 L2' I3) as [AS3 LS3]. destruct (part_length t e s3 k3 LS3 Hf AS3 N3) as [A3 L3].
    assert (L3' : length k3 = length Y) by congruence.
    destruct (stage_length dt t e Y k3 s4 Hf LY AY A3 L3' I4) as [AS4 LS4]. destruct (part_length t e s4 k4 LS4 Hf AS4 N4) as [A4 L4].
    assert (L4' : length k4 = length Y) by congruence.
    exists Y, s2, s3, s4, k1, k2, k3, k4, e'. split; [exact Es|]. split; [exact Lf|]. split; [reflexivity|]. split; [repeat constructor; assumption|]. intros i q Hq.
    assert (Hi : i < length Y).
    { rewrite LY. destruct Hf as (-> & _). rewrite <- Horder, map_length. apply nth_error_Some. congruence. }
    destruct (get_denum_some p t e i n) as (a & Ea).
    { pose proof (sim_enough L cs es m HD Em n ft lib Horder e Hf) as H. fold p in H. lia. }
    assert (NE : forall (l : list data), length l = length Y -> nth_error l i = Some (nth i l [])).
    { intros l Hl. apply nth_error_nth'. lia. }
    assert (LYi : length (nth i Y []) = n) by exact (all_length_nth n Y i _ AY (NE Y eq_refl)).
    assert (Ea' := Ea). rewrite <- LYi in Ea' at 1.
    assert (HF := Hfin i (nth i Y []) a (nth i k1 []) (nth i k2 []) (nth i k3 []) (nth i k4 []) (NE Y eq_refl) Ea' (NE k1 L1) (NE k2 L2') (NE k3 L3') (NE k4 L4')).
    cbn [apply_filter] in HF. eexists a, _. split; [exact Ea|]. split; [exact HF|]. split.
    { unfold to_real. rewrite div_real_length. apply (gt_ifft_len n ft GT). rewrite map_length, seq_length. reflexivity. }
    intros k Hk at_ ak.
    assert (W := fun S K LS AS NK => stage_written t e i q S K a Hf HI LS AS Hq NK Ea k Hk).
    split; [exact (W Y k1 LY AY N1)|]. split; [exact (stage_nth (dt / 2) t e Y k1 s2 i a k LY AY A1 L1 Hi I2 Ea Hk)|].
    split; [exact (W s2 k2 LS2 AS2 N2)|]. split; [exact (stage_nth (dt / 2) t e Y k2 s3 i a k LY AY A2 L2' Hi I3 Ea Hk)|].
    split; [exact (W s3 k3 LS3 AS3 N3)|]. split; [exact (stage_nth dt t e Y k3 s4 i a k LY AY A3 L3' Hi I4 Ea Hk)|].
    split; [exact (W s4 k4 LS4 AS4 N4)|].
    rewrite (gt_inverse n ft GT) by (rewrite map_length, seq_length; reflexivity). rewrite nth_map_seq by exact Hk. reflexivity.
  Qed.
End Schemes.
