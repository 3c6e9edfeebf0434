(** Conserved fields under ImplicitEuler. *)
From Verif Require Import ListAux StepModel StepSpec StepProofs ConserveProofs SddProofs TrackProofs ImplicitModel ImplicitSpec ImplicitProofs2 Vec CVec Complex.
From Coq Require Import Lia Lra.
Open Scope R_scope.

Lemma total_Re d : total (map Re d) = Re (Csum d).
Proof. induction d as [|z d IH]; [reflexivity|]. cbn [map total Csum]. rewrite IH. destruct z as [a b]. unfold Cadd, Re. cbn [fst]. reflexivity. Qed.
Lemma map4_head (f : C -> C -> C -> C -> C) n : (0 < n)%nat -> forall a b d e, length a = n -> length b = n -> length d = n -> length e = n ->
  nth 0 (map4 f a b d e) C0 = f (nth 0 a C0) (nth 0 b C0) (nth 0 d C0) (nth 0 e C0).
Proof. intros Hn. apply map4_nth. exact Hn. Qed.
Lemma update_zero dt o : ie_update dt o C0 C0 C0 = o.
Proof. replace C0 with (RtoC 0) at 1 by reflexivity. rewrite update_linear, Rmult_0_r, exp_0. change (RtoC 1) with C1. ring. Qed.

Section Conserve.
  Variables (n : nat) (p : pde) (ft : transform) (filt : option (R -> R)) (dt : R) (i : nat).
  Hypothesis Hn : (0 < n)%nat.
  Hypothesis G : good_transform n ft.
  Hypothesis KL : keeps_length n p.
  Hypothesis CO : conserved n p i.

  Lemma residuals_total t e1 : forall fs os prev i0 out, all_length n fs -> all_length n os -> length os = length fs -> all_length n prev ->
    (forall r, (i0 <= i)%nat -> nth_error prev (i - i0) = Some r -> nth 0 r C0 = C0) ->
    residuals p ft dt t e1 i0 (map (fft ft) fs) (map (fft ft) os) prev = Some out ->
    length out = (length fs * n)%nat /\
    ((i0 <= i < i0 + length fs)%nat -> total (part n (i - i0) out) = Re (Csum (nth (i - i0) fs [])) - Re (Csum (nth (i - i0) os []))).
  Proof.
    induction fs as [|d fs IH]; intros [|o os] [|r0 prev] i0 out Hf Ho Hl Hp Hz H; try discriminate; cbn [map residuals] in H; try discriminate.
    { injection H as <-. split; [reflexivity|]. cbn [length]. lia. }
    apply Forall_cons_iff in Hf. destruct Hf as [Ld Hf]. apply Forall_cons_iff in Ho. destruct Ho as [Lo Ho]. apply Forall_cons_iff in Hp. destruct Hp as [Lp Hp]. cbn [length] in Hl.
    assert (Lfd := gt_fft_len _ _ G d Ld). assert (Lfo := gt_fft_len _ _ G o Lo). rewrite Lfd in H.
    destruct (get_rhs p e1 i0 t n) as [r|] eqn:Er; [|discriminate]. destruct (get_denum p e1 i0 t n) as [a|] eqn:Ea; [|discriminate].
    destruct (residuals p ft dt t e1 (S i0) (map (fft ft) fs) (map (fft ft) os) prev) as [out'|] eqn:Eo; [|discriminate]. injection H as <-.
    assert (Lr := get_rhs_length n p e1 i0 t r KL Er). assert (La := get_denum_length n p e1 i0 t a KL Ea).
    destruct (IH os prev (S i0) out' Hf Ho ltac:(lia) Hp) as [Lout Hout]; [|exact Eo|].
    { intros r1 Hi H1. apply (Hz r1); [lia|]. replace (i - i0)%nat with (S (i - S i0)) by lia. exact H1. }
    set (M := map4 (ie_update dt) (fft ft o) a r r0). set (res := map2 Csub (fft ft d) M).
    assert (LM : length M = n) by (apply map4_length; assumption). assert (Ls : length res = n) by (apply StepProofs.map2_length; assumption).
    assert (L1 : length (map Re (div_real (ifft ft res) (INR n))) = n) by (rewrite map_length, div_real_length; apply (gt_ifft_len _ _ G), Ls).
    split; [rewrite app_length, L1, Lout; cbn [length]; lia|]. intros Hi. cbn [length] in Hi.
    destruct (Nat.eq_dec i0 i) as [->|Hne].
    - rewrite Nat.sub_diag. unfold part. rewrite Nat.mul_0_l. cbn [skipn nth]. rewrite firstn_app, firstn_all2 by lia. rewrite L1, Nat.sub_diag. cbn [firstn]. rewrite app_nil_r, total_Re.
      replace (div_real (ifft ft res) (INR n)) with (to_real ft res) by (unfold to_real; rewrite Ls; reflexivity).
      assert (LT : length (to_real ft res) = n) by (unfold to_real; rewrite div_real_length; apply (gt_ifft_len _ _ G), Ls).
      rewrite <- (gt_zero _ _ G (to_real ft res) LT), (gt_inverse _ _ G) by exact Ls. unfold res. rewrite (map2_nth' _ _ _ 0%nat n Lfd LM Hn).
      unfold M. rewrite (map4_head _ n Hn _ _ _ _ Lfo La Lr Lp). destruct CO as [CR CD].
      rewrite (CR _ _ _ Er), (CD _ _ _ Ea), (Hz r0 (le_n i)) by (rewrite Nat.sub_diag; reflexivity). rewrite update_zero.
      rewrite (gt_zero _ _ G d Ld), (gt_zero _ _ G o Lo). unfold Csub, Re. cbn [fst]. reflexivity.
    - replace (i - i0)%nat with (S (i - S i0)) by lia. cbn [nth]. rewrite <- Hout by lia. unfold part. f_equal. f_equal. cbn [Nat.mul]. set (q := ((i - S i0) * n)%nat).
      rewrite skipn_app, skipn_all2 by (rewrite L1; lia). rewrite L1. cbn [app]. f_equal. lia.
  Qed.

  Lemma rhs_all_zero t e1 : forall fs i0 prev, all_length n fs -> rhs_all p e1 t i0 fs = Some prev ->
    forall r, (i0 <= i)%nat -> nth_error prev (i - i0) = Some r -> nth 0 r C0 = C0.
  Proof.
    induction fs as [|d fs IH]; intros i0 prev Hf H r Hi Hr; cbn [rhs_all] in H.
    - injection H as <-. destruct (i - i0)%nat; discriminate.
    - apply Forall_cons_iff in Hf. destruct Hf as [Ld Hf]. rewrite Ld in H. destruct (get_rhs p e1 i0 t n) as [r1|] eqn:Er; [|discriminate]. destruct (rhs_all p e1 t (S i0) fs) as [prev'|] eqn:Ep; [|discriminate].
      injection H as <-. destruct (Nat.eq_dec i0 i) as [->|Hne].
      + rewrite Nat.sub_diag in Hr. injection Hr as <-. destruct CO as [CR _]. exact (CR _ _ _ Er).
      + replace (i - i0)%nat with (S (i - S i0)) in Hr by lia. apply (IH (S i0) prev' Hf Ep r); [lia|exact Hr].
  Qed.
  Lemma rhs_all_progress t e1 : forall fs i0, (i0 + length fs <= length (p_eqns p))%nat -> exists prev, rhs_all p e1 t i0 fs = Some prev.
  Proof.
    induction fs as [|d fs IH]; intros i0 H; cbn [rhs_all]; [eauto|]. cbn [length] in H. destruct (get_rhs_some p t e1 i0 (length d)) as (r & ->); [lia|].
    destruct (IH (S i0)) as (prev & ->); [lia|]. eauto.
  Qed.
  Lemma rhs_all_count t e1 : forall fs i0 prev, rhs_all p e1 t i0 fs = Some prev -> length prev = length fs.
  Proof.
    induction fs as [|d fs IH]; intros i0 prev H; cbn [rhs_all] in H; [injection H as <-; reflexivity|].
    destruct (get_rhs p e1 i0 t (length d)); [|discriminate]. destruct (rhs_all p e1 t (S i0) fs) eqn:E; [|discriminate]. injection H as <-. cbn [length]. f_equal. exact (IH _ _ E).
  Qed.
  Lemma residuals_progress t e1 : forall fs os prev i0, length os = length fs -> length prev = length fs -> (i0 + length fs <= length (p_eqns p))%nat ->
    exists out, residuals p ft dt t e1 i0 (map (fft ft) fs) (map (fft ft) os) prev = Some out.
  Proof.
    induction fs as [|d fs IH]; intros [|o os] [|r0 prev] i0 Hl Hp H; try discriminate; cbn [map residuals]; [eauto|]. cbn [length] in *.
    destruct (get_rhs_some p t e1 i0 (length (fft ft d))) as (r & ->); [lia|]. destruct (get_denum_some p t e1 i0 (length (fft ft d))) as (a & ->); [lia|].
    destruct (IH os prev (S i0)) as (out & ->); [lia|lia|lia|]. eauto.
  Qed.

  Lemma euler_step_progress t e : all_length n (e_fields e) -> (length (e_fields e) <= length (p_eqns p))%nat ->
    exists e2, euler_step p ft filt dt t e = Some e2 /\ all_length n (e_fields e2) /\ length (e_fields e2) = length (e_fields e).
  Proof.
    intros He Hq. unfold euler_step. cbv zeta. rewrite sync_fields.
    set (e2 := {| e_fields := map (fft ft) (e_fields e); e_derived := map (fft ft) (e_derived (sync p e)) |}).
    assert (L2 : length (e_fields e2) = length (e_fields e)) by apply map_length.
    destruct (euler_fields_progress n p ft filt dt Hn t (length (e_fields e)) 0 e2) as (e3 & E3); [lia|lia|]. rewrite E3.
    assert (A2 : all_length n (e_fields e2)) by (apply (map_fft_all n ft G), He). assert (B := euler_fields_lengths n p ft filt dt t KL _ _ _ _ A2 E3). rewrite L2 in B.
    eexists. split; [reflexivity|]. cbn [e_fields]. split; [apply (map_ifft_all n ft G), B|]. rewrite map_length. apply B.
  Qed.

  (** What one step does to the total of field [i]. *)
  Theorem ie_step_total solve t e : all_length n (e_fields e) -> (length (e_fields e) <= length (p_eqns p))%nat -> (i < length (e_fields e))%nat ->
    (forall F x0 e2, ie_problem p ft filt dt t e = Some (F, x0, e2) -> length (solve F x0) = length x0) ->
    exists F x0 e2 e' out, ie_problem p ft filt dt t e = Some (F, x0, e2) /\ ie_step solve p ft filt dt t e = Some e' /\ F (solve F x0) = Some out
      /\ all_length n (e_fields e') /\ length (e_fields e') = length (e_fields e)
      /\ field_total e' i = field_total e i + total (part n i out).
  Proof.
    intros He Hq Hi Hs. unfold ie_problem in Hs. unfold ie_step, ie_problem. cbv zeta in *. rewrite model_fft_fields in *.
    destruct (rhs_all_progress t (model_fft p ft e) (map (fft ft) (e_fields e)) 0) as (prev & EP); [rewrite map_length; lia|]. rewrite EP in *.
    assert (EI : model_ifft ft (model_fft p ft e) = {| e_fields := e_fields e; e_derived := e_derived (model_fft p ft e) |}).
    { unfold model_ifft. rewrite model_fft_fields, (map_round n ft G) by exact He. reflexivity. }
    rewrite EI in *. destruct (euler_step_progress t {| e_fields := e_fields e; e_derived := e_derived (model_fft p ft e) |} He Hq) as (e2 & E2 & He2 & L2). rewrite E2 in *. cbn [e_fields] in L2.
    specialize (Hs _ _ _ eq_refl). set (F := update_equation p ft dt t (map (fft ft) (e_fields e)) prev e2) in *. set (x := solve F (fields2vec (e_fields e2))) in *.
    assert (Lx : length x = (length (e_fields e2) * n)%nat) by (rewrite Hs; change fields2vec with values; apply values_length, He2).
    assert (Hall := vec2fields_all n _ He2 _ Lx). assert (Lv := vec2fields_length (e_fields e2) x).
    assert (LP := rhs_all_count _ _ _ _ _ EP). rewrite map_length in LP.
    destruct (residuals_progress t (model_fft p ft {| e_fields := vec2fields x (e_fields e2); e_derived := e_derived e2 |}) (vec2fields x (e_fields e2)) (e_fields e) prev 0) as (out & EO); [lia|lia|lia|].
    exists F, (fields2vec (e_fields e2)), e2. eexists. exists out. split; [reflexivity|]. split; [reflexivity|].
    split. { fold x. unfold F, update_equation. cbv zeta. rewrite model_fft_fields. cbn [e_fields]. exact EO. }
    cbn [e_fields]. fold x. split; [exact Hall|]. split; [lia|].
    assert (Hp := rhs_all_lengths n p _ t KL _ _ _ (map_fft_all n ft G _ He) EP).
    assert (HZ : forall r, (0 <= i)%nat -> nth_error prev (i - 0) = Some r -> nth 0 r C0 = C0).
    { intros r H0 Hr. exact (rhs_all_zero t _ _ 0 prev (map_fft_all n ft G _ He) EP r H0 Hr). }
    destruct (residuals_total t _ _ _ _ 0 out Hall He ltac:(lia) Hp HZ EO) as [_ HT].
    rewrite Nat.sub_0_r in HT. rewrite (HT ltac:(lia)). unfold field_total. cbn [e_fields]. ring.
  Qed.

  Theorem ie_run_total solve tol : (forall t e F x0 e2, all_length n (e_fields e) -> (length (e_fields e) <= length (p_eqns p))%nat -> (i < length (e_fields e))%nat ->
      ie_problem p ft filt dt t e = Some (F, x0, e2) -> balances_to n i tol solve F x0) ->
    forall N step e, all_length n (e_fields e) -> (length (e_fields e) <= length (p_eqns p))%nat -> (i < length (e_fields e))%nat ->
    exists e', ie_propagate solve p ft filt dt N step e = Some (e', (step + N)%nat) /\ all_length n (e_fields e') /\ length (e_fields e') = length (e_fields e)
      /\ Rabs (field_total e' i - field_total e i) <= INR N * tol.
  Proof.
    intros Hs. induction N as [|N IH]; intros step e He Hq Hi; cbn [ie_propagate].
    - exists e. rewrite Nat.add_0_r. split; [reflexivity|]. split; [exact He|]. split; [reflexivity|]. cbn [INR]. rewrite Rminus_eq_0, Rabs_R0, Rmult_0_l. apply Rle_refl.
    - destruct (ie_step_total solve (ie_time dt step) e He Hq Hi) as (F & x0 & e2 & e1 & out & EP & ES & EF & He1 & L1 & HT).
      { intros F x0 e2 EP. apply (Hs _ e F x0 e2 He Hq Hi EP). }
      rewrite ES. destruct (IH (S step) e1 He1 ltac:(lia) ltac:(lia)) as (e' & ER & He' & L' & HR). exists e'. rewrite ER. split; [f_equal; f_equal; lia|]. split; [exact He'|]. split; [lia|].
      destruct (Hs _ e F x0 e2 He Hq Hi EP) as [_ HB]. specialize (HB out EF). rewrite S_INR.
      replace (field_total e' i - field_total e i) with ((field_total e' i - field_total e1 i) + total (part n i out)) by (rewrite HT; ring).
      refine (Rle_trans _ _ _ (Rabs_triang _ _) _). lra.
  Qed.
End Conserve.

(** The initial guess, an explicit Euler step, leaves nothing to balance. *)
Lemma guess_balances n p ft filt dt i : (0 < n)%nat -> good_transform n ft -> keeps_length n p -> conserved n p i -> keeps_zero filt ->
  forall t e F x0 e2, all_length n (e_fields e) -> (length (e_fields e) <= length (p_eqns p))%nat -> (i < length (e_fields e))%nat ->
  ie_problem p ft filt dt t e = Some (F, x0, e2) -> balances_to n i 0 (fun _ x => x) F x0.
Proof.
  intros Hn G KL CO KZ t e F x0 e2 He Hq Hi EP. split; [reflexivity|]. intros out EO.
  destruct (ie_step_total n p ft filt dt i Hn G KL CO (fun _ x => x) t e He Hq Hi) as (F' & x0' & e2' & e' & out' & EP' & ES & EO' & He' & L' & HT); [reflexivity|].
  rewrite EP in EP'. injection EP' as <- <- <-. rewrite EO in EO'. injection EO' as <-.
  unfold ie_step in ES. rewrite EP in ES. injection ES as <-. unfold field_total in HT. cbn [e_fields] in HT.
  unfold ie_problem in EP. cbv zeta in EP. destruct (rhs_all p (model_fft p ft e) t 0 (e_fields (model_fft p ft e))) as [prev|]; [|discriminate].
  assert (EI : e_fields (model_ifft ft (model_fft p ft e)) = e_fields e) by (unfold model_ifft; cbn [e_fields]; rewrite model_fft_fields; apply (map_round n ft G), He).
  destruct (euler_step_conserve n p ft filt dt i Hn G KL KZ CO t (model_ifft ft (model_fft p ft e)) ltac:(rewrite EI; exact He) ltac:(rewrite EI; exact Hq)) as (e3 & E3 & A3 & L3 & C3).
  rewrite E3 in EP. injection EP as _ <- <-. rewrite EI in C3, L3. destruct (nth_error (e_fields e) i) as [d|] eqn:Ed; [|apply nth_error_None in Ed; lia].
  destruct (C3 d eq_refl) as (d' & Ed' & Es). rewrite (nth_error_nth _ _ _ Ed) in HT.
  assert (TV : forall fs k g, all_length n fs -> nth_error fs k = Some g -> Re (Csum (nth k (vec2fields (fields2vec fs) fs) [])) = Re (Csum g)).
  { clear - Hn. induction fs as [|f fs IH]; intros k g Hf Hk; [destruct k; discriminate|]. apply Forall_cons_iff in Hf. destruct Hf as [Lf Hf]. unfold fields2vec. cbn [map concat vec2fields].
    destruct k as [|k]; cbn [nth nth_error] in *.
    - injection Hk as <-. rewrite firstn_app, firstn_all2 by (rewrite map_length; lia). rewrite map_length, Nat.sub_diag. cbn [firstn]. rewrite app_nil_r, <- !total_Re, (map_map RtoC Re). f_equal. apply map_id.
    - rewrite skipn_app, skipn_all2 by (rewrite map_length; lia). rewrite map_length, Nat.sub_diag. cbn [skipn app]. apply IH; assumption. }
  rewrite (TV _ _ _ A3 Ed'), Es in HT. replace (total (part n i out)) with 0 by lra. rewrite Rabs_R0. apply Rle_refl.
Qed.
