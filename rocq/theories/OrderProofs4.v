(** Lemmas for C110: runs of RK4 for declared models whose right-hand sides are
    polynomials without implicit terms. *)
From Verif Require Import ListAux FileModel ParseProofs StepProofs ConserveProofs EquationProps RegistryProps.
From Verif Require Import SplitSpec MatchSpec EquationProofs4 EquationProofs5 MatchProofs3 SimProofs SimProofs2 SimProofs3 SimProofs4 SimProofs5 SimProofs6 SimProps SplitProofs SplitProofs2 SplitProofs3 SplitProofs4.
From Verif Require Import SplitProps MatchProofs MatchProofs2 LawSpec LawProofs LinearProofs2 LinearProofs3 ConvergeProofs LimitProofs LimitProofs2 LimitProofs3 LimitProofs4 LimitProps KeepProps.
From Verif Require EnergyProofs3 ConvergeProps EquationProofs8.
From Verif Require Import DftSpec LimitSpec OrderSpec.
From Coq Require Import Reals Lia Lra Permutation.
From Verif Require Import Complex OrderProofs OrderProofs2 OrderProofs3.
Open Scope R_scope.

(** ** Functions of all amplitudes that are polynomials *)
Section Poly.
  Variables nf n : nat.
  Definition isp (g : grid -> C) : Prop := exists p, inside nf n p /\ forall x, g x = eval p x.
  Lemma isp_ext g g' : (forall x, g x = g' x) -> isp g -> isp g'.
  Proof. intros H (p & Hp & E). exists p. split; [exact Hp|]. intros x. rewrite <- H. apply E. Qed.
  Lemma isp_const c : isp (fun _ => c).
  Proof. exists (PConst c). split; [exact I|reflexivity]. Qed.
  Lemma isp_var i k : (i < nf)%nat -> (k < n)%nat -> isp (fun x => x i k).
  Proof. intros Hi Hk. exists (PVar i k). split; [split; assumption|reflexivity]. Qed.
  Lemma isp_add g h : isp g -> isp h -> isp (fun x => Cadd (g x) (h x)).
  Proof. intros (p & Hp & E) (q & Hq & E'). exists (PAdd p q). split; [split; assumption|]. intros x. cbn [eval]. rewrite E, E'. reflexivity. Qed.
  Lemma isp_mul g h : isp g -> isp h -> isp (fun x => Cmul (g x) (h x)).
  Proof. intros (p & Hp & E) (q & Hq & E'). exists (PMul p q). split; [split; assumption|]. intros x. cbn [eval]. rewrite E, E'. reflexivity. Qed.
  Lemma isp_pow g k : isp g -> isp (fun x => Cpow (g x) k).
  Proof. intros H. induction k as [|k IH]; cbn [Cpow]; [apply isp_const|]. exact (isp_mul _ _ H IH). Qed.
  Lemma isp_sum {A} (l : list A) (g : A -> grid -> C) : (forall a, In a l -> isp (g a)) -> isp (fun x => Csum (map (fun a => g a x) l)).
  Proof.
    induction l as [|a l IH]; intros H; cbn [map Csum]; [apply isp_const|]. apply isp_add; [apply H; left; reflexivity|]. apply IH. intros b Hb. apply H. right. exact Hb.
  Qed.
  (** A linear form of polynomials. *)
  Lemma isp_linear (l : (nat -> C) -> C) (g : nat -> grid -> C) :
    (forall a x y, l (fun j => Cadd (x j) (Cmul a (y j))) = Cadd (l x) (Cmul a (l y))) -> (forall x y, (forall j, (j < n)%nat -> x j = y j) -> l x = l y) ->
    (forall j, (j < n)%nat -> isp (g j)) -> isp (fun x => l (fun j => g j x)).
  Proof.
    intros HL HE HG.
    assert (Z : l (fun _ => C0) = C0).
    { assert (E := HL (RtoC (-1)) (fun _ => C0) (fun _ => C0)). cbv beta in E. rewrite (HE (fun _ => Cadd C0 (Cmul (RtoC (-1)) C0)) (fun _ => C0)) in E by (intros; csolve).
      transitivity (Cadd (l (fun _ => C0)) (Cmul (RtoC (-1)) (l (fun _ => C0)))); [exact E|csolve]. }
    assert (H : forall m, (m <= n)%nat -> isp (fun x => l (fun j => if (j <? m)%nat then g j x else C0))).
    { induction m as [|m IH]; intros Hm.
      - apply (isp_ext (fun _ => C0)); [|apply isp_const]. intros x. transitivity (l (fun _ => C0)); [symmetry; exact Z|]. apply HE. reflexivity.
      - apply (isp_ext (fun x => Cadd (l (fun j => if (j <? m)%nat then g j x else C0)) (Cmul (g m x) (l (fun j => if (j =? m)%nat then C1 else C0))))).
        + intros x. rewrite <- HL. apply HE. intros j _. destruct (Nat.ltb_spec j m), (Nat.eqb_spec j m), (Nat.ltb_spec j (S m)); try lia; subst; csolve.
        + apply isp_add; [apply IH; lia|]. apply isp_mul; [apply HG; lia|apply isp_const]. }
    apply (isp_ext (fun x => l (fun j => if (j <? n)%nat then g j x else C0))); [|apply H; lia].
    intros x. apply HE. intros j Hj. apply Nat.ltb_lt in Hj. rewrite Hj. reflexivity.
  Qed.
  Lemma isp_eval_ext p x y : inside nf n p -> (forall i k, (i < nf)%nat -> (k < n)%nat -> x i k = y i k) -> eval p x = eval p y.
  Proof.
    intros Hp H. induction p as [c|i k|p IHp q IHq|p IHp q IHq]; cbn [eval]; [reflexivity|apply H; apply Hp|rewrite IHp, IHq by apply Hp; reflexivity|rewrite IHp, IHq by apply Hp; reflexivity].
  Qed.
End Poly.

Lemma choose_one {A} (a0 : A) (P : nat -> A -> Prop) n : (forall k, (k < n)%nat -> exists a, P k a) -> exists f, forall k, (k < n)%nat -> P k (f k).
Proof.
  induction n as [|n IH]; intros H; [exists (fun _ => a0); lia|]. destruct IH as (f & Hf); [intros k Hk; apply H; lia|]. destruct (H n ltac:(lia)) as (a & Ha).
  exists (fun k => if (k =? n)%nat then a else f k). intros k Hk. destruct (Nat.eqb_spec k n) as [->|NE]; [exact Ha|apply Hf; lia].
Qed.
Lemma choose_two {A} (a0 : A) (P : nat -> nat -> A -> Prop) m n : (forall i k, (i < m)%nat -> (k < n)%nat -> exists a, P i k a) -> exists f, forall i k, (i < m)%nat -> (k < n)%nat -> P i k (f i k).
Proof.
  intros H. destruct (choose_one (fun _ => a0) (fun i f => forall k, (k < n)%nat -> P i k (f k)) m) as (f & Hf); [intros i Hi; apply (choose_one a0); intros k Hk; apply H; assumption|].
  exists f. intros i k Hi Hk. apply Hf; assumption.
Qed.

Lemma explicit_rates L cs es lib : explicit_polynomial L cs es lib -> polynomial_rates L cs es lib.
Proof. intros [H1 H2 H3 H4 H5 _]. constructor; assumption. Qed.
Lemma rates_smooth L cs es n lib T : declared L cs es -> good_library L n lib -> polynomial_rates L cs es lib -> smooth L cs es n lib T.
Proof.
  intros HD GL [HF HU HS HP Hw]. assert (Hg := dc_good _ _ _ HD). rewrite Forall_forall in Hg.
  assert (Hit : forall q x, In q es -> In x (signed_items q) -> good_item L (fst x)).
  { intros q x Hq Hx. destruct (EquationProofs8.items_good L q (Hg q Hq) _ (Permutation_refl _)) as [Hgs _]. rewrite Forall_forall in Hgs. exact (Hgs _ (in_map fst _ _ Hx)). }
  constructor.
  - intros q x Hq Hx. specialize (Hit q x Hq Hx). destruct (fst x) as [t|os nm]; [exists t; reflexivity|]. destruct Hit as [Hin _]. rewrite HU in Hin. destruct Hin.
  - intros q t s f Hq Ht Hf. unfold field_factors in Hf. apply in_map_iff in Hf. destruct Hf as (w & <- & Hin). apply filter_In in Hin. destruct Hin as [Hin _].
    destruct (Hit q _ Hq Ht) as [(before & fs & after & GP) _].
    destruct (whole_power (wf_fac w) (gp_factors _ _ _ _ _ GP w Hin) (Hw q t s w Hq Ht Hin)) as (k & ->). rewrite HP. apply lipschitz_principal.
  - intros name c r Hc. assert (Hin : In name (l_functions L)) by (apply (lb_functions _ _ _ GL); eauto). rewrite HF in Hin. destruct Hin.
  - intros i s k H _. exists 0. intros t t' _ _. rewrite (HS i s t t' H). replace (Csub _ _) with C0 by csolve. unfold Cnorm2. cbn. lra.
Qed.

Lemma polynomial_smooth L cs es n lib T : declared L cs es -> good_library L n lib -> explicit_polynomial L cs es lib -> smooth L cs es n lib T.
Proof. intros HD GL EP. exact (rates_smooth L cs es n lib T HD GL (explicit_rates _ _ _ _ EP)). Qed.

Section Declared.
  Variables (L : lang) (cs : list call) (es : list eqtext) (m : mstate).
  Hypothesis HD : declared L cs es.
  Hypothesis Em : run_calls new_mstate (cs ++ [CInit]) = Ok m.
  Variables (n : nat) (ft : transform) (lib : library).
  Hypothesis GL : good_library L n lib.
  Hypothesis UT : unitary_transform n ft.
  Hypothesis HO : map q_field es = l_fields L.
  Hypothesis Hn : (0 < n)%nat.
  Hypothesis PR : polynomial_rates L cs es lib.
  Let GT := ut_good n ft UT.
  Let nf := length (l_fields L).

  Lemma natural_factor q t s f : In q es -> In (IProduct t, s) (signed_items q) -> In f (field_factors L t) -> exists k, forall z, lb_pow lib z (factor_power f) = Cpow z k.
  Proof.
    intros Hq Ht Hf. assert (Hg := dc_good _ _ _ HD). rewrite Forall_forall in Hg.
    destruct (EquationProofs8.items_good L q (Hg q Hq) _ (Permutation_refl _)) as [Hgs _]. rewrite Forall_forall in Hgs. assert (GI := Hgs _ (in_map fst _ _ Ht)).
    unfold field_factors in Hf. apply in_map_iff in Hf. destruct Hf as (w & <- & Hin). apply filter_In in Hin. destruct Hin as [Hin _].
    destruct GI as [(before & fs & after & GP) _].
    destruct (whole_power (wf_fac w) (gp_factors _ _ _ _ _ GP w Hin) (pr_whole _ _ _ _ PR q t s w Hq Ht Hin)) as (k & ->). exists k. intros z. rewrite (pr_power _ _ _ _ PR). apply principal_natural.
  Qed.
  Lemma real_linear i a x y : (i < n)%nat ->
    nth i (to_real ft (map (fun j => Cadd (x j) (Cmul a (y j))) (seq 0 n))) C0
    = Cadd (nth i (to_real ft (map x (seq 0 n))) C0) (Cmul a (nth i (to_real ft (map y (seq 0 n))) C0)).
  Proof.
    intros Hi.
    replace (map (fun j => Cadd (x j) (Cmul a (y j))) (seq 0 n)) with (map2 (fun u v => Cadd u (Cmul a v)) (map x (seq 0 n)) (map y (seq 0 n)))
      by (induction (seq 0 n) as [|j l IH]; cbn [map map2]; [reflexivity|]; rewrite IH; reflexivity).
    assert (Lx : length (map x (seq 0 n)) = n) by (rewrite map_length, seq_length; reflexivity). assert (Ly : length (map y (seq 0 n)) = n) by (rewrite map_length, seq_length; reflexivity).
    assert (L2 : length (map2 (fun u v => Cadd u (Cmul a v)) (map x (seq 0 n)) (map y (seq 0 n))) = n) by (apply map2_length; assumption).
    unfold to_real, div_real. rewrite L2, Lx, Ly, (ut_ifft_add n ft UT) by assumption.
    assert (D : forall d, nth i (map (fun z => Cdiv z (RtoC (INR n))) d) C0 = Cdiv (nth i d C0) (RtoC (INR n)) \/ (length d <= i)%nat).
    { intros d. destruct (Nat.lt_ge_cases i (length d)) as [H|H]; [left|right; exact H]. rewrite (nth_indep _ C0 (Cdiv C0 (RtoC (INR n)))) by (rewrite map_length; exact H). apply (map_nth (fun z => Cdiv z (RtoC (INR n)))). }
    assert (LX := gt_ifft_len n ft GT _ Lx). assert (LY := gt_ifft_len n ft GT _ Ly).
    destruct (D (ifft ft (map x (seq 0 n)))) as [->|H]; [|lia]. destruct (D (ifft ft (map y (seq 0 n)))) as [->|H]; [|lia].
    destruct (D (map2 (fun u v => Cadd u (Cmul a v)) (ifft ft (map x (seq 0 n))) (ifft ft (map y (seq 0 n))))) as [->|H]; [|rewrite (map2_length _ _ _ n) in H by assumption; lia].
    rewrite (map2_at _ _ _ n i) by assumption. unfold Cdiv. ring.
  Qed.
  Notation isp := (isp nf n).
  Lemma isp_vals name j : (j < n)%nat -> isp (fun x => vals L lib (reals L n ft x) name j).
  Proof.
    intros Hj. unfold vals. destruct (last_index (l_fields L) name) as [i|] eqn:E.
    - apply last_index_some in E. assert (Hi : (i < nf)%nat) by (unfold nf; apply nth_error_Some; congruence).
      apply (isp_ext nf n (fun x => nth j (to_real ft (map (fun k => x i k) (seq 0 n))) C0)); [intros x; rewrite (reals_nth L n ft x i Hi); reflexivity|].
      apply (isp_linear nf n (fun y => nth j (to_real ft (map y (seq 0 n))) C0) (fun k x => x i k)).
      + intros a x y. apply real_linear, Hj.
      + intros x y H. f_equal. f_equal. apply map_ext_in. intros k Hk. apply in_seq in Hk. apply H. lia.
      + intros k Hk. apply isp_var; assumption.
    - destruct (lb_calc lib name) as [c|] eqn:Ec; [|apply isp_const]. exfalso.
      assert (Hin : In name (l_functions L)) by (apply (lb_functions _ _ _ GL); eauto). rewrite (pr_functions _ _ _ _ PR) in Hin. destruct Hin.
  Qed.
  Lemma isp_mode k (g : nat -> grid -> C) : (k < n)%nat -> (forall j, (j < n)%nat -> isp (g j)) -> isp (fun x => amplitude_at n ft k (fun j => g j x)).
  Proof.
    intros Hk H. apply (isp_linear nf n (amplitude_at n ft k)); [|apply amplitude_ext|exact H]. intros a x y. apply amplitude_linear; assumption.
  Qed.
  Lemma isp_product fs j : (forall f, In f fs -> exists k, forall z, lb_pow lib z (factor_power f) = Cpow z k) -> (j < n)%nat ->
    isp (fun x => product_value (lb_pow lib) (fun nm => vals L lib (reals L n ft x) nm j) fs).
  Proof.
    intros H Hj. induction fs as [|f fs IH]; cbn [product_value]; [apply isp_const|]. apply (isp_mul nf n); [|apply IH; intros g Hg; apply H; right; exact Hg].
    destruct (H f (or_introl eq_refl)) as (k & Hk). apply (isp_ext nf n (fun x => Cpow (vals L lib (reals L n ft x) (fa_name f) j) k)); [intros x; symmetry; apply Hk|].
    apply isp_pow, isp_vals, Hj.
  Qed.
  Lemma isp_shown t k : (forall f, In f (field_factors L t) -> exists k, forall z, lb_pow lib z (factor_power f) = Cpow z k) -> (k < n)%nat ->
    isp (fun x => shown_amplitude L (lb_pow lib) (vals L lib (reals L n ft x)) (amplitude_at n ft k) (lones L n ft lib (reals L n ft x) x k) t).
  Proof.
    intros H Hk. unfold shown_amplitude.
    assert (HA : forall fs, (forall f, In f fs -> In f (field_factors L t)) -> isp (fun x => amplitude_at n ft k (fun j => product_value (lb_pow lib) (fun nm => vals L lib (reals L n ft x) nm j) fs))).
    { intros fs Hfs. apply (isp_mode k (fun j x => product_value (lb_pow lib) (fun nm => vals L lib (reals L n ft x) nm j) fs) Hk). intros j Hj. apply isp_product; [|exact Hj]. intros f Hf. apply H, Hfs, Hf. }
    destruct (field_factors L t) as [|f [|g r']] eqn:E; unfold EquationSpec.amplitude.
    - apply isp_const.
    - destruct (fa_exp f) eqn:Ef; [apply HA; auto|]. unfold lones. destruct (last_index (l_fields L) (fa_name f)) as [i|] eqn:Ei.
      + apply last_index_some in Ei. apply isp_var; [unfold nf; apply nth_error_Some; congruence|exact Hk].
      + apply (isp_mode k (fun j x => vals L lib (reals L n ft x) (fa_name f) j) Hk). intros j Hj. apply isp_vals, Hj.
    - apply HA. auto.
  Qed.
  Lemma isp_rate i k : (k < n)%nat -> isp (fun x => FF L cs es n ft lib i k 0 x x).
  Proof.
    intros Hk. unfold FF. destruct (nth_error es i) as [q|] eqn:Eq; [|apply isp_const]. apply (isp_add nf n); [|apply isp_const]. assert (Hq := nth_error_In _ _ Eq).
    unfold XF, sum_signed.
    apply (isp_sum nf n (signed_items q) (fun a x => Cmul (RtoC (sign_value (snd a))) (explicit_item L (lb_pow lib) (lb_scalar lib) (fun _ => C0) (fun _ => C0) (tfreq ft k)
        (shown_amplitude L (lb_pow lib) (vals L lib (reals L n ft x)) (amplitude_at n ft k) (lones L n ft lib (reals L n ft x) x k)) (q_field q) (fst a)))).
    intros [it d] Hx. apply (isp_mul nf n); [apply isp_const|]. cbn [fst]. destruct it as [t|os nm]; [|cbn [explicit_item]; apply isp_const].
    cbn [explicit_item]. destruct (linear_in L (q_field q) t); [apply isp_const|]. apply (isp_mul nf n); [apply isp_const|].
    apply isp_shown; [|exact Hk]. intros f Hf. exact (natural_factor q t d f Hq Hx Hf).
  Qed.
  Lemma rate_steady i k t x : FF L cs es n ft lib i k t x x = FF L cs es n ft lib i k 0 x x.
  Proof.
    unfold FF. destruct (nth_error es i) as [q|]; [|reflexivity]. f_equal. unfold source_sum. f_equal. apply map_ext_in. intros s Hs. f_equal. exact (pr_sources _ _ _ _ PR i s t 0 Hs).
  Qed.
  Hypothesis EP : explicit_polynomial L cs es lib.
  Lemma nothing_implicit i k : AA L es ft lib i k = C0.
  Proof.
    unfold AA. destruct (nth_error es i) as [q|] eqn:Eq; [|reflexivity]. assert (Hq := nth_error_In _ _ Eq). unfold AF, sum_signed.
    assert (H : forall l, (forall a, In a l -> In a (signed_items q)) -> Csum (map (fun p0 => Cmul (RtoC (sign_value (snd p0)))
      (implicit_item L (lb_pow lib) (lb_scalar lib) (fun _ => C0) (fun _ => C0) (tfreq ft k) (q_field q) (fst p0))) l) = C0); [|apply H; auto].
    induction l as [|[it d] l IH]; intros Hl; cbn [map Csum]; [reflexivity|]. rewrite IH by (intros a Ha; apply Hl; right; exact Ha).
    assert (Z : implicit_item L (lb_pow lib) (lb_scalar lib) (fun _ => C0) (fun _ => C0) (tfreq ft k) (q_field q) it = C0); [|cbn [fst snd]; rewrite Z; csolve].
    destruct (sm_products _ _ _ _ _ _ (polynomial_smooth L cs es n lib 1 HD GL EP) q (it, d) Hq (Hl _ (or_introl eq_refl))) as (t & Et). cbn [fst] in Et. subst it.
    cbn [implicit_item]. rewrite (ep_own _ _ _ _ EP q t d Hq (Hl _ (or_introl eq_refl))). reflexivity.
  Qed.

  Theorem order_bound T U : 0 < T -> field_independent cs lib -> solution_until L cs es n ft lib T U ->
    exists D N0, 0 <= D /\ forall e N, (N0 <= N)%nat -> (0 < N)%nat -> fits L n m e -> e_fields e = U 0 -> forall k, (k <= N)%nat ->
    exists e', rk4_propagate (simulation n ft lib m) ft None (T / INR N) k 0%nat e = Some (e', k) /\ fits L n m e'
    /\ forall i, (i < length (l_fields L))%nat -> exists d, nth_error (e_fields e') i = Some d /\ distance2 d (nth i (U (INR k * (T / INR N))) []) <= (D / INR N ^ 4) ^ 2.
  Proof.
    intros HT HI [HU HS]. assert (SM := polynomial_smooth L cs es n lib T HD GL EP). fold nf.
    destruct (choose_two (PConst C0) (fun i k p => inside nf n p /\ forall x, FF L cs es n ft lib i k 0 x x = eval p x) nf n) as (pp & Hpp).
    { intros i k Hi Hk. destruct (isp_rate i k Hk) as (p & Hp & E). exists p. split; assumption. }
    assert (HP : forall i k, (i < nf)%nat -> (k < n)%nat -> inside nf n (pp i k)) by (intros i k Hi Hk; apply (Hpp i k Hi Hk)).
    assert (HF : forall i k t x, (i < nf)%nat -> (k < n)%nat -> FF L cs es n ft lib i k t x x = ff pp x i k) by (intros i k t x Hi Hk; rewrite rate_steady; apply (Hpp i k Hi Hk)).
    set (Y := fun t => amplitude_of ft (U t)).
    assert (HY : forall i k t, (i < nf)%nat -> (k < n)%nat -> 0 <= t <= T -> changes (fun s => Y s i k) t (ff pp (Y t) i k)).
    { intros i k t Hi Hk Ht. destruct (nth_error es i) as [q|] eqn:Eq; [|exfalso; apply nth_error_None in Eq; unfold nf in Hi; rewrite <- HO, map_length in Hi; lia].
      destruct (HS t i q k Ht Eq Hk) as (M & HW & HC). replace (ff pp (Y t) i k) with (Cadd M (source_sum cs lib t i k)); [exact HC|].
      rewrite <- (HF i k t _ Hi Hk). assert (HA := nothing_implicit i k). unfold FF. unfold AA in HA. rewrite Eq in *. unfold Y. rewrite (reals_of L n ft UT Hn (U t) (HU t)).
      rewrite (rate_mine L cs es m HD Em n ft lib GL HO T SM (U t) _ t i q k M (HU t) Eq Hk HW), HA. csolve. }
    assert (HYG : forall i k t, (i < nf)%nat -> (k < n)%nat -> 0 <= t <= T -> changes (fun s => Y s i k) t (G (AA L es ft lib) (FF L cs es n ft lib) Y i k t)).
    { intros i k t Hi Hk Ht. replace (G _ _ Y i k t) with (ff pp (Y t) i k); [apply HY; assumption|]. unfold G. rewrite (HF i k t (Y t) Hi Hk), nothing_implicit. csolve. }
    destruct (solution_bounded nf n (AA L es ft lib) (FF L cs es n ft lib) Y T ltac:(lra) HYG) as (B & HB & HYB).
    destruct (fourth_order nf n pp HP Y T B HB HYB HY) as (D & h0 & HD0 & Hh0 & Hconv).
    destruct (ConvergeProps.above (T / h0)) as (N0 & HN0).
    exists (D * T ^ 4), N0. split; [apply Rmult_le_pos; [lra|apply pow_le; lra]|]. intros e N HN HN1 Hf He k Hk.
    assert (HNr : 0 < INR N) by (apply lt_0_INR; exact HN1). assert (HN0' : INR N0 <= INR N) by (apply le_INR; exact HN).
    set (h := T / INR N). assert (Hh : 0 < h <= h0).
    { split; [apply Rdiv_lt_0_compat; lra|]. unfold h. apply Rmult_le_reg_r with (INR N); [exact HNr|]. replace (T / INR N * INR N) with T by (field; lra).
      replace T with (h0 * (T / h0)) by (field; lra). apply Rmult_le_compat_l; lra. }
    assert (EN : INR N * h = T) by (unfold h; field; lra).
    assert (Hz : forall h i k, (i < nf)%nat -> (k < n)%nat -> Csub C1 (Cmul (RtoC h) (AA L es ft lib i k)) <> C0).
    { intros h' i k' Hi Hk'. rewrite nothing_implicit. intros H. apply (f_equal Re) in H. unfold Csub, Cadd, Copp, Cmul, C1, C0, RtoC, Re, Im in H. cbn [fst snd] in H. lra. }
    set (p := simulation n ft lib m).
    destruct (run_states (rk4_step p ft None h) h (fits L n m) (fun t e e' => rk_scheme nf n (AA L es ft lib) (FF L cs es n ft lib) h t (amplitude_of ft (e_fields e)) (amplitude_of ft (e_fields e')))) with (e := e) as (st & E0 & H); [|exact Hf|].
    { intros t e1 Hf1. apply (rk4_scheme L cs es m HD Em n ft lib GL UT HO Hn T SM HI h t e1 Hf1); apply Hz. }
    exists (st k). split; [rewrite rk4_iterate; apply H|]. split; [apply H|]. intros i Hi.
    assert (Ss := fits_shaped L m n (st k) (proj1 (H k))). assert (Li := shaped_nth L n Hn (e_fields (st k)) i Ss Hi).
    assert (Lu := shaped_nth L n Hn (U (INR k * h)) i (HU _) Hi).
    exists (nth i (e_fields (st k)) []). split; [apply nth_error_nth'; rewrite (proj1 Ss); exact Hi|].
    assert (HC1 : near nf n (D * h ^ 4) (amplitude_of ft (e_fields (st k))) (Y (INR k * h))).
    { apply (Hconv h N (fun k => amplitude_of ft (e_fields (st k))) Hh ltac:(lra)); [|  |exact Hk].
      - intros i' k' _ _. rewrite E0, He. reflexivity.
      - intros k' _ i' l Hi' Hl. destruct (H k') as (_ & (s2 & s3 & s4 & S2 & S3 & S4 & SX) & _). set (x := amplitude_of ft (e_fields (st k'))) in *.
        assert (Q : forall a b, Cmul a (Csub C1 (Cmul (RtoC b) C0)) = a) by (intros; csolve).
        assert (FE : forall x y i k t, (i < nf)%nat -> (k < n)%nat -> (forall i k, (i < nf)%nat -> (k < n)%nat -> x i k = y i k) -> FF L cs es n ft lib i k t x x = ff pp y i k).
        { intros x' y' i1 k1 t1 Hi1 Hk1 Hxy. rewrite (HF i1 k1 t1 x' Hi1 Hk1). apply (isp_eval_ext nf n); [apply HP; assumption|exact Hxy]. }
        assert (X2 : forall i k, (i < nf)%nat -> (k < n)%nat -> s2 i k = gadd x (gscal (h / 2) (ff pp x)) i k).
        { intros i1 k1 Hi1 Hk1. specialize (S2 i1 k1 Hi1 Hk1). rewrite nothing_implicit, Q in S2. rewrite S2, (HF i1 k1 _ _ Hi1 Hk1). reflexivity. }
        assert (X3 : forall i k, (i < nf)%nat -> (k < n)%nat -> s3 i k = gadd x (gscal (h / 2) (k2 pp h x)) i k).
        { intros i1 k1 Hi1 Hk1. specialize (S3 i1 k1 Hi1 Hk1). rewrite nothing_implicit, Q in S3. rewrite S3, (FE s2 _ i1 k1 _ Hi1 Hk1 X2). reflexivity. }
        assert (X4 : forall i k, (i < nf)%nat -> (k < n)%nat -> s4 i k = gadd x (gscal h (k3 pp h x)) i k).
        { intros i1 k1 Hi1 Hk1. specialize (S4 i1 k1 Hi1 Hk1). rewrite nothing_implicit, Q in S4. rewrite S4, (FE s3 _ i1 k1 _ Hi1 Hk1 X3). reflexivity. }
        specialize (SX i' l Hi' Hl). rewrite nothing_implicit, Q in SX. rewrite SX, (FE s2 _ i' l _ Hi' Hl X2), (FE s3 _ i' l _ Hi' Hl X3), (FE s4 _ i' l _ Hi' Hl X4), (HF i' l _ x Hi' Hl). reflexivity. }
    rewrite <- (energy_difference n _ _ Li Lu).
    apply Rmult_le_reg_l with (INR n); [apply lt_0_INR; exact Hn|]. rewrite (energy_modes n ft _ UT) by (apply map2_length; assumption).
    rewrite (ut_fft_add n ft UT) by assumption. apply (rsum_bound n Hn). intros k' Hk'.
    rewrite (map2_at _ _ _ n k') by (try apply (gt_fft_len n ft GT); assumption).
    replace (D * T ^ 4 / INR N ^ 4) with (D * h ^ 4) by (unfold h; field; lra). apply norm_of_size.
    pose proof (HC1 i k' Hi Hk') as Q. unfold Y, amplitude_of in Q.
    replace (Cadd _ _) with (Csub (nth k' (fft ft (nth i (e_fields (st k)) [])) C0) (nth k' (fft ft (nth i (U (INR k * h)) [])) C0)) by csolve. exact Q.
  Qed.
End Declared.
