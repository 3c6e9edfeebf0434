(** Lemmas for C98: the steps of a declared model as a scheme. *)
From Verif Require Import ListAux FileModel ParseProofs StepProofs ConserveProofs EquationProps RegistryProps.
From Verif Require Import SplitSpec MatchSpec EquationProofs4 EquationProofs5 MatchProofs3 SimProofs SimProofs2 SimProofs3 SimProofs4 SimProofs5 SimProofs6 SimProps SplitProofs SplitProofs2 SplitProofs3 SplitProofs4.
From Verif Require Import SplitProps MatchProofs MatchProofs2 LawSpec LawProofs LinearProofs2 LinearProofs3 ConvergeProofs LimitProofs LimitProofs2.
From Verif Require SddProofs.
From Verif Require Import DftSpec LimitSpec.
From Coq Require Import Reals Lia Lra.
From Verif Require Import Complex.
Open Scope R_scope.

Section Declared.
  Variables (L : lang) (cs : list call) (es : list eqtext) (m : mstate).
  Hypothesis HD : declared L cs es.
  Hypothesis Em : run_calls new_mstate (cs ++ [CInit]) = Ok m.
  Variables (n : nat) (ft : transform) (lib : library).
  Hypothesis GL : good_library L n lib.
  Hypothesis UT : unitary_transform n ft.
  Hypothesis HO : map q_field es = l_fields L.
  Hypothesis Hn : (0 < n)%nat.
  Variable T : R.
  Hypothesis HT : 0 <= T.
  Hypothesis SM : smooth L cs es n lib T.
  Let GT := ut_good n ft UT.
  Let p := simulation n ft lib m.
  Let nf := length (l_fields L).

  Definition vals (fields : list data) (name : str) (j : nat) : C :=
    match last_index (l_fields L) name with
    | Some i => nth j (nth i fields []) C0
    | None => match lb_calc lib name with Some c => nth j (c fields) C0 | None => C0 end
    end.
  Definition lones (fields : list data) (seen : grid) (k : nat) (name : str) : C :=
    match last_index (l_fields L) name with Some i => seen i k | None => amplitude_at n ft k (vals fields name) end.
  Definition XF (q : eqtext) (k : nat) (fields : list data) (seen : grid) : C :=
    sum_signed (explicit_item L (lb_pow lib) (lb_scalar lib) (fun _ => C0) (fun _ => C0) (tfreq ft k)
      (shown_amplitude L (lb_pow lib) (vals fields) (amplitude_at n ft k) (lones fields seen k)) (q_field q)) (signed_items q).
  Definition AF (q : eqtext) (k : nat) : C :=
    sum_signed (implicit_item L (lb_pow lib) (lb_scalar lib) (fun _ => C0) (fun _ => C0) (tfreq ft k) (q_field q)) (signed_items q).

  Lemma vals_values fields : values L lib fields (vals fields).
  Proof.
    split.
    - intros i name d Hi Hd j. unfold vals. destruct (field_index L name (nth_error_In _ _ Hi)) as (i' & Hi' & ->).
      rewrite (index_unique L cs es HD i' i name Hi' Hi), (nth_error_nth _ _ _ Hd). reflexivity.
    - intros name c Hin Hc j. unfold vals. rewrite last_index_none by apply (function_not_field L (dc_lang _ _ _ HD) name Hin). rewrite Hc. reflexivity.
  Qed.
  Lemma only_products q x : In q es -> In x (signed_items q) -> exists t, fst x = IProduct t.
  Proof. exact (sm_products _ _ _ _ _ _ SM q x). Qed.

  Lemma split_mine fields seen E t q k : In q es -> split_written L cs n ft lib fields seen E t q k (XF q k fields (fun i k => at_ seen i k)) (AF q k).
  Proof.
    intros Hq. destruct (written_exists L cs es m HD Em n ft lib E t q k fields) as (M & val & im & ex & li & nl & _ & R1 & R2 & R3 & _).
    exists (vals fields), (lones fields (fun i k => at_ seen i k) k), im, ex, li, nl. split; [apply vals_values|]. split; [|split; [|split; [exact R1|split; [exact R2|split; [exact R3|split]]]]].
    - intros j name d Hj Hd. unfold lones. destruct (field_index L name (nth_error_In _ _ Hj)) as (i & Hi & ->). unfold at_.
      rewrite (index_unique L cs es HD i j name Hi Hj), (nth_error_nth _ _ _ Hd). reflexivity.
    - intros name Hin. unfold lones. rewrite last_index_none by apply (function_not_field L (dc_lang _ _ _ HD) name Hin). reflexivity.
    - unfold XF. apply sum_signed_ext. intros x Hx. destruct (only_products q x Hq Hx) as (u & ->). reflexivity.
    - unfold AF. apply sum_signed_ext. intros x Hx. destruct (only_products q x Hq Hx) as (u & ->). reflexivity.
  Qed.
  Lemma XF_ext q k fields s u : (forall i, (i < nf)%nat -> s i k = u i k) -> XF q k fields s = XF q k fields u.
  Proof.
    intros H. unfold XF. apply sum_signed_ext. intros [it d] _. cbn [fst]. destruct it as [t|os nm]; [|reflexivity]. cbn [explicit_item].
    destruct (linear_in L (q_field q) t); [reflexivity|]. f_equal. unfold shown_amplitude. destruct (field_factors L t) as [|f [|g r]]; try reflexivity.
    destruct (fa_exp f); [reflexivity|]. unfold lones. destruct (last_index (l_fields L) (fa_name f)) as [i|] eqn:E; [|reflexivity].
    apply H. apply last_index_some in E. unfold nf. apply nth_error_Some. congruence.
  Qed.

  Lemma written_other fields E E' t t' q k M : In q es -> written L cs n ft lib fields E t q k M -> written L cs n ft lib fields E' t' q k M.
  Proof.
    intros Hq (val & im & ex & li & nl & HV & _ & _ & _ & ->).
    destruct (written_exists L cs es m HD Em n ft lib E' t' q k fields) as (M' & val' & im' & ex' & li' & nl' & _ & R1 & R2 & R3 & _).
    exists val, im', ex', li', nl'. split; [exact HV|]. split; [exact R1|]. split; [exact R2|]. split; [exact R3|].
    unfold rhs_meaning. f_equal. apply map_ext_in. intros x Hx. f_equal. destruct (only_products q x Hq Hx) as (u & ->). reflexivity.
  Qed.
  Lemma shaped_nth fs i : shaped nf n fs -> (i < nf)%nat -> length (nth i fs []) = n.
  Proof.
    intros [H1 H2] Hi. destruct (nth_error fs i) as [d|] eqn:Ed.
    - rewrite (nth_error_nth _ _ _ Ed). exact (all_length_nth n _ i d H2 Ed).
    - apply nth_error_None in Ed. lia.
  Qed.
  Lemma eq_index i q : nth_error es i = Some q -> (i < nf)%nat.
  Proof. intros H. unfold nf. rewrite <- HO, map_length. apply nth_error_Some. congruence. Qed.
  Lemma map_fft_at fs i k : shaped nf n fs -> (i < nf)%nat -> nth k (nth i (map (fft ft) fs) []) C0 = amplitude_of ft fs i k.
  Proof.
    intros [H1 H2] Hi. unfold amplitude_of. f_equal. rewrite (nth_indep _ [] (fft ft [])) by (rewrite map_length, H1; exact Hi). apply map_nth.
  Qed.

  Lemma rate_mine fs E t i q k M : shaped nf n fs -> nth_error es i = Some q -> (k < n)%nat -> written L cs n ft lib fs E t q k M ->
    M = Cadd (XF q k fs (amplitude_of ft fs)) (Cmul (AF q k) (amplitude_of ft fs i k)).
  Proof.
    intros Hs Hq Hk HW. assert (Hin := nth_error_In _ _ Hq).
    set (e := {| e_fields := fs; e_derived := repeat [] (length (pm_derived (ms_names m))) |}).
    assert (Hf : fits L n m e) by (split; [apply Hs|split; [apply Hs|unfold e; cbn [e_derived]; apply repeat_length]]).
    pose proof (split_sum L cs es m HD Em n ft lib GL HO e t i q k _ _ M Hf Hq Hk (split_mine (e_fields e) (map (fft ft) (e_fields e)) (spectrum (simulation n ft lib m) ft e) t q k Hin)
      (written_other _ E _ t t q k M Hin HW)) as H. rewrite <- H. cbn [e e_fields]. rewrite (map_fft_at fs i k Hs (eq_index i q Hq)). f_equal.
    apply XF_ext. intros j Hj. apply (map_fft_at fs j k Hs Hj).
  Qed.

  (** ** The scheme *)
  Definition reals (x : grid) : list data := map (fun i => to_real ft (map (x i) (seq 0 n))) (seq 0 nf).
  Lemma reals_nth x i : (i < nf)%nat -> nth i (reals x) [] = to_real ft (map (x i) (seq 0 n)).
  Proof.
    intros Hi. unfold reals. rewrite (nth_indep _ [] ((fun i => to_real ft (map (x i) (seq 0 n))) 0%nat)) by (rewrite map_length, seq_length; exact Hi).
    rewrite (map_nth (fun i => to_real ft (map (x i) (seq 0 n)))), seq_nth by exact Hi. reflexivity.
  Qed.
  Lemma real_length d : length d = n -> length (to_real ft d) = n.
  Proof. intros H. unfold to_real. rewrite div_real_length. apply (gt_ifft_len n ft GT), H. Qed.
  Lemma reals_shaped x : shaped nf n (reals x).
  Proof.
    split; [unfold reals; rewrite map_length, seq_length; reflexivity|]. unfold all_length, reals. rewrite Forall_forall. intros d Hd.
    apply in_map_iff in Hd. destruct Hd as (i & <- & _). apply real_length, map_seq_length.
  Qed.
  Lemma reals_of fs : shaped nf n fs -> reals (amplitude_of ft fs) = fs.
  Proof.
    intros Hs. apply (nth_ext _ _ [] []); [rewrite (proj1 (reals_shaped _)); symmetry; apply Hs|]. intros i Hi. rewrite (proj1 (reals_shaped _)) in Hi.
    rewrite (reals_nth _ i Hi). assert (Hl := shaped_nth fs i Hs Hi). assert (Hl' := gt_fft_len n ft GT _ Hl).
    replace (map (amplitude_of ft fs i) (seq 0 n)) with (fft ft (nth i fs [])); [apply (gt_left n ft GT), Hl|].
    unfold amplitude_of. rewrite <- (map_nth_seq (fft ft (nth i fs [])) C0) at 1. rewrite Hl'. reflexivity.
  Qed.
  Lemma reals_ext x y : (forall i k, (i < nf)%nat -> (k < n)%nat -> x i k = y i k) -> reals x = reals y.
  Proof.
    intros H. unfold reals. apply map_ext_in. intros i Hi. apply in_seq in Hi. f_equal. apply map_ext_in. intros k Hk. apply in_seq in Hk. apply H; lia.
  Qed.
  Definition FF (i k : nat) (t : R) (x s : grid) : C :=
    match nth_error es i with Some q => Cadd (XF q k (reals x) s) (source_sum cs lib t i k) | None => C0 end.
  Definition AA (i k : nat) : C := match nth_error es i with Some q => AF q k | None => C0 end.

  (** ** Lipschitz *)
  Section Lip.
    Variable r : R.
    Let X := (R * grid * grid)%type.
    Let P (a b : X) (e : R) : Prop :=
      let '(t, x, s) := a in let '(t', y, u) := b in
      (0 <= t <= T) /\ (0 <= t' <= T) /\ within nf n r x /\ within nf n r y /\ within nf n r s /\ within nf n r u /\
      near nf n e x y /\ near nf n e s u /\ Rabs (t - t') <= e.
    Lemma Ppos a b e : P a b e -> 0 <= e.
    Proof. destruct a as ((t & x) & s), b as ((t' & y) & u). intros (_ & _ & _ & _ & _ & _ & _ & _ & H). pose proof (Rabs_pos (t - t')). lra. Qed.

    Lemma reg_x i k : (i < nf)%nat -> (k < n)%nat -> regular X P (fun a => snd (fst a) i k).
    Proof.
      intros Hi Hk. exists 1, (Rabs r). pose proof (Rabs_pos r). pose proof (Rle_abs r). split; [lra|]. split; [lra|].
      intros ((t & x) & s) ((t' & y) & u) e (_ & _ & W1 & W2 & _ & _ & N1 & _). cbn [fst snd]. pose proof (W1 i k Hi Hk). pose proof (W2 i k Hi Hk). pose proof (N1 i k Hi Hk). repeat split; lra.
    Qed.
    Lemma reg_s i k : (i < nf)%nat -> (k < n)%nat -> regular X P (fun a => snd a i k).
    Proof.
      intros Hi Hk. exists 1, (Rabs r). pose proof (Rabs_pos r). pose proof (Rle_abs r). split; [lra|]. split; [lra|].
      intros ((t & x) & s) ((t' & y) & u) e (_ & _ & _ & _ & W1 & W2 & _ & N1 & _). cbn [fst snd]. pose proof (W1 i k Hi Hk). pose proof (W2 i k Hi Hk). pose proof (N1 i k Hi Hk). repeat split; lra.
    Qed.
    Lemma reg_field i j : (i < nf)%nat -> (j < n)%nat -> regular X P (fun a => at_ (reals (snd (fst a))) i j).
    Proof.
      intros Hi Hj. apply (regular_ext X P (fun a => nth j (to_real ft (map (fun k => snd (fst a) i k) (seq 0 n))) C0)).
      - intros a. unfold at_. rewrite reals_nth by exact Hi. reflexivity.
      - apply (regular_real n ft UT Hn X P Ppos (fun k a => snd (fst a) i k)); [|exact Hj]. intros k Hk. apply reg_x; assumption.
    Qed.
    Lemma reg_calc name c j : lb_calc lib name = Some c -> (j < n)%nat -> regular X P (fun a => nth j (c (reals (snd (fst a)))) C0).
    Proof.
      intros Hc Hj.
      assert (HB : exists K M, 0 <= K /\ 0 <= M /\ forall i j, (i < nf)%nat -> (j < n)%nat -> forall a b e, P a b e ->
        size (at_ (reals (snd (fst a))) i j) <= M /\ size (at_ (reals (snd (fst b))) i j) <= M /\ size (Csub (at_ (reals (snd (fst a))) i j) (at_ (reals (snd (fst b))) i j)) <= K * e).
      { assert (Q : forall N, (N <= nf)%nat -> exists K M, 0 <= K /\ 0 <= M /\ forall i j, (i < N)%nat -> (j < n)%nat -> forall a b e, P a b e ->
          size (at_ (reals (snd (fst a))) i j) <= M /\ size (at_ (reals (snd (fst b))) i j) <= M /\ size (Csub (at_ (reals (snd (fst a))) i j) (at_ (reals (snd (fst b))) i j)) <= K * e).
        { induction N as [|N IH]; intros HN; [exists 0, 0; split; [lra|]; split; [lra|]; intros; lia|].
          destruct (IH ltac:(lia)) as (K & M & HK & HM & HB).
          destruct (regular_family X P Ppos n (fun j a => at_ (reals (snd (fst a))) N j)) as (K' & M' & HK' & HM' & HB'); [intros j' Hj'; apply reg_field; [lia|exact Hj']|].
          exists (K + K'), (M + M'). split; [lra|]. split; [lra|]. intros i j' Hi Hj' a b e Hp. pose proof (Ppos a b e Hp) as He.
          assert (0 <= K * e) by (apply Rmult_le_pos; assumption). assert (0 <= K' * e) by (apply Rmult_le_pos; assumption).
          destruct (Nat.eq_dec i N) as [->|NE]; [destruct (HB' j' Hj' a b e Hp) as (? & ? & ?)|destruct (HB i j' ltac:(lia) Hj' a b e Hp) as (? & ? & ?)]; repeat split; lra. }
        apply (Q nf). lia. }
      destruct HB as (K & M & HK & HM & HB).
      destruct (sm_calc _ _ _ _ _ _ SM name c (M ^ 2) Hc) as (Kc & HKc). fold nf in HKc.
      set (zero := repeat (repeat C0 n) nf).
      assert (Zs : shaped nf n zero).
      { split; [apply repeat_length|]. unfold all_length. rewrite Forall_forall. intros d Hd. apply repeat_spec in Hd. rewrite Hd. apply repeat_length. }
      assert (Za : forall i j, at_ zero i j = C0).
      { intros i j'. unfold at_, zero. destruct (Nat.lt_ge_cases i nf) as [Hi|Hi].
        - rewrite (nth_indep _ [] (repeat C0 n)) by (rewrite repeat_length; exact Hi). rewrite nth_repeat. apply nth_repeat.
        - rewrite (nth_overflow (repeat (repeat C0 n) nf)) by (rewrite repeat_length; exact Hi). destruct j'; reflexivity. }
      assert (Zb : bounded_by nf n (M ^ 2) zero).
      { intros i j' _ _. rewrite Za. unfold Cnorm2, C0, Re, Im. cbn [fst snd]. nra. }
      set (S := sqrt (Rabs Kc)). assert (HS : 0 <= S) by apply sqrt_pos.
      assert (HS2 : forall e, Kc * e ^ 2 <= (S * e) ^ 2).
      { intros e. rewrite Rpow_mult_distr. replace (S ^ 2) with (Rabs Kc) by (unfold S; cbn [pow]; rewrite Rmult_1_r, sqrt_sqrt by apply Rabs_pos; reflexivity).
        apply Rmult_le_compat_r; [nra|apply Rle_abs]. }
      assert (D : forall fs gs e, 0 <= e -> shaped nf n fs -> shaped nf n gs -> bounded_by nf n (M ^ 2) fs -> bounded_by nf n (M ^ 2) gs -> close nf n (e ^ 2) fs gs ->
        size (Csub (nth j (c fs) C0) (nth j (c gs) C0)) <= 2 * (S * e)).
      { intros fs gs e He H1 H2 H3 H4 H5. apply size_of_norm; [apply Rmult_le_pos; assumption|]. eapply Rle_trans; [apply (HKc fs gs (e ^ 2)); assumption|apply HS2]. }
      assert (Bx : forall x, (forall i j, (i < nf)%nat -> (j < n)%nat -> size (at_ (reals x) i j) <= M) -> bounded_by nf n (M ^ 2) (reals x)).
      { intros x H i j' Hi Hj'. apply norm_of_size, H; assumption. }
      assert (Bc : forall x, (forall i j, (i < nf)%nat -> (j < n)%nat -> size (at_ (reals x) i j) <= M) -> size (nth j (c (reals x)) C0) <= size (nth j (c zero) C0) + 2 * (S * M)).
      { intros x H. pose proof (size_of_sub (nth j (c (reals x)) C0) (nth j (c zero) C0)).
        pose proof (D (reals x) zero M HM (reals_shaped x) Zs (Bx x H) Zb) as D1.
        assert (Hcl : close nf n (M ^ 2) (reals x) zero).
        { intros i j' Hi Hj'. rewrite Za. replace (Csub (at_ (reals x) i j') C0) with (at_ (reals x) i j') by csolve. apply norm_of_size, H; assumption. }
        specialize (D1 Hcl). lra. }
      exists (2 * (S * K)), (size (nth j (c zero) C0) + 2 * (S * M)). pose proof (size_pos (nth j (c zero) C0)).
      assert (0 <= S * M) by (apply Rmult_le_pos; assumption). assert (0 <= S * K) by (apply Rmult_le_pos; assumption). split; [lra|]. split; [lra|].
      intros a b e Hp. pose proof (Ppos a b e Hp) as He. cbv beta.
      split; [apply Bc; intros i j' Hi Hj'; apply (HB i j' Hi Hj' a b e Hp)|]. split; [apply Bc; intros i j' Hi Hj'; apply (HB i j' Hi Hj' a b e Hp)|].
      replace (2 * (S * K) * e) with (2 * (S * (K * e))) by ring. apply D; [apply Rmult_le_pos; assumption|apply reals_shaped|apply reals_shaped| | |].
      - apply Bx. intros i j' Hi Hj'. apply (HB i j' Hi Hj' a b e Hp).
      - apply Bx. intros i j' Hi Hj'. apply (HB i j' Hi Hj' a b e Hp).
      - intros i j' Hi Hj'. apply norm_of_size. apply (HB i j' Hi Hj' a b e Hp).
    Qed.
    Lemma reg_vals name j : (j < n)%nat -> regular X P (fun a => vals (reals (snd (fst a))) name j).
    Proof.
      intros Hj. unfold vals. destruct (last_index (l_fields L) name) as [i|] eqn:E.
      - apply last_index_some in E. apply (reg_field i j); [unfold nf; apply nth_error_Some; congruence|exact Hj].
      - destruct (lb_calc lib name) as [c|] eqn:Ec; [exact (reg_calc name c j Ec Hj)|apply regular_const].
    Qed.
    Lemma reg_product fs j : (forall f, In f fs -> lipschitz (fun z => lb_pow lib z (factor_power f))) -> (j < n)%nat ->
      regular X P (fun a => product_value (lb_pow lib) (fun nm => vals (reals (snd (fst a))) nm j) fs).
    Proof.
      intros H Hj. induction fs as [|f fs IH]; cbn [product_value]; [apply regular_const|].
      apply (regular_mul X P); [|apply IH; intros g Hg; apply H; right; exact Hg].
      apply (regular_comp X P (fun z => lb_pow lib z (factor_power f))); [apply H; left; reflexivity|apply reg_vals, Hj].
    Qed.
    Lemma reg_shown t k : (forall f, In f (field_factors L t) -> lipschitz (fun z => lb_pow lib z (factor_power f))) -> (k < n)%nat ->
      regular X P (fun a => shown_amplitude L (lb_pow lib) (vals (reals (snd (fst a)))) (amplitude_at n ft k) (lones (reals (snd (fst a))) (snd a) k) t).
    Proof.
      intros H Hk. unfold shown_amplitude.
      assert (HA : forall fs, (forall f, In f fs -> In f (field_factors L t)) -> regular X P (fun a => amplitude_at n ft k (fun j => product_value (lb_pow lib) (fun nm => vals (reals (snd (fst a))) nm j) fs))).
      { intros fs Hfs. apply (regular_mode n ft UT Hn X P Ppos (fun j a => product_value (lb_pow lib) (fun nm => vals (reals (snd (fst a))) nm j) fs)); [|exact Hk].
        intros j Hj. apply reg_product; [|exact Hj]. intros f Hf. apply H, Hfs, Hf. }
      destruct (field_factors L t) as [|f [|g r']] eqn:E; unfold EquationSpec.amplitude.
      - apply regular_const.
      - destruct (fa_exp f) eqn:Ef; [apply HA; auto|]. unfold lones. destruct (last_index (l_fields L) (fa_name f)) as [i|] eqn:Ei.
        + apply last_index_some in Ei. apply reg_s; [unfold nf; apply nth_error_Some; congruence|exact Hk].
        + apply (regular_mode n ft UT Hn X P Ppos (fun j a => vals (reals (snd (fst a))) (fa_name f) j)); [|exact Hk]. intros j Hj. apply reg_vals, Hj.
      - apply HA. auto.
    Qed.
    Lemma reg_XF q k : In q es -> (k < n)%nat -> regular X P (fun a => XF q k (reals (snd (fst a))) (snd a)).
    Proof.
      intros Hq Hk. unfold XF, sum_signed.
      apply (regular_sum X P (signed_items q) (fun x a => Cmul (RtoC (sign_value (snd x))) (explicit_item L (lb_pow lib) (lb_scalar lib) (fun _ => C0) (fun _ => C0) (tfreq ft k)
        (shown_amplitude L (lb_pow lib) (vals (reals (snd (fst a)))) (amplitude_at n ft k) (lones (reals (snd (fst a))) (snd a) k)) (q_field q) (fst x)))).
      intros [it d] Hx. apply (regular_mul X P); [apply regular_const|]. cbn [fst]. destruct it as [t|os nm]; [|cbn [explicit_item]; apply regular_const].
      cbn [explicit_item]. destruct (linear_in L (q_field q) t); [apply regular_const|]. apply (regular_mul X P); [apply regular_const|].
      apply reg_shown; [|exact Hk]. intros f Hf. exact (sm_power _ _ _ _ _ _ SM q t d f Hq Hx Hf).
    Qed.
    Lemma reg_source i k : (k < n)%nat -> regular X P (fun a => source_sum cs lib (fst (fst a)) i k).
    Proof.
      intros Hk. unfold source_sum. apply (regular_sum X P (sources_of i cs) (fun s a => nth k (lb_source lib s (fst (fst a))) C0)). intros s Hs.
      destruct (sm_source _ _ _ _ _ _ SM i s k Hs Hk) as (K & HK). set (S := sqrt (Rabs K)). assert (HS : 0 <= S) by apply sqrt_pos.
      assert (D : forall t t' e, 0 <= t <= T -> 0 <= t' <= T -> Rabs (t - t') <= e -> size (Csub (nth k (lb_source lib s t) C0) (nth k (lb_source lib s t') C0)) <= 2 * (S * e)).
      { intros t t' e Ht Ht' He. pose proof (Rabs_pos (t - t')). apply size_of_norm; [apply Rmult_le_pos; lra|]. eapply Rle_trans; [apply HK; assumption|].
        rewrite Rpow_mult_distr. replace (S ^ 2) with (Rabs K) by (unfold S; cbn [pow]; rewrite Rmult_1_r, sqrt_sqrt by apply Rabs_pos; reflexivity).
        apply Rle_trans with (Rabs K * (t - t') ^ 2); [apply Rmult_le_compat_r; [apply pow2_ge_0|apply Rle_abs]|]. apply Rmult_le_compat_l; [apply Rabs_pos|].
        rewrite <- (pow2_abs (t - t')). apply pow_incr. lra. }
      exists (2 * S), (size (nth k (lb_source lib s 0) C0) + 2 * (S * T)). pose proof (size_pos (nth k (lb_source lib s 0) C0)).
      assert (0 <= S * T) by (apply Rmult_le_pos; assumption). split; [lra|]. split; [lra|].
      assert (B : forall t, 0 <= t <= T -> size (nth k (lb_source lib s t) C0) <= size (nth k (lb_source lib s 0) C0) + 2 * (S * T)).
      { intros t Ht. pose proof (size_of_sub (nth k (lb_source lib s t) C0) (nth k (lb_source lib s 0) C0)). pose proof (D t 0 T Ht ltac:(lra) ltac:(rewrite Rminus_0_r, Rabs_right by lra; lra)). lra. }
      intros ((t & x) & v) ((t' & y) & u) e (Ht & Ht' & _ & _ & _ & _ & _ & _ & He). cbn [fst snd]. split; [apply B, Ht|]. split; [apply B, Ht'|].
      rewrite Rmult_assoc. apply D; assumption.
    Qed.
    Lemma lip_FF : exists K, 0 <= K /\ forall t t' x y s u e, 0 <= t <= T -> 0 <= t' <= T -> within nf n r x -> within nf n r y -> within nf n r s -> within nf n r u ->
      near nf n e x y -> near nf n e s u -> Rabs (t - t') <= e -> forall i k, (i < nf)%nat -> (k < n)%nat -> size (Csub (FF i k t x s) (FF i k t' y u)) <= K * e.
    Proof.
      destruct (regular_all X P Ppos nf n (fun i k a => FF i k (fst (fst a)) (snd (fst a)) (snd a))) as (K & HK & H).
      - intros i k Hi Hk. unfold FF. destruct (nth_error es i) as [q|] eqn:Eq; [|apply regular_const].
        apply (regular_add X P); [apply (reg_XF q k); [exact (nth_error_In _ _ Eq)|exact Hk]|apply reg_source, Hk].
      - exists K. split; [exact HK|]. intros t t' x y s u e H1 H2 H3 H4 H5 H6 H7 H8 H9 i k Hi Hk.
        exact (H i k Hi Hk (t, x, s) (t', y, u) e (conj H1 (conj H2 (conj H3 (conj H4 (conj H5 (conj H6 (conj H7 (conj H8 H9))))))))).
    Qed.
  End Lip.

  (** ** Steps *)
  Lemma fits_shaped e : fits L n m e -> shaped nf n (e_fields e).
  Proof. intros (H1 & H2 & _). split; assumption. Qed.
  Lemma quotient (y z x : C) : z <> C0 -> x = Cdiv y z -> Cmul x z = y.
  Proof. intros Hz ->. field. exact Hz. Qed.

  Lemma euler_scheme dt t e : fits L n m e -> (forall i k, (i < nf)%nat -> (k < n)%nat -> Csub C1 (Cmul (RtoC dt) (AA i k)) <> C0) ->
    exists e', euler_step p ft None dt t e = Some e' /\ fits L n m e'
    /\ scheme nf n AA FF dt t (amplitude_of ft (e_fields e)) (amplitude_of ft (e_fields e')).
  Proof.
    intros Hf Hz. destruct (C92_euler_step L cs es m HD Em n ft lib GL GT HO dt t e Hf) as (e' & Es & _ & _ & HS).
    destruct (euler_facts L cs es m HD Em n ft lib GL GT HO None dt t e Hf) as (e1 & Y & Es' & _ & _ & Hf1 & _). fold p in Es, Es'.
    assert (e1 = e') by congruence. subst e1. exists e'. split; [exact Es|]. split; [exact Hf1|].
    assert (S0 := fits_shaped e Hf). assert (S1 := fits_shaped e' Hf1).
    intros i k Hi Hk. destruct (nth_error es i) as [q|] eqn:Eq; [|exfalso; apply nth_error_None in Eq; unfold nf in Hi; rewrite <- HO, map_length in Hi; lia].
    pose proof (HS i q Eq k _ _ Hk (split_mine _ _ _ t q k (nth_error_In _ _ Eq))) as H. cbv zeta in H.
    assert (EA : AA i k = AF q k) by (unfold AA; rewrite Eq; reflexivity). specialize (Hz i k Hi Hk). rewrite EA in *.
    apply quotient in H; [|exact Hz]. unfold amplitude_of at 1. rewrite H. unfold amplitude_of at 1. f_equal. f_equal. unfold FF. rewrite Eq.
    rewrite (reals_of (e_fields e) S0). f_equal. apply XF_ext. intros j Hj. unfold mix, at_.
    assert (Ll : length (firstn i (map (fft ft) (e_fields e'))) = i).
    { rewrite firstn_length, map_length, (proj1 S1). apply Nat.min_l. unfold nf in *. lia. }
    destruct (Nat.ltb_spec j i) as [Hlt|Hge].
    - rewrite app_nth1 by lia. rewrite <- (map_fft_at (e_fields e') j k S1 Hj). f_equal. apply SddProofs.nth_firstn_lt. exact Hlt.
    - rewrite app_nth2 by lia. rewrite Ll. rewrite <- (map_fft_at (e_fields e) j k S0 Hj). f_equal. rewrite SddProofs.nth_skipn'. f_equal. lia.
  Qed.

  Hypothesis HI : field_independent cs lib.
  Lemma denum_mine e t i q a k : nth_error es i = Some q -> (k < n)%nat -> get_denum p e i t n = Some a -> nth k a C0 = AF q k.
  Proof.
    intros Hq Hk Ha. destruct (split_any L cs es m HD Em n ft lib GL e t i q Hq) as (r & a' & _ & Ea & _ & _ & HV). fold p in Ea. rewrite Ha in Ea. injection Ea as <-.
    destruct (written_exists L cs es m HD Em n ft lib e t q k (e_fields e)) as (M & val & im & ex & li & nl & _ & R1 & R2 & R3 & _).
    destruct (HV k Hk im ex li nl (Build_named _ _ _ _ _ _ _ _ _ R1 R2 R3)) as [_ ->]. unfold AF. apply sum_signed_ext. intros x Hx.
    destruct (only_products q x (nth_error_In _ _ Hq) Hx) as (u & ->). reflexivity.
  Qed.
  Lemma slope_mine d0 t q i k S K : nth_error es i = Some q -> (k < n)%nat -> length S = nf -> all_length n S ->
    as_written L cs n ft lib p d0 t q i k S K (AF q k) -> K = FF i k t (fun i k => at_ S i k) (fun i k => at_ S i k).
  Proof.
    intros Hq Hk Hl Ha HW. assert (Hi := eq_index i q Hq).
    destruct (written_exists L cs es m HD Em n ft lib (at_amplitudes p ft d0 S) t q k (map (to_real ft) S)) as (M & HM). pose proof (HW M HM) as H.
    assert (Hs : shaped nf n (map (to_real ft) S)).
    { split; [rewrite map_length; exact Hl|]. unfold all_length in *. rewrite Forall_forall in *. intros d Hd. apply in_map_iff in Hd. destruct Hd as (x & <- & Hx). apply real_length, Ha, Hx. }
    assert (Amp : forall j l, (j < nf)%nat -> amplitude_of ft (map (to_real ft) S) j l = at_ S j l).
    { intros j l Hj. unfold amplitude_of, at_. f_equal. destruct (nth_error S j) as [d|] eqn:Ed; [|apply nth_error_None in Ed; lia].
      rewrite (nth_error_nth (map (to_real ft) S) j [] (map_nth_error _ _ _ Ed)), (nth_error_nth _ _ _ Ed). apply (gt_inverse n ft GT). exact (all_length_nth n _ j d Ha Ed). }
    rewrite (rate_mine _ _ t i q k M Hs Hq Hk HM) in H. rewrite (Amp i k Hi) in H. unfold FF. rewrite Hq.
    assert (ER : reals (fun i k => at_ S i k) = map (to_real ft) S).
    { rewrite <- (reals_of _ Hs). apply reals_ext. intros j l Hj _. symmetry. apply Amp, Hj. }
    rewrite ER. rewrite (XF_ext q k (map (to_real ft) S) (fun i k => at_ S i k) (amplitude_of ft (map (to_real ft) S))) by (intros j Hj; symmetry; apply Amp, Hj).
    unfold at_ at 1 in H. set (X := XF q k (map (to_real ft) S) (amplitude_of ft (map (to_real ft) S))) in *. set (c := source_sum cs lib t i k) in *. set (y := nth k (nth i S []) C0) in *. set (a := AF q k) in *.
    transitivity (Csub (Cadd K (Cmul a y)) (Cmul a y)); [ring|]. rewrite H. ring.
  Qed.
  Lemma rk4_scheme dt t e : fits L n m e -> (forall i k, (i < nf)%nat -> (k < n)%nat -> Csub C1 (Cmul (RtoC dt) (AA i k)) <> C0) ->
    (forall i k, (i < nf)%nat -> (k < n)%nat -> Csub C1 (Cmul (RtoC (dt / 2)) (AA i k)) <> C0) ->
    exists e', rk4_step p ft None dt t e = Some e' /\ fits L n m e'
    /\ rk_scheme nf n AA FF dt t (amplitude_of ft (e_fields e)) (amplitude_of ft (e_fields e')).
  Proof.
    intros Hf Hz Hz2.
    destruct (C87_rk4_step L cs es m HD Em n ft lib GL GT HO HI dt t e Hf) as (S1 & S2 & S3 & S4 & K1 & K2 & K3 & K4 & e' & Es & _ & ES & HF & HS). fold p in Es, HS.
    destruct (rk4_match (fun _ _ => False) L cs es m lib L cs es m lib HD HD Em Em n ft GL GL GT HO HO (nothing_corresponds L cs es lib) None dt HI HI t e e Hf Hf)
      as (e1 & _ & Es' & _ & Hf1 & _); [intros ? ? []|]. fold p in Es'.
    assert (e1 = e') by congruence. subst e1. exists e'. split; [exact Es|]. split; [exact Hf1|].
    assert (S0 := fits_shaped e Hf). assert (Sf := fits_shaped e' Hf1).
    assert (HFl : forall S, In S [S1; S2; S3; S4] -> length S = nf /\ all_length n S).
    { rewrite Forall_forall in HF. intros S HSi. destruct (HF S HSi) as [A B]. split; [rewrite A; apply S0|exact B]. }
    assert (E1 : forall i k, (i < nf)%nat -> at_ S1 i k = amplitude_of ft (e_fields e) i k) by (intros i k Hi; rewrite ES; apply map_fft_at; assumption).
    assert (FFx : forall i k t x y, (i < nf)%nat -> (k < n)%nat -> (forall i k, (i < nf)%nat -> (k < n)%nat -> x i k = y i k) -> FF i k t x x = FF i k t y y).
    { intros i k t' x y Hi Hk H. unfold FF. destruct (nth_error es i) as [q|]; [|reflexivity]. rewrite (reals_ext x y H), (XF_ext q k _ x y) by (intros j Hj; apply H; assumption). reflexivity. }
    exists (fun i k => at_ S2 i k), (fun i k => at_ S3 i k), (fun i k => at_ S4 i k).
    assert (Main : forall i k, (i < nf)%nat -> (k < n)%nat ->
      exists k1 k2 k3 k4, k1 = FF i k t (amplitude_of ft (e_fields e)) (amplitude_of ft (e_fields e)) /\ k2 = FF i k t (fun i k => at_ S2 i k) (fun i k => at_ S2 i k)
      /\ k3 = FF i k t (fun i k => at_ S3 i k) (fun i k => at_ S3 i k) /\ k4 = FF i k t (fun i k => at_ S4 i k) (fun i k => at_ S4 i k)
      /\ at_ S2 i k = semi_implicit (dt / 2) (amplitude_of ft (e_fields e) i k) k1 (AA i k) /\ at_ S3 i k = semi_implicit (dt / 2) (amplitude_of ft (e_fields e) i k) k2 (AA i k)
      /\ at_ S4 i k = semi_implicit dt (amplitude_of ft (e_fields e) i k) k3 (AA i k)
      /\ amplitude_of ft (e_fields e') i k = Cdiv (combine4 dt (amplitude_of ft (e_fields e) i k) k1 k2 k3 k4) (Csub C1 (Cmul (RtoC dt) (AA i k)))).
    { intros i k Hi Hk. destruct (nth_error es i) as [q|] eqn:Eq; [|exfalso; apply nth_error_None in Eq; unfold nf in Hi; rewrite <- HO, map_length in Hi; lia].
      destruct (HS i q Eq) as (a & d' & Ea & Ed & _ & Hk'). destruct (Hk' k Hk) as (W1 & Q2 & W2 & Q3 & W3 & Q4 & W4 & QF). clear Hk'. cbv beta zeta in *.
      pose proof (denum_mine e t i q a k Eq Hk Ea) as EA. rewrite EA in *.
      assert (EAA : AA i k = AF q k) by (unfold AA; rewrite Eq; reflexivity). rewrite EAA.
      exists (nth k (nth i K1 []) C0), (nth k (nth i K2 []) C0), (nth k (nth i K3 []) C0), (nth k (nth i K4 []) C0).
      split. { rewrite (slope_mine _ t q i k S1 _ Eq Hk (proj1 (HFl S1 ltac:(cbn; tauto))) (proj2 (HFl S1 ltac:(cbn; tauto))) W1). apply FFx; [exact Hi|exact Hk|]. intros j l Hj _. apply E1, Hj. }
      split. { exact (slope_mine _ t q i k S2 _ Eq Hk (proj1 (HFl S2 ltac:(cbn; tauto))) (proj2 (HFl S2 ltac:(cbn; tauto))) W2). }
      split. { exact (slope_mine _ t q i k S3 _ Eq Hk (proj1 (HFl S3 ltac:(cbn; tauto))) (proj2 (HFl S3 ltac:(cbn; tauto))) W3). }
      split. { exact (slope_mine _ t q i k S4 _ Eq Hk (proj1 (HFl S4 ltac:(cbn; tauto))) (proj2 (HFl S4 ltac:(cbn; tauto))) W4). }
      rewrite <- (E1 i k Hi). split; [exact Q2|]. split; [exact Q3|]. split; [exact Q4|]. unfold amplitude_of. rewrite (nth_error_nth _ _ _ Ed). exact QF. }
    split; [|split; [|split]]; intros i k Hi Hk; destruct (Main i k Hi Hk) as (k1 & k2 & k3 & k4 & D1 & D2 & D3 & D4 & Q2 & Q3 & Q4 & QF).
    - rewrite <- D1. apply quotient; [apply Hz2; assumption|exact Q2].
    - rewrite <- D2. apply quotient; [apply Hz2; assumption|exact Q3].
    - rewrite <- D3. apply quotient; [apply Hz; assumption|exact Q4].
    - rewrite <- D1, <- D2, <- D3, <- D4. apply quotient in QF; [|apply Hz; assumption]. rewrite QF. unfold combine4.
      generalize (amplitude_of ft (e_fields e) i k). intros y. csolve; field.
  Qed.
End Declared.

(** ** Runs *)
Fixpoint iterate (f : R -> env -> option env) (dt : R) (nsteps step : nat) (e : env) : option (env * nat) :=
  match nsteps with
  | O => Some (e, step)
  | S n => match f (time_of dt step) e with None => None | Some e' => iterate f dt n (S step) e' end
  end.
Lemma euler_iterate p ft filt dt : forall nsteps step e, euler_propagate p ft filt dt nsteps step e = iterate (euler_step p ft filt dt) dt nsteps step e.
Proof. induction nsteps as [|k IH]; intros step e; cbn [euler_propagate iterate]; [reflexivity|]. destruct (euler_step p ft filt dt (time_of dt step) e); [apply IH|reflexivity]. Qed.
Lemma rk4_iterate p ft filt dt : forall nsteps step e, rk4_propagate p ft filt dt nsteps step e = iterate (rk4_step p ft filt dt) dt nsteps step e.
Proof. induction nsteps as [|k IH]; intros step e; cbn [rk4_propagate iterate]; [reflexivity|]. destruct (rk4_step p ft filt dt (time_of dt step) e); [apply IH|reflexivity]. Qed.
Lemma iterate_last f dt : forall k step e e1, iterate f dt k step e = Some (e1, (step + k)%nat) ->
  iterate f dt (S k) step e = match f (time_of dt (step + k)) e1 with None => None | Some e2 => Some (e2, (step + S k)%nat) end.
Proof.
  induction k as [|k IH]; intros step e e1 H.
  - cbn [iterate] in *. injection H as <- _. rewrite Nat.add_0_r, Nat.add_1_r. reflexivity.
  - cbn [iterate] in H. change (iterate f dt (S (S k)) step e) with (match f (time_of dt step) e with None => None | Some e' => iterate f dt (S k) (S step) e' end).
    destruct (f (time_of dt step) e) as [e'|]; [|discriminate]. rewrite (IH (S step) e' e1) by (rewrite H; f_equal; f_equal; lia).
    replace (S step + k)%nat with (step + S k)%nat by lia. replace (S step + S k)%nat with (step + S (S k))%nat by lia. reflexivity.
Qed.
Lemma run_states (f : R -> env -> option env) (dt : R) (OK : env -> Prop) (Q : R -> env -> env -> Prop) :
  (forall t e, OK e -> exists e', f t e = Some e' /\ OK e' /\ Q t e e') -> forall e, OK e ->
  exists st : nat -> env, st 0%nat = e /\ forall k, OK (st k) /\ Q (INR k * dt) (st k) (st (S k)) /\ iterate f dt k 0 e = Some (st k, k).
Proof.
  intros Hf e He. set (g := fun t e => match f t e with Some e' => e' | None => e end).
  set (st := fix st k := match k with O => e | S k => g (INR k * dt) (st k) end). exists st. split; [reflexivity|].
  assert (HOK : forall k, OK (st k)).
  { induction k as [|k IH]; [exact He|]. change (st (S k)) with (g (INR k * dt) (st k)). unfold g. destruct (Hf (INR k * dt) _ IH) as (e' & -> & H & _). exact H. }
  assert (HR : forall k, iterate f dt k 0 e = Some (st k, k)).
  { induction k as [|k IH]; [reflexivity|]. rewrite (iterate_last f dt k 0 e (st k)) by exact IH. cbn [Nat.add]. change (time_of dt k) with (INR k * dt).
    change (st (S k)) with (g (INR k * dt) (st k)). unfold g. destruct (Hf (INR k * dt) _ (HOK k)) as (e' & -> & _). reflexivity. }
  intros k. split; [apply HOK|]. split; [|apply HR].
  change (st (S k)) with (g (INR k * dt) (st k)). unfold g. destruct (Hf (INR k * dt) _ (HOK k)) as (e' & -> & _ & H). exact H.
Qed.
