(** Lemmas for C109: values and amplitudes, runs, and fixed-point iteration. *)
From Verif Require Import ListAux FileModel StepProofs SddProofs DftSpec DftProofs RealSpec RealProofs SimSpec SimProofs2 SimProofs3 SimProofs4 SimProofs5 SimProofs6 MatchProofs MatchProofs2 LinearProofs2 LinearProofs3 ConvergeProofs.
From Verif Require ConvergeProps.
From Verif Require Import LimitProofs LimitProofs2 LimitProofs3 LimitSpec KeepSpec KeepProofs2 ImplicitModel ImplicitSpec ImplicitProofs ImplicitProofs2 ApproachSpec ApproachProofs ApproachProofs2.
From Coq Require Import Reals Lia Lra.
From Verif Require Import Complex.
Open Scope R_scope.

(** ** Entries of the packed vector *)
Lemma values_nth n fs : all_length n fs -> forall i j, (i < length fs)%nat -> (j < n)%nat -> nth (i * n + j) (values fs) 0 = Re (nth j (nth i fs []) C0).
Proof.
  induction fs as [|d fs IH]; intros Hf i j Hi Hj; cbn [length] in Hi; [lia|]. apply Forall_cons_iff in Hf. destruct Hf as [Ld Hf].
  unfold values. cbn [map concat]. destruct i as [|i].
  - cbn [Nat.mul Nat.add nth]. rewrite app_nth1 by (rewrite map_length; lia). change 0 with (Re C0). apply (map_nth Re).
  - rewrite app_nth2 by (rewrite map_length; lia). rewrite map_length, Ld. replace (S i * n + j - n)%nat with (i * n + j)%nat by lia. cbn [nth]. apply IH; (assumption || lia).
Qed.
Lemma index_split n c q : (q < c * n)%nat -> exists i j, (i < c)%nat /\ (j < n)%nat /\ q = (i * n + j)%nat.
Proof.
  intros H. assert (Hn : n <> 0%nat) by (intros ->; lia). exists (q / n)%nat, (q mod n)%nat. split; [apply Nat.div_lt_upper_bound; lia|]. split; [apply Nat.mod_upper_bound, Hn|].
  rewrite (Nat.mul_comm _ n). apply Nat.div_mod, Hn.
Qed.
Lemma index_bound n c i j : (i < c)%nat -> (j < n)%nat -> (i * n + j < c * n)%nat.
Proof. intros Hi Hj. assert ((S i * n <= c * n)%nat) by (apply Nat.mul_le_mono_r; lia). cbn [Nat.mul] in *. lia. Qed.

Lemma real_size z : Im z = 0 -> size z = Rabs (Re z).
Proof. intros H. unfold size. rewrite H, Rabs_R0. ring. Qed.

Section Convert.
  Variables (dom : list Z) (nf : nat).
  Hypothesis Hv : valid_domain dom.
  Let n := nodes dom.
  Let ft := fftw_transform dom.
  Hypothesis Hn : (0 < n)%nat.
  Let UT : unitary_transform n ft := fftw_unitary dom Hv.
  Let GT := ut_good n ft UT.

  Lemma nth_length fs i : shaped nf n fs -> (i < nf)%nat -> length (nth i fs []) = n.
  Proof.
    intros [H1 H2] Hi. destruct (nth_error fs i) as [d|] eqn:Ed.
    - rewrite (nth_error_nth _ _ _ Ed). exact (all_length_nth n _ i d H2 Ed).
    - apply nth_error_None in Ed. lia.
  Qed.
  Lemma nth_real fs i j : real_fields dom fs -> Im (nth j (nth i fs []) C0) = 0.
  Proof.
    intros H. destruct (le_lt_dec (length fs) i) as [Hi|Hi]; [rewrite (nth_overflow fs) by exact Hi; destruct j; reflexivity|].
    destruct (le_lt_dec (length (nth i fs [])) j) as [Hj|Hj]; [rewrite nth_overflow by exact Hj; reflexivity|].
    unfold real_fields in H. rewrite Forall_forall in H. destruct (H (nth i fs []) (nth_In _ _ Hi)) as [_ Hr]. apply (proj1 (real_field_nth _) Hr j Hj).
  Qed.
  Lemma near_of_entries r fs gs : 0 <= r -> shaped nf n fs -> shaped nf n gs -> real_fields dom fs -> real_fields dom gs ->
    (forall q, (q < nf * n)%nat -> Rabs (nth q (values fs) 0 - nth q (values gs) 0) <= r) -> near nf n (2 * (INR n * r)) (amplitude_of ft fs) (amplitude_of ft gs).
  Proof.
    intros Hr Hf Hg Rf Rg H i k Hi Hk. unfold amplitude_of. apply (mode_close n ft UT Hn); [apply nth_length; assumption|apply nth_length; assumption|exact Hr| |exact Hk].
    intros j Hj. rewrite real_size by (unfold Csub, Im; cbn [snd]; pose proof (nth_real fs i j Rf); pose proof (nth_real gs i j Rg); unfold Im in *; lra).
    specialize (H (i * n + j)%nat (index_bound n nf i j Hi Hj)).
    rewrite (values_nth n fs (proj2 Hf)), (values_nth n gs (proj2 Hg)) in H by (destruct Hf, Hg; lia). exact H.
  Qed.
  Lemma small_of_entries r fs : 0 <= r -> shaped nf n fs -> real_fields dom fs ->
    (forall q, (q < nf * n)%nat -> Rabs (nth q (values fs) 0) <= r) -> within nf n (2 * (INR n * r)) (amplitude_of ft fs).
  Proof.
    intros Hr Hf Rf H i k Hi Hk. unfold amplitude_of. apply (mode_bound n ft UT Hn); [apply nth_length; assumption|exact Hr| |exact Hk].
    intros j Hj. rewrite real_size by (apply nth_real, Rf).
    specialize (H (i * n + j)%nat (index_bound n nf i j Hi Hj)). rewrite (values_nth n fs (proj2 Hf)) in H by (destruct Hf; lia). exact H.
  Qed.
  Lemma re_size z : Rabs (Re z) <= size z.
  Proof. unfold size. pose proof (Rabs_pos (Im z)). lra. Qed.
  Lemma entries_of_near e fs gs : 0 <= e -> shaped nf n fs -> shaped nf n gs -> near nf n e (amplitude_of ft fs) (amplitude_of ft gs) ->
    forall q, (q < nf * n)%nat -> Rabs (nth q (values fs) 0 - nth q (values gs) 0) <= 2 * e.
  Proof.
    intros He Hf Hg H q Hq. destruct (index_split n nf q Hq) as (i & j & Hi & Hj & ->).
    rewrite (values_nth n fs (proj2 Hf)), (values_nth n gs (proj2 Hg)) by (destruct Hf, Hg; lia).
    pose proof (real_close n ft UT Hn (nth i fs []) (nth i gs []) e (nth_length fs i Hf Hi) (nth_length gs i Hg Hi) He (fun k Hk => H i k Hi Hk) j Hj) as Q.
    eapply Rle_trans; [|exact Q]. apply (re_size (Csub _ _)).
  Qed.
  Lemma entries_of_small e fs : 0 <= e -> shaped nf n fs -> within nf n e (amplitude_of ft fs) -> forall q, (q < nf * n)%nat -> Rabs (nth q (values fs) 0) <= 2 * e.
  Proof.
    intros He Hf H q Hq. destruct (index_split n nf q Hq) as (i & j & Hi & Hj & ->). rewrite (values_nth n fs (proj2 Hf)) by (destruct Hf; lia).
    pose proof (real_bound n ft UT Hn (nth i fs []) e (nth_length fs i Hf Hi) He (fun k Hk => H i k Hi Hk) j Hj) as Q. eapply Rle_trans; [|exact Q]. apply re_size.
  Qed.
  Lemma modes_distance d u : length d = n -> length u = n -> INR n * distance2 d u = Vec.rsum n (fun k => Cnorm2 (Csub (nth k (fft ft d) C0) (nth k (fft ft u) C0))).
  Proof.
    intros Ld Lu. rewrite <- (energy_difference n d u Ld Lu). rewrite (energy_modes n ft _ UT) by (apply StepProofs.map2_length; assumption).
    rewrite (ut_fft_add n ft UT) by assumption. apply Vec.rsum_ext. intros k Hk.
    rewrite (map2_at _ _ _ n k) by (try apply (gt_fft_len n ft GT); assumption). f_equal. csolve.
  Qed.
  Lemma close_of_near e fs gs : shaped nf n fs -> shaped nf n gs -> near nf n e (amplitude_of ft fs) (amplitude_of ft gs) -> close_to nf (e ^ 2) fs gs.
  Proof.
    intros Hf Hg H i Hi. apply Rmult_le_reg_l with (INR n); [apply lt_0_INR; exact Hn|]. rewrite modes_distance by (apply nth_length; assumption).
    apply (rsum_bound n Hn). intros k Hk. apply norm_of_size. apply (H i k Hi Hk).
  Qed.
  Lemma near_of_close e fs gs : 0 <= e -> shaped nf n fs -> shaped nf n gs -> close_to nf (e ^ 2 / INR n) fs gs -> near nf n (2 * e) (amplitude_of ft fs) (amplitude_of ft gs).
  Proof.
    intros He Hf Hg H i k Hi Hk. apply size_of_norm; [exact He|]. assert (HN : 0 < INR n) by (apply lt_0_INR; exact Hn).
    apply Rle_trans with (INR n * distance2 (nth i fs []) (nth i gs [])).
    - rewrite modes_distance by (apply nth_length; assumption).
      apply (rsum_entry n Hn n (fun k => Cnorm2 (Csub (nth k (fft ft (nth i fs [])) C0) (nth k (fft ft (nth i gs [])) C0)))); [intros; apply Cnorm2_nonneg|exact Hk].
    - apply Rle_trans with (INR n * (e ^ 2 / INR n)); [apply Rmult_le_compat_l; [lra|exact (H i Hi)]|]. right. field. lra.
  Qed.

  (** ** Differences of fields *)
  Definition sub_fields (fs gs : list data) : list data := map2 (map2 Csub) fs gs.
  Lemma sub_values fs : forall gs, length gs = length fs -> all_length n fs -> all_length n gs -> values (sub_fields fs gs) = ImplicitSpec.minus (values fs) (values gs).
  Proof.
    induction fs as [|d fs IH]; intros [|g gs] Hl Hf Hg; try discriminate; [reflexivity|]. cbn [length] in Hl. apply Forall_cons_iff in Hf. destruct Hf as [Ld Hf]. apply Forall_cons_iff in Hg. destruct Hg as [Lg Hg].
    unfold values, sub_fields. cbn [map2 map concat]. rewrite minus_app by (rewrite !map_length; congruence). f_equal; [|apply (IH gs); (assumption || lia)].
    assert (El : length d = length g) by congruence. revert El. clear. revert g. induction d as [|z d IH]; intros [|w g] H; try discriminate; [reflexivity|]. cbn [map2 map ImplicitSpec.minus length] in *.
    rewrite IH by lia. reflexivity.
  Qed.
  Lemma sub_shape fs gs : shaped nf n fs -> shaped nf n gs -> shaped nf n (sub_fields fs gs).
  Proof.
    intros [Hf1 Hf2] [Hg1 Hg2]. split; [unfold sub_fields; apply StepProofs.map2_length; assumption|]. unfold sub_fields. clear Hf1. revert gs Hg1 Hg2. clear - Hf2. intros gs _.
    revert gs. induction Hf2 as [|d fs Ld _ IH]; intros [|g gs] Hg; cbn [map2]; try constructor.
    - apply Forall_cons_iff in Hg. apply StepProofs.map2_length; [exact Ld|apply Hg].
    - apply IH. apply Forall_cons_iff in Hg. apply Hg.
  Qed.
  Lemma sub_real fs : forall gs, real_fields dom fs -> real_fields dom gs -> real_fields dom (sub_fields fs gs).
  Proof.
    induction fs as [|d fs IH]; intros [|g gs] Hf Hg; unfold sub_fields; cbn [map2]; try constructor; apply Forall_cons_iff in Hf; apply Forall_cons_iff in Hg.
    - destruct Hf as [[Ld Rd] _], Hg as [[Lg Rg] _]. split; [apply StepProofs.map2_length; assumption|]. apply real_field_of_nth || idtac.
      unfold real_field in *. revert g Lg Rg. assert (X : forall g, Forall (fun z => Im z = 0) g -> Forall (fun z => Im z = 0) (map2 Csub d g)).
      { clear - Rd. induction Rd as [|z d Hz _ IH]; intros [|w g] Hg; cbn [map2]; constructor; apply Forall_cons_iff in Hg; [|apply IH, Hg].
        destruct Hg as [Hw _]. unfold Csub, Im in *. cbn [snd]. lra. }
      intros g _ Rg. apply X, Rg.
    - apply (IH gs); [apply Hf|apply Hg].
  Qed.
  Lemma sub_amplitude fs gs i k : shaped nf n fs -> shaped nf n gs -> (i < nf)%nat -> (k < n)%nat ->
    amplitude_of ft (sub_fields fs gs) i k = Csub (amplitude_of ft fs i k) (amplitude_of ft gs i k).
  Proof.
    intros Hf Hg Hi Hk. unfold amplitude_of. replace (nth i (sub_fields fs gs) []) with (map2 (fun u v => Cadd u (Cmul (Copp C1) v)) (nth i fs []) (nth i gs [])).
    - rewrite (ut_fft_add n ft UT) by (apply nth_length; assumption).
      rewrite (map2_at _ _ _ n k) by (try apply (gt_fft_len n ft GT); try apply nth_length; assumption). csolve.
    - assert (Hfl : (i < length fs)%nat) by (destruct Hf; lia). assert (Hgl : (i < length gs)%nat) by (destruct Hg; lia). unfold sub_fields. clear - Hfl Hgl. revert i gs Hfl Hgl.
      induction fs as [|d fs IH]; intros [|i] [|g gs] H1 H2; cbn [length] in *; try lia; cbn [map2 nth]; [|apply IH; lia].
      clear. revert g. induction d as [|z d IH]; intros [|w g]; cbn [map2]; try reflexivity. rewrite IH. f_equal. csolve.
  Qed.
End Convert.
