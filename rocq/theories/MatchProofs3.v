From Verif Require Import ListAux FileModel ParseProofs DerivedProofs EquationProofs EquationProofs2 EquationProofs4 EquationProofs5 EquationProofs8.
From Verif Require Import RegistryProofs RegistryProofs2 RegistryProofs3 StepProofs SplitSpec MatchSpec SimProofs SimProofs2 SimProofs3 SimProofs4 SimProofs5 SimProofs6 SplitProofs4 MatchProofs MatchProofs2.
From Coq Require Import Lia Permutation.
Open Scope nat_scope.

Lemma Forall2_same {A} (P : A -> A -> Prop) l : (forall x, In x l -> P x x) -> Forall2 P l l.
Proof. induction l as [|x l IH]; intros H; constructor; [apply H; left; reflexivity|]. apply IH. intros y Hy. apply H. right. exact Hy. Qed.
Lemma Forall2_map_right {A B} (P : A -> B -> Prop) (g : A -> B) l : (forall x, In x l -> P x (g x)) -> Forall2 P l (map g l).
Proof. induction l as [|x l IH]; intros H; constructor; [apply H; left; reflexivity|]. apply IH. intros y Hy. apply H. right. exact Hy. Qed.

Lemma registered_unique cs m k x s s' : run_calls new_mstate (cs ++ [CInit]) = Ok m -> registered cs k x s -> registered cs k x s' -> s = s'.
Proof.
  intros Em H H'. apply run_calls_snoc in Em. destruct Em as (m1 & Em1 & _). assert (T := tracked_run _ _ Em1).
  apply (tk_table _ _ T) in H. apply (tk_table _ _ T) in H'. congruence.
Qed.

Section Closed.
  Variables (S : nat -> Prop) (L : lang) (cs : list call) (es : list eqtext) (m : mstate) (lib : library).
  Hypothesis HD : declared L cs es.
  Hypothesis Em : run_calls new_mstate (cs ++ [CInit]) = Ok m.
  Hypothesis HS : closed_set S L cs es lib.

  Lemma closed_corresponds : corresponds (within S) L cs es lib L cs es lib.
  Proof.
    destruct HS as [Hrange Hmen]. constructor.
    - intros i j [-> Hj]. split; apply Hrange, Hj.
    - intros i j j' [-> _] [-> _]. reflexivity.
    - intros i i' j [-> _] [-> _]. reflexivity.
    - reflexivity.
    - intros i j q q' [<- Hi] Hq Hq'. rewrite Hq in Hq'. injection Hq' as <-.
      exists (signed_items q). split; [apply Permutation_refl|]. apply Forall2_same. intros [it d] Hin.
      assert (H := Hmen i q Hi Hq it d Hin). unfold same_term. cbn [fst snd]. destruct it as [t|os x].
      + split; [reflexivity|]. split; [reflexivity|]. exists (field_factors L t). split; [apply Permutation_refl|]. apply Forall2_same. intros f Hf.
        split; [|reflexivity]. destruct (H f Hf) as [(a & Ha & En)|[Hfun Hc]].
        * left. exists a, a. split; [split; [reflexivity|exact Ha]|]. split; exact En.
        * right. split; [exact Hfun|]. split; [exact Hfun|]. intros c c' Ec Ec'. rewrite Ec in Ec'. injection Ec' as <-. apply Hc, Ec.
      + split; [reflexivity|]. split; [reflexivity|]. split; [reflexivity|]. intros s s' Hs Hs' E E' t HE HE' HA.
        rewrite <- (registered_unique cs m _ x s s' Em Hs Hs'). destruct (H s Hs E E' t HE HE' HA) as (H1 & H2 & H3).
        destruct (kind_of L x); [exact H1|exact H1|split; assumption].
    - intros i j t k [-> _]. reflexivity.
  Qed.

  Lemma within_order : keeps_order (within S).
  Proof. intros i i' j j' [-> _] [-> _] H. exact H. Qed.
End Closed.

Section Renamed.
  Variables (f : str -> str) (L : lang) (cs : list call) (es : list eqtext) (lib : library).
  Variables (L' : lang) (cs' : list call) (es' : list eqtext) (lib' : library).
  Hypothesis HD : declared L cs es.
  Hypothesis HD' : declared L' cs' es'.
  Hypothesis HR : renamed f L cs es lib L' cs' es' lib'.
  Definition numbered := fun i => i < length (l_fields L).

  Lemma all_agree fs fs' : length fs = length (l_fields L) -> length fs' = length (l_fields L) -> (agree (within numbered) fs fs' <-> fs = fs').
  Proof.
    intros H H'. split.
    - intros HA. apply nth_error_ext. intros i. destruct (Nat.lt_ge_cases i (length (l_fields L))) as [Hi|Hi]; [apply HA; split; [reflexivity|exact Hi]|].
      rewrite !(proj2 (nth_error_None _ i)) by lia. reflexivity.
    - intros -> i j [-> _]. reflexivity.
  Qed.

  Lemma scalar_name_eq x : In x (atoms L ++ l_scalars L) -> is_scalar_name L x = is_scalar_name L' (f x).
  Proof.
    intros Hx. apply Bool.eq_true_iff_eq. rewrite !is_scalar_iff. apply (rn_scalar _ _ _ _ _ _ _ _ _ HR x Hx).
  Qed.

  Lemma product_names t before fs after w : good_product L t before fs after -> In w t -> In (wf_name w) (atoms L ++ l_scalars L).
  Proof.
    intros GP Hw. assert (H := Permutation_in _ (gp_perm _ _ _ _ _ GP) Hw). rewrite !in_app_iff in H. apply in_or_app.
    destruct H as [H|[H|H]].
    - right. apply (gp_scalars _ _ _ _ _ GP w). apply in_or_app. left. exact H.
    - left. apply (fs_atoms L t before fs after GP w H).
    - right. apply (gp_scalars _ _ _ _ _ GP w). apply in_or_app. right. exact H.
  Qed.

  Definition rw (w : wfactor) : wfactor := {| wf_op := wf_op w; wf_fac := rename_factor f (wf_fac w) |}.

  Lemma factors_renamed t : (forall w, In w t -> In (wf_name w) (atoms L ++ l_scalars L)) ->
    field_factors L' (map rw t) = map (rename_factor f) (field_factors L t) /\ scalar_factors L' (map rw t) = map (rename_factor f) (scalar_factors L t)
    /\ total_power (map rw t) = total_power t.
  Proof.
    intros H. unfold field_factors, scalar_factors. induction t as [|w t IH]; [repeat split|]. cbn [map filter total_power].
    destruct IH as (I1 & I2 & I3); [intros w' Hw'; apply H; right; exact Hw'|].
    change (wf_name (rw w)) with (f (wf_name w)). rewrite <- (scalar_name_eq _ (H w (or_introl eq_refl))).
    destruct (is_scalar_name L (wf_name w)); cbn [negb map]; rewrite I1, I2, I3; repeat split.
  Qed.

  Lemma scalars_value l : (forall a, In a l -> In (fa_name a) (l_scalars L)) ->
    product_value (lb_pow lib) (lb_scalar lib) l = product_value (lb_pow lib') (lb_scalar lib') (map (rename_factor f) l).
  Proof.
    induction l as [|a l IH]; intros H; [reflexivity|]. cbn [map product_value rename_factor fa_name]. rewrite IH by (intros b Hb; apply H; right; exact Hb).
    rewrite (rn_value _ _ _ _ _ _ _ _ _ HR _ (H a (or_introl eq_refl))), (rn_pow _ _ _ _ _ _ _ _ _ HR). reflexivity.
  Qed.

  Lemma signed_renamed q : signed_items (rename_equation f q) = map (fun p => (rename_item f (fst p), snd p)) (signed_items q).
  Proof. unfold signed_items, rename_equation. cbn [q_first q_lead q_more map fst snd]. f_equal. rewrite !map_map. reflexivity. Qed.

  Lemma renamed_corresponds : corresponds (within numbered) L cs es lib L' cs' es' lib'.
  Proof.
    assert (Hlen : length (l_fields L') = length (l_fields L)) by (rewrite (rn_fields _ _ _ _ _ _ _ _ _ HR), map_length; reflexivity).
    constructor.
    - intros i j [-> Hj]. unfold numbered in Hj. lia.
    - intros i j j' [-> _] [-> _]. reflexivity.
    - intros i i' j [-> _] [-> _]. reflexivity.
    - exact (rn_pow _ _ _ _ _ _ _ _ _ HR).
    - intros i j q q' [<- Hi] Hq Hq'. rewrite (rn_equations _ _ _ _ _ _ _ _ _ HR), nth_error_map, Hq in Hq'. injection Hq' as <-.
      exists (signed_items (rename_equation f q)). split; [apply Permutation_refl|]. rewrite signed_renamed. apply Forall2_map_right. intros [it d] Hin.
      assert (HG := item_good L cs es i q it d HD Hq Hin).
      unfold same_term. cbn [fst snd]. destruct it as [t|os x]; cbn [rename_item].
      + destruct HG as [(before & fs & after & GP) _]. change (map _ t) with (map rw t).
        destruct (factors_renamed t (fun w => product_names t before fs after w GP)) as (F1 & F2 & F3). rewrite F1, F2, F3.
        split.
        { f_equal. apply scalars_value. intros a Ha. unfold scalar_factors in Ha. apply in_map_iff in Ha. destruct Ha as (w & <- & Hw).
          apply filter_In in Hw. apply is_scalar_iff, Hw. }
        split; [reflexivity|]. eexists. split; [apply Permutation_refl|]. apply Forall2_map_right. intros a Ha. split; [|reflexivity]. cbn [rename_factor fa_name].
        assert (Hat : In (fa_name a) (atoms L)).
        { assert (HP := Permutation_in _ (field_factors_perm L (dc_lang _ _ _ HD) t before fs after GP) Ha). apply in_map_iff in HP. destruct HP as (w & <- & Hw).
          exact (fs_atoms L t before fs after GP w Hw). }
        unfold atoms in Hat. apply in_app_or in Hat. destruct Hat as [Hat|Hat].
        * left. apply In_nth_error in Hat. destruct Hat as (b & Hb). exists b, b. split; [split; [reflexivity|unfold numbered; apply nth_error_Some; congruence]|].
          split; [exact Hb|]. rewrite (rn_fields _ _ _ _ _ _ _ _ _ HR), nth_error_map, Hb. reflexivity.
        * right. destruct (rn_function _ _ _ _ _ _ _ _ _ HR _ Hat) as [Hf Hc]. split; [exact Hat|]. split; [exact Hf|].
          intros c c' Ec Ec' gs gs' Hg Hg' HA. rewrite Hlen in Hg'. apply all_agree in HA; [|assumption|assumption]. subst gs'. apply Hc; assumption.
      + split; [reflexivity|]. split; [reflexivity|]. destruct HG as [Hu _].
        assert (Hk := rn_kind _ _ _ _ _ _ _ _ _ HR x Hu). split; [exact Hk|]. intros s s' Hs Hs' E E' t HE HE' HA. rewrite Hlen in HE'.
        apply all_agree in HA; [|assumption|assumption]. rewrite <- Hk in Hs'.
        destruct (rn_term _ _ _ _ _ _ _ _ _ HR _ x s s' Hs Hs' E E' t HA) as (H1 & H2 & H3).
        destruct (kind_of L x); [exact H1|exact H1|split; assumption].
    - intros i j t k [-> _]. apply (rn_source _ _ _ _ _ _ _ _ _ HR).
  Qed.
End Renamed.
