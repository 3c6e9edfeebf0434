(** Proofs about Miller indices and explorers. *)
From Verif Require Import MillerModel MillerSpec IndexSpec ProductProofs.
From Coq Require Import Lra.
Open Scope Z_scope.

Lemma meq_spec a b : meq a b = true <-> a = b.
Proof.
  destruct a as [[h k] l], b as [[h' k'] l']. cbn [meq]. rewrite !andb_true_iff, !Z.eqb_eq. split.
  - intros [[-> ->] ->]. reflexivity.
  - intros [= -> -> ->]. auto.
Qed.

(** ** Removing equal entries *)
Lemma remove_equal_spec x : forall fuel kept rest, (length rest <= fuel)%nat ->
  (forall y, In y (remove_equal fuel x kept rest) <-> In y kept \/ (In y rest /\ y <> x))
  /\ (length (remove_equal fuel x kept rest) <= length kept + length rest)%nat.
Proof.
  induction fuel as [|fuel IH]; intros kept rest H.
  - destruct rest; [|cbn in H; lia]. cbn [remove_equal]. split; [|cbn; lia]. intros y. cbn. tauto.
  - destruct rest as [|z rest]; cbn [remove_equal].
    + split; [|cbn; lia]. intros y. cbn. tauto.
    + destruct (meq x z) eqn:E.
      * apply meq_spec in E. subst z.
        set (r := match rest with [] => [] | _ => last rest x :: removelast rest end).
        assert (Hl : length r = length rest).
        { unfold r. destruct rest as [|w rest]; [reflexivity|]. assert (Q := @app_removelast_last _ (w :: rest) x ltac:(discriminate)).
          apply (f_equal (@length _)) in Q. rewrite app_length in Q. cbn [length] in *. lia. }
        assert (Hi : forall y, In y r <-> In y rest).
        { intros y. unfold r. destruct rest as [|w rest]; [tauto|]. assert (Q := @app_removelast_last _ (w :: rest) x ltac:(discriminate)).
          assert (Hq : In y (w :: rest) <-> In y (removelast (w :: rest) ++ [last (w :: rest) x])) by (rewrite <- Q; tauto).
          rewrite Hq, in_app_iff. cbn [In]. tauto. }
        destruct (IH kept r ltac:(cbn [length] in H; lia)) as [A B]. split.
        -- intros y. rewrite A, Hi. cbn [In]. split; [tauto|]. intros [Hk|[[->|Hr] Hne]]; [tauto|congruence|tauto].
        -- cbn [length]. lia.
      * destruct (IH (kept ++ [z]) rest ltac:(cbn [length] in H; lia)) as [A B]. split.
        -- intros y. rewrite A, in_app_iff. cbn [In]. assert (Hz : z <> x) by (intros ->; rewrite (proj2 (meq_spec x x) eq_refl) in E; discriminate).
           split; [|tauto]. intros [[Hk|[<-|[]]]|[Hr Hne]]; tauto.
        -- rewrite app_length in B. cbn [length] in *. lia.
Qed.

Lemma remove_all_equal_spec : forall fuel l, (length l <= fuel)%nat ->
  NoDup (remove_all_equal fuel l) /\ forall y, In y (remove_all_equal fuel l) <-> In y l.
Proof.
  induction fuel as [|fuel IH]; intros l H.
  - destruct l; [|cbn in H; lia]. split; [constructor|tauto].
  - destruct l as [|x rest]; cbn [remove_all_equal]; [split; [constructor|tauto]|].
    destruct (remove_equal_spec x (length rest) [] rest (le_n _)) as [A B]. cbn [length] in *.
    destruct (IH (remove_equal (length rest) x [] rest) ltac:(lia)) as [C D]. split.
    + constructor; [|exact C]. rewrite D, A. intros [[]|[_ X]]. congruence.
    + intros y. cbn [In]. rewrite D, A. cbn [In]. split; [tauto|]. intros [->|Hy]; [tauto|].
      destruct (meq x y) eqn:E; [left; apply meq_spec, E|]. right. right. split; [exact Hy|].
      intros ->. rewrite (proj2 (meq_spec x x) eq_refl) in E. discriminate.
Qed.

(** ** Signed permutations *)
Lemma signs_In x s : In s (signs x) <-> s = -1 \/ (x <> 0 /\ s = 1).
Proof. unfold signs. destruct (Z.eqb_spec x 0); cbn [In]; lia. Qed.

Lemma sign_reach x y : (exists s, In s (signs x) /\ y = s * x) <-> Z.abs y = Z.abs x.
Proof.
  split.
  - intros (s & Hs & ->). apply signs_In in Hs. lia.
  - intros H. destruct (Z.eq_dec y (- x)) as [->|Hn].
    + exists (-1). split; [apply signs_In; lia|lia].
    + exists 1. split; [apply signs_In; lia|lia].
Qed.

Lemma no_permutations_In h k l h' k' l' :
  In (h', k', l') (no_permutations (h, k, l)) <-> Z.abs h' = Z.abs h /\ Z.abs k' = Z.abs k /\ Z.abs l' = Z.abs l.
Proof.
  unfold no_permutations. rewrite <- !sign_reach. rewrite in_flat_map. split.
  - intros (sh & Hh & H). apply in_flat_map in H. destruct H as (sk & Hk & H). apply in_map_iff in H. destruct H as (sl & E & Hl).
    injection E as <- <- <-. split; [eauto|]. split; eauto.
  - intros ((sh & Hh & ->) & (sk & Hk & ->) & (sl & Hl & ->)). exists sh. split; [exact Hh|]. apply in_flat_map. exists sk. split; [exact Hk|].
    apply in_map_iff. exists sl. split; [reflexivity|exact Hl].
Qed.

Lemma perm3 (a b c x y z : Z) : Permutation [a; b; c] [x; y; z] <->
  (x = a /\ y = b /\ z = c) \/ (x = a /\ y = c /\ z = b) \/ (x = c /\ y = a /\ z = b) \/
  (x = c /\ y = b /\ z = a) \/ (x = b /\ y = c /\ z = a) \/ (x = b /\ y = a /\ z = c).
Proof.
  split.
  - intros H.
    assert (Hx : In x [a; b; c]) by (eapply Permutation_in; [symmetry; exact H|left; reflexivity]).
    destruct Hx as [<-|[<-|[<-|[]]]].
    + apply Permutation_cons_inv in H. apply Permutation_length_2 in H. lia.
    + assert (H' : Permutation [b; a; c] [b; y; z]) by (rewrite <- H; apply perm_swap).
      apply Permutation_cons_inv, Permutation_length_2 in H'. lia.
    + assert (H' : Permutation [c; a; b] [c; y; z]).
      { rewrite <- H. change [c; a; b] with ([c] ++ [a; b]). change [a; b; c] with ([a; b] ++ [c]). apply Permutation_app_comm. }
      apply Permutation_cons_inv, Permutation_length_2 in H'. lia.
  - assert (S12 : forall u v w : Z, Permutation [u; v; w] [v; u; w]) by (intros; apply perm_swap).
    assert (S23 : forall u v w : Z, Permutation [u; v; w] [u; w; v]) by (intros; apply perm_skip, perm_swap).
    intros [(-> & -> & ->)|[(-> & -> & ->)|[(-> & -> & ->)|[(-> & -> & ->)|[(-> & -> & ->)|(-> & -> & ->)]]]]].
    + reflexivity.
    + apply S23.
    + rewrite S23. apply S12.
    + rewrite S12, S23. apply S12.
    + rewrite S12. apply S23.
    + apply S12.
Qed.

Lemma flat_map_six {A B} (f : A -> list B) a b c d e g y :
  In y (flat_map f [a; b; c; d; e; g]) <-> In y (f a) \/ In y (f b) \/ In y (f c) \/ In y (f d) \/ In y (f e) \/ In y (f g).
Proof. cbn [flat_map]. rewrite !in_app_iff. cbn [In]. tauto. Qed.

Theorem equivalent_miller_spec m : NoDup (equivalent_miller m) /\ forall m', In m' (equivalent_miller m) <-> signed_permutation m m'.
Proof.
  unfold equivalent_miller. set (res := flat_map no_permutations (permuted m)).
  destruct (remove_all_equal_spec (length res) res (le_n _)) as [A B]. split; [exact A|]. intros m'. rewrite B. clear A B.
  destruct m as [[h k] l], m' as [[h' k'] l']. unfold res, permuted, signed_permutation, magnitudes.
  rewrite flat_map_six, !no_permutations_In, perm3. reflexivity.
Qed.

(** ** Counting, by renaming the magnitudes *)
Section Rename.
  Variables v1 v2 v3 : Z.
  Hypothesis nz : v1 <> 0 /\ v2 <> 0 /\ v3 <> 0.
  Hypothesis ne : Z.abs v1 <> Z.abs v2 /\ Z.abs v1 <> Z.abs v3 /\ Z.abs v2 <> Z.abs v3.
  Definition ren (x : Z) : Z :=
    if x =? 1 then v1 else if x =? -1 then - v1 else if x =? 2 then v2 else if x =? -2 then - v2
    else if x =? 3 then v3 else if x =? -3 then - v3 else 0.
  Definition ren3 (m : miller) : miller := let '(a, b, c) := m in (ren a, ren b, ren c).
  Definition small (x : Z) : Prop := -3 <= x <= 3.

  Lemma small_cases x : small x -> x = -3 \/ x = -2 \/ x = -1 \/ x = 0 \/ x = 1 \/ x = 2 \/ x = 3.
  Proof. unfold small. lia. Qed.
  Ltac sc H := apply small_cases in H; destruct H as [-> |[-> |[-> |[-> |[-> |[-> | ->]]]]]].

  Lemma ren_inj x y : small x -> small y -> ren x = ren y -> x = y.
  Proof. intros Hx Hy. sc Hx; sc Hy; cbn; intros; try reflexivity; exfalso; lia. Qed.
  Lemma ren_abs x y : small x -> small y -> (Z.abs (ren x) = Z.abs (ren y) <-> Z.abs x = Z.abs y).
  Proof. intros Hx Hy. sc Hx; sc Hy; cbn; lia. Qed.
  Lemma ren_zero x : small x -> (ren x = 0 <-> x = 0).
  Proof. intros Hx. sc Hx; cbn; lia. Qed.
  Lemma ren_opp x : small x -> ren (- x) = - ren x.
  Proof. intros Hx. sc Hx; cbn; lia. Qed.

  (** everything with the magnitude of ren x is a ren *)
  Lemma ren_onto x w : small x -> Z.abs w = Z.abs (ren x) -> exists y, small y /\ Z.abs y = Z.abs x /\ ren y = w.
  Proof.
    intros Hx H. assert (C : w = ren x \/ w = - ren x) by lia. destruct C as [->| ->].
    - exists x. auto.
    - exists (- x). split; [unfold small in *; lia|]. split; [lia|]. apply ren_opp, Hx.
  Qed.

  Definition small3 (m : miller) : Prop := let '(a, b, c) := m in small a /\ small b /\ small c.

  Lemma sp_small m n : small3 m -> signed_permutation m n -> small3 n.
  Proof.
    destruct m as [[a b] c], n as [[x y] z]. unfold small3, signed_permutation, magnitudes. rewrite perm3.
    assert (A : forall u v, small u -> Z.abs v = Z.abs u -> small v) by (unfold small; intros u v; lia).
    intros (Ha & Hb & Hc) [H|[H|[H|[H|[H|H]]]]]; destruct H as (H1 & H2 & H3); repeat split; (eapply A; [|eassumption]; assumption).
  Qed.

  Lemma ren3_sp m w : small3 m -> (signed_permutation (ren3 m) w <-> exists n, signed_permutation m n /\ ren3 n = w).
  Proof.
    destruct m as [[a b] c], w as [[x y] z]. intros (Ha & Hb & Hc). unfold signed_permutation, magnitudes, ren3. rewrite perm3. split.
    - intros [H|[H|[H|[H|[H|H]]]]]; destruct H as (H1 & H2 & H3);
      match type of H1 with Z.abs ?w = Z.abs (ren ?u) => destruct (ren_onto u w ltac:(assumption) H1) as (x0 & _ & A1 & <-) end;
      match type of H2 with Z.abs ?w = Z.abs (ren ?u) => destruct (ren_onto u w ltac:(assumption) H2) as (y0 & _ & A2 & <-) end;
      match type of H3 with Z.abs ?w = Z.abs (ren ?u) => destruct (ren_onto u w ltac:(assumption) H3) as (z0 & _ & A3 & <-) end;
      exists (x0, y0, z0); (split; [apply perm3; tauto|reflexivity]).
    - intros ([[x0 y0] z0] & Hp & E). injection E as <- <- <-.
      assert (Hs : small x0 /\ small y0 /\ small z0) by (exact (sp_small (a, b, c) (x0, y0, z0) (conj Ha (conj Hb Hc)) Hp)).
      destruct Hs as (Hx & Hy & Hz). apply perm3 in Hp. rewrite !ren_abs by assumption. exact Hp.
  Qed.

  Lemma ren3_count m : small3 m -> length (equivalent_miller (ren3 m)) = length (equivalent_miller m).
  Proof.
    intros Hm. destruct (equivalent_miller_spec m) as [A B]. destruct (equivalent_miller_spec (ren3 m)) as [C D].
    transitivity (length (map ren3 (equivalent_miller m))); [|apply map_length].
    apply Permutation_length. apply NoDup_Permutation; [exact C| |].
    - assert (Hall : forall n, In n (equivalent_miller m) -> small3 n) by (intros n Hn; apply B in Hn; eapply sp_small; eassumption).
      revert A Hall. clear B C D Hm. generalize (equivalent_miller m). intros l A Hall. induction A as [|n l Hn _ IH]; [constructor|]. cbn [map]. constructor.
      + intros X. apply in_map_iff in X. destruct X as (n' & E & Hn'). apply Hn. replace n with n'; [exact Hn'|].
        assert (S1 := Hall n (or_introl eq_refl)). assert (S2 := Hall n' (or_intror Hn')).
        destruct n as [[a b] c], n' as [[a' b'] c']. destruct S1 as (? & ? & ?), S2 as (? & ? & ?). cbn [ren3] in E.
        injection E as E1 E2 E3. apply ren_inj in E1; [|assumption|assumption]. apply ren_inj in E2; [|assumption|assumption].
        apply ren_inj in E3; [|assumption|assumption]. congruence.
      + apply IH. intros n' Hn'. apply Hall. right. exact Hn'.
    - intros w. rewrite D, ren3_sp by exact Hm. rewrite in_map_iff. split.
      + intros (n & H1 & H2). exists n. split; [exact H2|]. apply B, H1.
      + intros (n & H1 & H2). exists n. split; [apply B, H2|exact H1].
  Qed.

  Lemma ren3_num m : small3 m -> num_equivalent_3d (ren3 m) = num_equivalent_3d m.
  Proof.
    destruct m as [[a b] c]. intros (Ha & Hb & Hc). unfold ren3, num_equivalent_3d.
    assert (Z0 : forall x, small x -> (ren x =? 0) = (x =? 0)).
    { intros x Hx. destruct (Z.eqb_spec x 0) as [E|E], (Z.eqb_spec (ren x) 0) as [F|F]; try reflexivity; exfalso; rewrite ren_zero in F by exact Hx; tauto. }
    assert (A0 : forall x y, small x -> small y -> (Z.abs (ren x) =? Z.abs (ren y)) = (Z.abs x =? Z.abs y)).
    { intros x y Hx Hy. destruct (Z.eqb_spec (Z.abs x) (Z.abs y)) as [E|E], (Z.eqb_spec (Z.abs (ren x)) (Z.abs (ren y))) as [F|F]; try reflexivity;
      exfalso; rewrite ren_abs in F by assumption; tauto. }
    rewrite !Z0, !A0 by assumption. reflexivity.
  Qed.
End Rename.

Lemma small_rep h k l : exists v1 v2 v3 a b c,
  (v1 <> 0 /\ v2 <> 0 /\ v3 <> 0) /\ (Z.abs v1 <> Z.abs v2 /\ Z.abs v1 <> Z.abs v3 /\ Z.abs v2 <> Z.abs v3) /\
  In a [0; 1] /\ In b [0; 1; -1; 2] /\ In c [0; 1; -1; 2; -2; 3] /\ ren3 v1 v2 v3 (a, b, c) = (h, k, l).
Proof.
  set (N := Z.abs h + Z.abs k + Z.abs l + 1).
  assert (S1 : exists v1 a, v1 <> 0 /\ Z.abs v1 <= N /\ ((a = 0 /\ h = 0) \/ (a = 1 /\ h = v1))).
  { destruct (Z.eq_dec h 0) as [E|E]; [exists N, 0; lia|exists h, 1; lia]. }
  destruct S1 as (v1 & a & N1 & B1 & Ha).
  assert (S2 : exists v2 b, v2 <> 0 /\ Z.abs v2 <= N + 1 /\ Z.abs v1 <> Z.abs v2 /\
     ((b = 0 /\ k = 0) \/ (b = 1 /\ k = v1) \/ (b = -1 /\ k = - v1) \/ (b = 2 /\ k = v2))).
  { clear Ha. destruct (Z.eq_dec k 0) as [E|E]; [exists (N + 1), 0; lia|].
    destruct (Z.eq_dec k v1) as [E1|E1]; [exists (N + 1), 1; lia|]. destruct (Z.eq_dec k (- v1)) as [E2|E2]; [exists (N + 1), (-1); lia|].
    exists k, 2. lia. }
  destruct S2 as (v2 & b & N2 & B2 & D12 & Hb).
  assert (S3 : exists v3 c, v3 <> 0 /\ Z.abs v1 <> Z.abs v3 /\ Z.abs v2 <> Z.abs v3 /\
     ((c = 0 /\ l = 0) \/ (c = 1 /\ l = v1) \/ (c = -1 /\ l = - v1) \/ (c = 2 /\ l = v2) \/ (c = -2 /\ l = - v2) \/ (c = 3 /\ l = v3))).
  { clear Ha Hb. destruct (Z.eq_dec l 0) as [E|E]; [exists (N + 2), 0; lia|].
    destruct (Z.eq_dec l v1) as [E1|E1]; [exists (N + 2), 1; lia|]. destruct (Z.eq_dec l (- v1)) as [E2|E2]; [exists (N + 2), (-1); lia|].
    destruct (Z.eq_dec l v2) as [E3|E3]; [exists (N + 2), 2; lia|]. destruct (Z.eq_dec l (- v2)) as [E4|E4]; [exists (N + 2), (-2); lia|].
    exists l, 3. lia. }
  destruct S3 as (v3 & c & N3 & D13 & D23 & Hc).
  exists v1, v2, v3, a, b, c. split; [auto|]. split; [auto|]. cbn [In ren3].
  split; [destruct Ha as [[-> _]|[-> _]]; auto|].
  split; [destruct Hb as [[-> _]|[[-> _]|[[-> _]|[-> _]]]]; auto|].
  split; [destruct Hc as [[-> _]|[[-> _]|[[-> _]|[[-> _]|[[-> _]|[-> _]]]]]]; auto 10|].
  f_equal; [f_equal|].
  - destruct Ha as [[-> ->]|[-> ->]]; reflexivity.
  - destruct Hb as [[-> ->]|[[-> ->]|[[-> ->]|[-> ->]]]]; reflexivity.
  - destruct Hc as [[-> ->]|[[-> ->]|[[-> ->]|[[-> ->]|[[-> ->]|[-> ->]]]]]]; reflexivity.
Qed.

Theorem num_3d_spec h k l : num_equivalent_3d (h, k, l) = Z.of_nat (length (equivalent_miller (h, k, l)))
  <-> ~ (Z.abs h = Z.abs l /\ Z.abs h <> Z.abs k).
Proof.
  destruct (small_rep h k l) as (v1 & v2 & v3 & a & b & c & Hnz & Hne & Ha & Hb & Hc & E).
  assert (Hs : small a /\ small b /\ small c).
  { unfold small. cbn [In] in Ha, Hb, Hc. lia. }
  rewrite <- E. rewrite (ren3_num v1 v2 v3 Hnz Hne) by exact Hs. rewrite (ren3_count v1 v2 v3 Hnz Hne) by exact Hs.
  cbn [ren3] in E. injection E as <- <- <-. destruct Hs as (H1 & H2 & H3). rewrite !(ren_abs v1 v2 v3 Hnz Hne) by assumption.
  cbn [In] in Ha, Hb, Hc. clear H1 H2 H3 Hnz Hne.
  destruct Ha as [<-|[<-|[]]]; destruct Hb as [<-|[<-|[<-|[<-|[]]]]];
  destruct Hc as [<-|[<-|[<-|[<-|[<-|[<-|[]]]]]]];
  match goal with |- ?x = ?y <-> _ => let x' := eval vm_compute in x in let y' := eval vm_compute in y in change x with x'; change y with y' end; cbn; lia.
Qed.

Lemma perm2 (a b x y : Z) : Permutation [a; b] [x; y] <-> (a = x /\ b = y) \/ (a = y /\ b = x).
Proof.
  split; [intros H; apply Permutation_length_2 in H; lia|]. intros [[-> ->]|[-> ->]]; [reflexivity|apply perm_swap].
Qed.

Theorem num_2d_spec h k L : NoDup L -> (forall m', In m' L <-> signed_permutation_2d (h, k) m') ->
  num_equivalent_2d (h, k, 0) = Z.of_nat (length L).
Proof.
  intros HN HL. unfold num_equivalent_2d. f_equal. destruct (equivalent_miller_spec (h, k, 0)) as [A B].
  transitivity (length (map (fun e : Z * Z => (fst e, snd e, 0)) L)); [|apply map_length].
  apply Permutation_length, NoDup_Permutation.
  - apply NoDup_filter, A.
  - apply FinFun.Injective_map_NoDup; [|exact HN]. intros [a b] [a' b'] E. cbn in E. congruence.
  - intros [[x y] z]. rewrite filter_In, B, in_map_iff. cbn [snd]. rewrite Z.eqb_eq. unfold signed_permutation, magnitudes. rewrite perm3. split.
    + intros [H ->]. exists (x, y). split; [reflexivity|]. apply HL. unfold signed_permutation_2d. cbn [fst snd]. rewrite perm2.
      revert H. change (Z.abs 0) with 0. generalize (Z.abs x) (Z.abs y) (Z.abs h) (Z.abs k). clear. intros p q r s H. lia.
    + intros ([x' y'] & E & H). cbn in E. injection E as -> -> <-. apply HL in H. unfold signed_permutation_2d in H. cbn [fst snd] in H.
      rewrite perm2 in H. split; [|reflexivity]. revert H. change (Z.abs 0) with 0. generalize (Z.abs x) (Z.abs y) (Z.abs h) (Z.abs k). clear.
      intros p q r s [[-> ->]|[-> ->]]; [left|do 5 right]; repeat split.
Qed.

(** ** Explorers *)
Lemma explorer_calls_product x0 : forall n p os, calls n p = Some os ->
  explorer_calls n {| h_x0 := x0; h_prod := Some p |} = Some (map (option_map (point x0)) os).
Proof.
  induction n as [|n IH]; intros p os H; cbn [calls explorer_calls] in *; [injection H as <-; reflexivity|].
  unfold explorer_next. cbn [h_prod h_x0]. destruct (next p) as [[o p']|]; [|discriminate].
  destruct (calls n p') as [os'|] eqn:E; [|discriminate]. injection H as <-. rewrite (IH p' os' E). destruct o; reflexivity.
Qed.

Lemma explorer_calls_new x0 n : explorer_calls n (new_explorer x0)
  = explorer_calls n {| h_x0 := x0; h_prod := Some (new_product (map (fun _ => 2) x0)) |}.
Proof. destruct n; reflexivity. Qed.

Definition to_sign (c : Z) : R := (2 * IZR c - 1)%R.

Lemma point_signed x0 comb : point x0 comb = signed_point (map to_sign comb) x0.
Proof.
  unfold point, signed_point. revert x0. induction comb as [|c comb IH]; intros [|x x0]; cbn [combine map]; try reflexivity.
  rewrite IH. reflexivity.
Qed.

Lemma box_two n c : in_box (repeat 2 n) c -> length c = n /\ Forall (fun x => x = 0 \/ x = 1) c.
Proof.
  revert c. induction n as [|n IH]; intros c H; inversion H; subst; cbn [length]; [split; [reflexivity|constructor]|].
  destruct (IH _ H4) as [A B]. split; [lia|]. constructor; [lia|exact B].
Qed.

Lemma num_nodes_two n : num_nodes (repeat 2 n) = 2 ^ Z.of_nat n.
Proof.
  unfold num_nodes. induction n as [|n IH]; [reflexivity|]. cbn [repeat fold_right]. rewrite IH.
  replace (Z.of_nat (S n)) with (Z.succ (Z.of_nat n)) by lia. rewrite Z.pow_succ_r; lia.
Qed.

Theorem hyper_octants x0 : x0 <> [] -> exists S : list (list R),
  explorer_calls (Datatypes.S (length S)) (new_explorer x0) = Some (map (fun s => Some (signed_point s x0)) S ++ [None])
  /\ NoDup S /\ (forall s, In s S <-> sign_pattern (length x0) s) /\ Z.of_nat (length S) = 2 ^ Z.of_nat (length x0).
Proof.
  intros Hne.
  assert (E2 : map (fun _ : R => 2) x0 = repeat 2 (length x0)).
  { clear. induction x0 as [|x x0 IH]; [reflexivity|]. cbn. rewrite IH. reflexivity. }
  destruct (product_enumerates (map (fun _ : R => 2) x0)) as (L & HL & Hsort & Hin & Hlen).
  { destruct x0; [congruence|discriminate]. }
  { apply Forall_forall. intros d Hd. apply in_map_iff in Hd. destruct Hd as (_ & <- & _). lia. }
  exists (map (map to_sign) L). rewrite map_length. split.
  { rewrite explorer_calls_new, (explorer_calls_product _ _ _ _ HL). f_equal. rewrite map_app, !map_map. f_equal.
    apply map_ext. intros c. cbn [option_map]. rewrite point_signed. reflexivity. }
  assert (Hinj : forall c c', map to_sign c = map to_sign c' -> c = c').
  { induction c as [|a c IH]; intros [|a' c'] E; try discriminate; [reflexivity|]. cbn [map] in E. injection E as E1 E'.
    rewrite (IH _ E'). f_equal. apply eq_IZR. unfold to_sign in E1. lra. }
  split.
  { assert (HN := lex_sorted_NoDup L Hsort). apply FinFun.Injective_map_NoDup; [|exact HN]. intros c c'. apply Hinj. }
  rewrite E2 in *. split.
  - intros s. rewrite in_map_iff. split.
    + intros (c & <- & Hc). apply Hin, box_two in Hc. destruct Hc as [A B]. split; [rewrite map_length; exact A|].
      apply Forall_forall. intros x Hx. apply in_map_iff in Hx. destruct Hx as (a & <- & Ha). rewrite Forall_forall in B.
      unfold to_sign. destruct (B a Ha) as [->| ->]; [right|left]; lra.
    + intros [A B]. assert (G : exists c, map to_sign c = s /\ in_box (repeat 2 (length s)) c).
      { clear A. induction B as [|x s Hx _ IH]; [exists []; split; [reflexivity|constructor]|].
        destruct IH as (c & <- & Hc). destruct Hx as [->| ->].
        - exists (1 :: c). split; [cbn [map]; f_equal; unfold to_sign; lra|]. cbn [length repeat]. constructor; [lia|exact Hc].
        - exists (0 :: c). split; [cbn [map]; f_equal; unfold to_sign; lra|]. cbn [length repeat]. constructor; [lia|exact Hc]. }
      destruct G as (c & E & Hc). exists c. split; [exact E|]. apply Hin. rewrite A in Hc. exact Hc.
  - rewrite Hlen. apply num_nodes_two.
Qed.

Lemma single_after x0 n : single_calls n x0 true = repeat None n.
Proof. induction n as [|n IH]; [reflexivity|]. cbn. rewrite IH. reflexivity. Qed.

Theorem single_point x0 n : single_calls (S n) x0 false = Some x0 :: repeat None n.
Proof. cbn [single_calls single_next]. rewrite single_after. reflexivity. Qed.
