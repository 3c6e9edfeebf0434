From Verif Require Import ListAux ParseProofs DerivedSpec.
From Coq Require Import Lra.
Open Scope nat_scope.

(** ** Registration *)

Definition found (m : dmodel) (n : str) (s : nat) : Prop :=
  exists c, lookup (dm_bricks m) n = Some c /\ c < dm_next m /\ dm_cells m c = (n, s).

Definition inv (m : dmodel) : Prop :=
  (forall n s, In (n, s) (dm_fields m) -> found m n s)
  /\ (forall d, In d (dm_derived m) -> found m (df_name d) (df_slice d)).

Lemma inv_reads : forall m, inv m -> reads_own_data m.
Proof.
  intros m [H1 H2]. split.
  - intros n s Hin. destruct (H1 n s Hin) as (c & Hl & _ & Hc). unfold brick_slice. rewrite Hl, Hc. reflexivity.
  - intros d Hin. destruct (H2 d Hin) as (c & Hl & _ & Hc). unfold brick_slice. rewrite Hl, Hc. reflexivity.
Qed.

Lemma str_eqb_refl : forall s, str_eqb s s = true.
Proof. intros s. apply str_eqb_eq. reflexivity. Qed.
Lemma str_eqb_neq : forall a b, str_eqb a b = false <-> a <> b.
Proof.
  intros a b. unfold str_eqb. destruct (list_eq_dec ascii_dec a b); split; intros H; try congruence.
Qed.

Lemma field_name_false : forall m n, is_field_name m n = false ->
  (forall x s, In (x, s) (dm_fields m) -> x <> n) /\ (forall d, In d (dm_derived m) -> df_name d <> n).
Proof.
  intros m n H. unfold is_field_name in H. apply orb_false_iff in H. destruct H as [H1 H2]. split.
  - intros x s Hin E. subst. assert (Ht : existsb (fun f => str_eqb (fst f) n) (dm_fields m) = true).
    { apply existsb_exists. exists (n, s). split; [exact Hin|apply str_eqb_refl]. } congruence.
  - intros d Hin E. subst. assert (Ht : existsb (fun d0 => str_eqb (df_name d0) (df_name d)) (dm_derived m) = true).
    { apply existsb_exists. exists d. split; [exact Hin|apply str_eqb_refl]. } congruence.
Qed.

Lemma field_name_true : forall m n, is_field_name m n = true <->
  (exists s, In (n, s) (dm_fields m)) \/ (exists d, In d (dm_derived m) /\ df_name d = n).
Proof.
  intros m n. unfold is_field_name. rewrite orb_true_iff, !existsb_exists. split.
  - intros [((x, s) & Hin & He)|(d & Hin & He)]; apply str_eqb_eq in He; cbn [fst] in He; subst; eauto.
  - intros [(s & Hin)|(d & Hin & He)].
    + left. exists (n, s). split; [exact Hin|apply str_eqb_refl].
    + right. exists d. subst. split; [exact Hin|apply str_eqb_refl].
Qed.

(** Adding one brick in a fresh cell keeps the others. *)
Lemma found_kept : forall m m' n0 s0 n s,
  dm_bricks m' = (n0, dm_next m) :: dm_bricks m ->
  dm_cells m' = set_cell (dm_cells m) (dm_next m) (n0, s0) ->
  dm_next m' = S (dm_next m) -> n <> n0 -> found m n s -> found m' n s.
Proof.
  intros m m' n0 s0 n s Hb Hc Hn Hne (c & Hl & Hlt & Hcell).
  exists c. rewrite Hb, Hc, Hn. cbn [lookup].
  destruct (str_eqb n0 n) eqn:E; [apply str_eqb_eq in E; congruence|].
  repeat split; [exact Hl|lia|]. unfold set_cell.
  destruct (Nat.eqb_spec c (dm_next m)); [lia|exact Hcell].
Qed.

Lemma found_new : forall m m' n s,
  dm_bricks m' = (n, dm_next m) :: dm_bricks m ->
  dm_cells m' = set_cell (dm_cells m) (dm_next m) (n, s) ->
  dm_next m' = S (dm_next m) -> found m' n s.
Proof.
  intros m m' n s Hb Hc Hn. exists (dm_next m). rewrite Hb, Hc, Hn. cbn [lookup].
  rewrite str_eqb_refl. repeat split; [lia|]. unfold set_cell. rewrite Nat.eqb_refl. reflexivity.
Qed.

Lemma inv_add_field : forall m n s, inv m -> is_field_name m n = false -> inv (add_field m n s).
Proof.
  intros m n s [H1 H2] Hn. destruct (field_name_false m n Hn) as [Hf Hd]. split.
  - intros x t Hin. cbn in Hin. apply in_app_or in Hin. destruct Hin as [Hin|[E|[]]].
    + apply found_kept with (m := m) (n0 := n) (s0 := s); try reflexivity; [eapply Hf; eassumption|auto].
    + injection E as <- <-. apply found_new with (m := m); reflexivity.
  - intros d Hin. cbn in Hin.
    apply found_kept with (m := m) (n0 := n) (s0 := s); try reflexivity; [apply Hd; assumption|auto].
Qed.

Lemma inv_register : forall m d, inv m -> is_field_name m (df_name d) = false -> inv (register_derived m d).
Proof.
  intros m d [H1 H2] Hn. destruct (field_name_false m _ Hn) as [Hf Hd]. split.
  - intros x t Hin. cbn in Hin.
    apply found_kept with (m := m) (n0 := df_name d) (s0 := df_slice d); try reflexivity; [eapply Hf; eassumption|auto].
  - intros e Hin. cbn in Hin. apply in_app_or in Hin. destruct Hin as [Hin|[<-|[]]].
    + apply found_kept with (m := m) (n0 := df_name d) (s0 := df_slice d); try reflexivity; [apply Hd; assumption|auto].
    + apply found_new with (m := m); reflexivity.
Qed.

Lemma inv_update : forall ds m, inv m -> inv (update_derived m ds).
Proof.
  induction ds as [|d ds IH]; intros m H; [exact H|].
  cbn [update_derived]. apply IH. destruct (is_field_name m (df_name d)) eqn:E; [exact H|].
  apply inv_register; assumption.
Qed.

Lemma inv_term : forall ds m, length ds <= 1 -> inv m -> inv (register_derived_fields m ds).
Proof.
  intros [|d [|d' ds]] m Hlen Hinv; cbn [length] in Hlen; try lia.
  - destruct Hinv as [H1 H2]. unfold register_derived_fields. cbn [derived_loop]. split.
    + intros n s Hin. destruct (H1 n s Hin) as (c & Hl & Hlt & Hc). exists c. cbn. repeat split; auto.
    + intros d Hin. destruct (H2 d Hin) as (c & Hl & Hlt & Hc). exists c. cbn. repeat split; auto.
  - unfold register_derived_fields. cbn [derived_loop].
    destruct (is_field_name _ _) eqn:E.
    + destruct Hinv as [H1 H2]. split.
      * intros n s Hin. destruct (H1 n s Hin) as (c & Hl & Hlt & Hc). exists c. cbn.
        repeat split; auto. unfold set_cell. destruct (Nat.eqb_spec c (dm_next m)); [lia|exact Hc].
      * intros e Hin. destruct (H2 e Hin) as (c & Hl & Hlt & Hc). exists c. cbn.
        repeat split; auto. unfold set_cell. destruct (Nat.eqb_spec c (dm_next m)); [lia|exact Hc].
    + exact (inv_register m d Hinv E).
Qed.

Lemma inv_new : inv new_dmodel.
Proof. split; intros; contradiction. Qed.

Lemma registration_safe : forall rs m, inv m -> new_names m rs -> Forall at_most_one rs -> inv (run_regs m rs).
Proof.
  induction rs as [|r rs IH]; intros m Hinv Hnew Hone; [exact Hinv|].
  cbn [run_regs]. destruct Hnew as [Hn Hnew]. inversion Hone; subst.
  apply IH; try assumption. destruct r as [n s|d|ds|ds]; cbn in *.
  - apply inv_add_field; assumption.
  - apply inv_register; assumption.
  - apply inv_term; assumption.
  - apply inv_update; assumption.
Qed.

(** *** Terms with several derived fields *)

Lemma lookup_app_in : forall l1 l2 n c, (forall x d, In (x, d) l1 -> d = c) -> In n (map fst l1) ->
  lookup (l1 ++ l2) n = Some c.
Proof.
  induction l1 as [|(x, d) l1 IH]; intros l2 n c Hall Hin; [destruct Hin|].
  cbn [app lookup]. destruct (str_eqb x n) eqn:E.
  - f_equal. apply (Hall x). left. reflexivity.
  - apply IH; [intros; eapply Hall; right; eassumption|].
    destruct Hin as [E'|Hin]; [cbn [fst] in E'; subst; rewrite str_eqb_refl in E; discriminate|exact Hin].
Qed.

Lemma derived_loop_bricks : forall c ds m,
  (forall d, In d ds -> is_field_name m (df_name d) = false) -> NoDup (map df_name ds) ->
  dm_bricks (derived_loop c m ds) = rev (map (fun d => (df_name d, c)) ds) ++ dm_bricks m
  /\ (ds <> [] -> dm_cells (derived_loop c m ds) c
      = match last ds (Build_dfield [] 0 (fun _ _ => C0)) with d => (df_name d, df_slice d) end).
Proof.
  intros c. induction ds as [|d ds IH]; intros m Hnew Hnd.
  - split; [reflexivity|congruence].
  - cbn [derived_loop].
    set (m1 := {| dm_fields := dm_fields m; dm_derived := dm_derived m; dm_bricks := dm_bricks m;
                  dm_cells := set_cell (dm_cells m) c (df_name d, df_slice d); dm_next := dm_next m |}).
    assert (E : is_field_name m1 (df_name d) = false) by exact (Hnew d (or_introl eq_refl)).
    rewrite E. inversion Hnd as [|? ? Hni Hnd']; subst.
    match goal with |- context [derived_loop c ?M ds] => set (m2 := M) end.
    destruct (IH m2) as [IHb IHc].
    { intros e Hin. unfold is_field_name. cbn [dm_fields dm_derived m2 m1].
      assert (He := Hnew e (or_intror Hin)). unfold is_field_name in He. apply orb_false_iff in He.
      destruct He as [He1 He2]. rewrite He1. rewrite existsb_app, He2. cbn [existsb orb].
      rewrite orb_false_r. apply str_eqb_neq. intros Eq. apply Hni. rewrite Eq. apply in_map, Hin. }
    { exact Hnd'. }
    split.
    + rewrite IHb. cbn [map rev]. rewrite <- app_assoc. reflexivity.
    + intros _. destruct ds as [|d' ds].
      * cbn [derived_loop last]. cbn. unfold set_cell. rewrite Nat.eqb_refl. reflexivity.
      * rewrite IHc by discriminate. reflexivity.
Qed.

Lemma batch_reads_last : forall m ds d last_d,
  (forall d', In d' ds -> is_field_name m (df_name d') = false) -> NoDup (map df_name ds) ->
  In d ds -> last ds d = last_d ->
  brick_slice (register_derived_fields m ds) (df_name d) = Some (df_slice last_d).
Proof.
  intros m ds d ld Hnew Hnd Hin Hlast. unfold register_derived_fields, brick_slice.
  destruct (derived_loop_bricks (dm_next m) ds
     {| dm_fields := dm_fields m; dm_derived := dm_derived m; dm_bricks := dm_bricks m;
        dm_cells := dm_cells m; dm_next := S (dm_next m) |} Hnew Hnd) as [Hb Hc].
  rewrite Hb. rewrite lookup_app_in with (c := dm_next m).
  - rewrite Hc by (intros ->; exact Hin).
    assert (E : last ds {| df_name := []; df_slice := 0; df_calc := fun _ _ => C0 |} = ld).
    { rewrite <- Hlast. clear -Hin. revert Hin. generalize (Build_dfield [] 0 (fun _ _ => C0)).
      induction ds as [|x ds IH]; intros e Hin; [destruct Hin|].
      destruct ds as [|y ds]; [reflexivity|]. cbn [last] in *.
      clear IH Hin. clear x. revert y. induction ds as [|z ds IH]; intros y; [reflexivity|]. cbn [last]. apply (IH z). }
    rewrite E. reflexivity.
  - intros x c' Hin'. apply in_rev, in_map_iff in Hin'. destruct Hin' as (e & Ee & _). congruence.
  - rewrite map_rev, map_map. apply in_rev. rewrite rev_involutive. cbn [fst].
    apply in_map_iff. exists d. split; [reflexivity|exact Hin].
Qed.

(** ** Synchronisation *)

Lemma sync_loop_other : forall ds mem s, (forall d, In d ds -> df_slice d <> s) -> sync_loop ds mem s = mem s.
Proof.
  induction ds as [|d ds IH]; intros mem s H; [reflexivity|].
  cbn [sync_loop]. rewrite IH by (intros; apply H; right; assumption).
  unfold set_slice. destruct (Nat.eqb_spec s (df_slice d)) as [E|E]; [|reflexivity].
  exfalso. apply (H d (or_introl eq_refl)). congruence.
Qed.

Lemma sync_loop_own : forall (keep : nat -> Prop) ds mem d,
  NoDup (map df_slice ds) -> (forall e, In e ds -> ~ keep (df_slice e)) ->
  In d ds -> depends_only_on keep (df_calc d) ->
  forall i, sync_loop ds mem (df_slice d) i = df_calc d mem i.
Proof.
  intros keep ds. induction ds as [|e ds IH]; intros mem d Hnd Hkeep Hin Hdep i; [destruct Hin|].
  cbn [sync_loop map] in *. inversion Hnd as [|? ? Hni Hnd']; subst.
  destruct Hin as [->|Hin].
  - rewrite sync_loop_other.
    + unfold set_slice. rewrite Nat.eqb_refl. reflexivity.
    + intros x Hx E. apply Hni. rewrite <- E. apply in_map, Hx.
  - rewrite IH; try assumption.
    + apply Hdep. intros s j Hs. unfold set_slice. destruct (Nat.eqb_spec s (df_slice e)) as [E|E]; [|reflexivity].
      exfalso. apply (Hkeep e (or_introl eq_refl)). rewrite <- E. exact Hs.
    + intros x Hx. apply Hkeep. right. exact Hx.
Qed.

(** ** Products *)
Open Scope Z_scope.

Lemma digit_text_facts : forall d, (d < 10)%nat ->
  digit_c (digit_text d) = true /\ digit_val (digit_text d) = Z.of_nat d
  /\ letter_c (digit_text d) = false /\ Ascii.eqb (digit_text d) dot_c = false
  /\ Ascii.eqb (digit_text d) hat_c = false /\ Ascii.eqb star_c (digit_text d) = false
  /\ Ascii.eqb (digit_text d) minus_c = false.
Proof.
  intros d H. do 10 (destruct d as [|d]; [vm_compute; repeat split; reflexivity|]). lia.
Qed.

Lemma take_while_app : forall p a b, forallb p a = true ->
  match b with [] => True | c :: _ => p c = false end ->
  take_while p (a ++ b) = a /\ drop_while p (a ++ b) = b.
Proof.
  induction a as [|x a IH]; intros b Ha Hb.
  - cbn [app]. destruct b as [|c b]; [split; reflexivity|]. cbn. rewrite Hb. split; reflexivity.
  - cbn in Ha. apply andb_true_iff in Ha. destruct Ha as [Hx Ha]. cbn [app take_while drop_while]. rewrite Hx.
    destruct (IH b Ha Hb) as [-> ->]. split; reflexivity.
Qed.

Lemma digits_all : forall ds, Forall (fun d => d < 10)%nat ds -> forallb digit_c (map digit_text ds) = true.
Proof.
  induction 1 as [|d ds Hd _ IH]; [reflexivity|]. cbn [map forallb].
  destruct (digit_text_facts d Hd) as [-> _]. exact IH.
Qed.

Lemma digits_val_spec : forall ds acc, Forall (fun d => d < 10)%nat ds ->
  digits_val acc (map digit_text ds) = acc * 10 ^ Z.of_nat (length ds) + int_value ds.
Proof.
  induction ds as [|d ds IH]; intros acc H.
  - cbn. lia.
  - inversion H; subst. cbn [map digits_val int_value length]. rewrite IH by assumption.
    destruct (digit_text_facts d H2) as (_ & -> & _).
    rewrite Nat2Z.inj_succ, Z.pow_succ_r by lia. ring.
Qed.

Lemma pow10_spec : forall n, Zpos (pow10 n) = 10 ^ Z.of_nat n.
Proof.
  induction n as [|n IH]; [reflexivity|].
  rewrite Nat2Z.inj_succ, Z.pow_succ_r by lia. rewrite <- IH. change (pow10 (S n)) with (10 * pow10 n)%positive. rewrite Pos2Z.inj_mul. reflexivity.
Qed.

Lemma IZR_pow10 : forall n, IZR (10 ^ Z.of_nat n) = (10 ^ n)%R.
Proof.
  intros n. rewrite <- pow_IZR. reflexivity.
Qed.

Definition frac_digits (e : expo) : list nat := match ex_frac e with None => [] | Some f => f end.

Lemma expo_value_eq : forall e, good_expo e ->
  Q2R (dec_val false (map digit_text (ex_int e)) (map digit_text (frac_digits e))) = expo_value e.
Proof.
  intros [ip fp] (Hne & Hi & Hf). cbn [ex_int ex_frac frac_digits] in *. unfold dec_val, Q2R. cbn [Qnum Qden].
  rewrite map_length, pow10_spec, IZR_pow10.
  assert (Hp : (10 ^ length (match fp with Some f => f | None => [] end) <> 0)%R) by (apply pow_nonzero; lra).
  unfold expo_value. cbn [ex_int ex_frac]. destruct fp as [f|]; unfold frac_digits in *; cbn [ex_frac] in *.
  - rewrite !digits_val_spec by assumption. rewrite Z.mul_0_l, Z.add_0_l, plus_IZR, mult_IZR, IZR_pow10.
    field. exact Hp.
  - cbn [map length digits_val]. rewrite digits_val_spec by assumption. rewrite Z.mul_0_l, Z.add_0_l. cbn [pow]. field.
Qed.

(** The text after an exponent must not continue it. *)
Definition stops (rest : str) : Prop :=
  match rest with [] => True | c :: _ => digit_c c = false /\ Ascii.eqb c dot_c = false end.

Lemma power_here_expo : forall e rest, good_expo e -> stops rest ->
  power_here (hat_c :: expo_text e ++ rest)
  = Some (dec_val false (map digit_text (ex_int e)) (map digit_text (frac_digits e))).
Proof.
  intros [ip fp] rest (Hne & Hi & Hf) Hs. cbn [ex_int ex_frac frac_digits] in *.
  destruct ip as [|d ip]; [congruence|]. inversion Hi as [|? ? Hd Hi']; subst.
  unfold power_here. cbn [Ascii.eqb]. replace (Ascii.eqb hat_c hat_c) with true by reflexivity.
  unfold expo_text. cbn [ex_int ex_frac map app].
  destruct (digit_text_facts d Hd) as (Hdig & _ & _ & _ & _ & _ & Hmin). rewrite Hmin. cbv zeta.
  assert (Hst : forall tl, stops tl -> match tl with [] => True | c :: _ => digit_c c = false end).
  { intros [|c tl]; [auto|intros [H _]; exact H]. }
  destruct fp as [f|]; unfold frac_digits; cbn [ex_frac].
  - assert (Hall : forallb digit_c (digit_text d :: map digit_text ip) = true)
      by (cbn [forallb]; rewrite Hdig; apply digits_all; assumption).
    destruct (take_while_app digit_c (digit_text d :: map digit_text ip) (dot_c :: map digit_text f ++ rest) Hall eq_refl) as [Ht Hdr].
    cbn [app] in Ht, Hdr. rewrite <- app_assoc. cbn [app].
    rewrite Ht, Hdr. replace (Ascii.eqb dot_c dot_c) with true by reflexivity.
    destruct (take_while_app digit_c (map digit_text f) rest (digits_all _ Hf) (Hst _ Hs)) as [-> _].
    reflexivity.
  - rewrite app_nil_r.
    assert (Hall : forallb digit_c (digit_text d :: map digit_text ip) = true)
      by (cbn [forallb]; rewrite Hdig; apply digits_all; assumption).
    destruct (take_while_app digit_c (digit_text d :: map digit_text ip) rest Hall (Hst _ Hs)) as [Ht Hdr].
    cbn [app] in Ht, Hdr. rewrite Ht, Hdr.
    destruct rest as [|c rest]; [reflexivity|]. destruct Hs as [_ ->]. reflexivity.
Qed.

Lemma find_power_skip : forall a b, forallb (fun c => negb (Ascii.eqb c hat_c)) a = true ->
  find_power (a ++ b) = find_power b.
Proof.
  induction a as [|x a IH]; intros b H; [reflexivity|].
  cbn in H. apply andb_true_iff in H. destruct H as [Hx H]. apply negb_true_iff in Hx.
  cbn [app find_power power_here]. rewrite Hx. apply IH. exact H.
Qed.

Lemma name_char_facts : forall c, name_char c = true ->
  Ascii.eqb c hat_c = false /\ Ascii.eqb star_c c = false /\ Ascii.eqb c dot_c = false.
Proof.
  intros c H. repeat split; apply not_true_is_false; intros E; apply Ascii.eqb_eq in E; subst; vm_compute in H; discriminate.
Qed.

Lemma ident_chars : forall n, ident n -> forallb name_char n = true.
Proof. intros [|c n] H; [destruct H|apply H]. Qed.

Lemma ident_no_hat : forall n, ident n -> forallb (fun c => negb (Ascii.eqb c hat_c)) n = true.
Proof.
  intros n H. apply ident_chars in H. rewrite forallb_forall in *. intros x Hx.
  destruct (name_char_facts x (H x Hx)) as [-> _]. reflexivity.
Qed.

Lemma expo_chars : forall e c, good_expo e -> In c (expo_text e) -> digit_c c = true \/ c = dot_c.
Proof.
  intros [ip fp] c (_ & Hi & Hf) Hin. unfold expo_text in Hin. cbn [ex_int ex_frac] in *.
  apply in_app_or in Hin. destruct Hin as [Hin|Hin].
  - left. assert (H := digits_all _ Hi). rewrite forallb_forall in H. apply H, Hin.
  - destruct fp as [f|]; [|destruct Hin]. destruct Hin as [<-|Hin]; [right; reflexivity|left].
    assert (H := digits_all _ Hf). rewrite forallb_forall in H. apply H, Hin.
Qed.

Lemma digit_not_star : forall c, digit_c c = true -> Ascii.eqb star_c c = false.
Proof. intros c H. apply not_true_is_false. intros E. apply Ascii.eqb_eq in E. subst. vm_compute in H. discriminate. Qed.

Lemma factor_text_no_star : forall f, good_factor f -> ~ In star_c (factor_text f).
Proof.
  intros [n e] [Hn He] Hin. unfold factor_text in Hin. cbn [fa_name fa_exp] in *.
  apply in_app_or in Hin. destruct Hin as [Hin|Hin].
  - apply ident_chars in Hn. rewrite forallb_forall in Hn. specialize (Hn _ Hin). vm_compute in Hn. discriminate.
  - destruct e as [e|]; [|destruct Hin]. destruct Hin as [E|Hin]; [discriminate|].
    destruct (expo_chars e _ He Hin) as [Hd|Hd]; [vm_compute in Hd|]; discriminate.
Qed.

Lemma factor_name_no_pow : forall f, good_factor f -> name_no_pow (factor_text f) = fa_name f.
Proof.
  intros [n e] [Hn He]. unfold name_no_pow, factor_text. cbn [fa_name fa_exp] in *.
  apply take_while_app; [apply ident_no_hat, Hn|]. destruct e; [reflexivity|exact I].
Qed.

Lemma factor_get_power : forall f, good_factor f -> Q2R (get_power (factor_text f)) = factor_power f.
Proof.
  intros [n e] [Hn He]. unfold get_power, factor_text, factor_power. cbn [fa_name fa_exp] in *.
  rewrite find_power_skip by (apply ident_no_hat, Hn). destruct e as [e|].
  - assert (H := power_here_expo e [] He I). rewrite app_nil_r in H.
    cbn [find_power]. rewrite H. apply expo_value_eq, He.
  - cbn. unfold Q2R. cbn. field.
Qed.

Lemma product_factors : forall fs, fs <> [] -> Forall good_factor fs -> factors (product_of fs) = map factor_text fs.
Proof.
  intros fs Hne H. unfold factors, product_of. apply split_join.
  - destruct fs; [congruence|discriminate].
  - apply Forall_forall. intros x Hx. apply in_map_iff in Hx. destruct Hx as (f & <- & Hf). rewrite Forall_forall in H.
    apply factor_text_no_star, H, Hf.
Qed.

Section Products.
  Variable cpow : C -> R -> C.

  Lemma calc_loop_spec : forall fields val i fs acc, Forall good_factor fs ->
    (forall f, In f fs -> exists v, field_value fields (fa_name f) = Some v /\ v i = val (fa_name f)) ->
    calc_loop cpow fields (map factor_text fs) i acc = Some (Cmul acc (product_value cpow val fs)).
  Proof.
    intros fields val i. induction fs as [|f fs IH]; intros acc Hg Hv.
    - cbn. f_equal. ring.
    - cbn [map calc_loop]. inversion Hg; subst. rewrite factor_name_no_pow by assumption.
      destruct (Hv f (or_introl eq_refl)) as (v & -> & Hi).
      rewrite IH; [|assumption|intros; apply Hv; right; assumption].
      rewrite factor_get_power by assumption. rewrite Hi. cbn [product_value]. f_equal. ring.
  Qed.

  Lemma derived_calc_spec : forall fields val i fs, fs <> [] -> Forall good_factor fs ->
    (forall f, In f fs -> exists v, field_value fields (fa_name f) = Some v /\ v i = val (fa_name f)) ->
    derived_calc cpow (product_of fs) fields i = Some (product_value cpow val fs).
  Proof.
    intros fields val i fs Hne Hg Hv. unfold derived_calc. rewrite product_factors by assumption.
    rewrite calc_loop_spec with (val := val); try assumption. f_equal. ring.
  Qed.
End Products.
