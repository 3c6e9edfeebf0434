(** Proofs for the terms that prepare a model. *)
From Verif Require Import ListAux ParseProofs FileProofs DerivedProofs SetupSpec CVec.
From Verif Require Import Complex.
From Coq Require Import Permutation.
Open Scope nat_scope.

Definition wf (m : dmodel) : Prop := forall n c, lookup (dm_bricks m) n = Some c -> c < dm_next m.

Lemma wf_new : wf new_dmodel.
Proof. intros n c H. discriminate H. Qed.

Lemma wf_derived_loop : forall ds c m, wf m -> c < dm_next m -> wf (derived_loop c m ds) .
Proof.
  induction ds as [|d ds IH]; intros c m H Hc; [exact H|]. cbn [derived_loop]. apply IH.
  - destruct (is_field_name _ _); [exact H|]. intros n x Hx. cbn [dm_bricks lookup dm_next] in *.
    destruct (str_eqb (df_name d) n); [injection Hx as <-; exact Hc|exact (H n x Hx)].
  - destruct (is_field_name _ _); exact Hc.
Qed.

Lemma wf_register : forall m d, wf m -> wf (register_derived m d).
Proof.
  intros m d H n c Hc. cbn [register_derived dm_bricks lookup dm_next] in *.
  destruct (str_eqb (df_name d) n); [injection Hc as <-; lia|specialize (H n c Hc); lia].
Qed.

Lemma wf_update : forall ds m, wf m -> wf (update_derived m ds).
Proof.
  induction ds as [|d ds IH]; intros m H; [exact H|]. cbn [update_derived]. apply IH.
  destruct (is_field_name m (df_name d)); [exact H|apply wf_register, H].
Qed.

Lemma wf_regs : forall rs m, wf m -> wf (run_regs m rs).
Proof.
  induction rs as [|r rs IH]; intros m H; [exact H|]. cbn [run_regs]. apply IH. destruct r as [n s|d|ds|ds].
  - intros x c Hc. cbn [run_reg add_field dm_bricks lookup dm_next] in *.
    destruct (str_eqb n x); [injection Hc as <-; lia|specialize (H x c Hc); lia].
  - apply wf_register, H.
  - cbn [run_reg]. unfold register_derived_fields. apply wf_derived_loop; [|cbn [dm_next]; lia].
    intros x c Hc. cbn [dm_bricks dm_next] in *. specialize (H x c Hc). lia.
  - apply wf_update, H.
Qed.

Lemma wf_register_all : forall ds m, wf m -> wf (register_all m ds).
Proof. induction ds as [|d ds IH]; intros m H; [exact H|]. cbn [register_all]. apply IH, wf_register, H. Qed.

Lemma slice_register : forall m d n, wf m ->
  brick_slice (register_derived m d) n = if str_eqb (df_name d) n then Some (df_slice d) else brick_slice m n.
Proof.
  intros m d n H. unfold brick_slice. cbn [register_derived dm_bricks dm_cells lookup].
  destruct (str_eqb (df_name d) n) eqn:E.
  - unfold set_cell. rewrite Nat.eqb_refl. reflexivity.
  - destruct (lookup (dm_bricks m) n) as [c|] eqn:El; [|reflexivity]. unfold set_cell.
    destruct (Nat.eqb_spec c (dm_next m)) as [Ec|_]; [specialize (H n c El); lia|reflexivity].
Qed.

Lemma register_all_derived : forall ds m, dm_derived (register_all m ds) = dm_derived m ++ ds.
Proof.
  induction ds as [|d ds IH]; intros m; [cbn [register_all]; rewrite app_nil_r; reflexivity|].
  cbn [register_all]. rewrite IH. cbn [register_derived dm_derived]. rewrite <- app_assoc. reflexivity.
Qed.

Lemma slice_all_old : forall ds m n, wf m -> ~ In n (map df_name ds) -> brick_slice (register_all m ds) n = brick_slice m n.
Proof.
  induction ds as [|d ds IH]; intros m n H Hn; [reflexivity|]. cbn [register_all map In] in *.
  rewrite IH; [|apply wf_register, H|tauto]. rewrite slice_register by exact H.
  destruct (str_eqb (df_name d) n) eqn:E; [apply str_eqb_eq in E; tauto|reflexivity].
Qed.

Lemma slice_all_new : forall ds m d, wf m -> NoDup (map df_name ds) -> In d ds ->
  brick_slice (register_all m ds) (df_name d) = Some (df_slice d).
Proof.
  induction ds as [|x ds IH]; intros m d H Hd Hin; [destruct Hin|]. cbn [register_all map] in *.
  apply NoDup_cons_iff in Hd. destruct Hd as [Hx Hd]. destruct Hin as [<-|Hin].
  - rewrite slice_all_old; [|apply wf_register, H|exact Hx]. rewrite slice_register by exact H.
    rewrite str_eqb_refl. reflexivity.
  - apply IH; [apply wf_register, H|exact Hd|exact Hin].
Qed.

Lemma later_register_all : forall m ds b, wf m ->
  (forall d, In d ds -> brick_slice m (df_name d) = None /\ b <= df_slice d) -> later b m (register_all m ds).
Proof.
  intros m ds b H Hd. split.
  - intros n s Hs. rewrite slice_all_old; [exact Hs|exact H|]. intros Hin. apply in_map_iff in Hin.
    destruct Hin as (d & <- & Hin). destruct (Hd d Hin) as [E _]. congruence.
  - exists ds. split; [apply register_all_derived|]. apply Forall_forall. intros d Hin. apply Hd, Hin.
Qed.

Lemma later_trans : forall b b' m1 m2 m3, b <= b' -> later b m1 m2 -> later b' m2 m3 -> later b m1 m3.
Proof.
  intros b b' m1 m2 m3 Hb [A (l1 & E1 & F1)] [B (l2 & E2 & F2)]. split; [auto|].
  exists (l1 ++ l2). rewrite E2, E1, app_assoc. split; [reflexivity|]. apply Forall_app. split; [exact F1|].
  eapply Forall_impl; [|exact F2]. cbn beta. intros a Ha. lia.
Qed.

(** ** Synchronising *)

Lemma sync_app : forall l1 l2 mem, sync_loop (l1 ++ l2) mem = sync_loop l2 (sync_loop l1 mem).
Proof. induction l1 as [|d l1 IH]; intros l2 mem; [reflexivity|]. cbn [app sync_loop]. apply IH. Qed.

Lemma sync_keep : forall ds mem s, (forall d, In d ds -> df_slice d <> s) -> sync_loop ds mem s = mem s.
Proof. exact sync_loop_other. Qed.

Lemma nth_error_split_at {A} : forall (l : list A) k x, nth_error l k = Some x -> l = firstn k l ++ x :: skipn (S k) l.
Proof.
  induction l as [|y l IH]; intros [|k] x H; try discriminate H.
  - injection H as <-. reflexivity.
  - cbn [nth_error] in H. cbn [firstn skipn app]. f_equal. apply IH, H.
Qed.

(** The value of the derived field at position [k], when later fields do not
    write to its slice: its calculator, on what the memory holds then. *)
Lemma sync_at : forall ds mem k d, nth_error ds k = Some d ->
  (forall x, In x (skipn (S k) ds) -> df_slice x <> df_slice d) ->
  sync_loop ds mem (df_slice d) = df_calc d (sync_loop (firstn k ds) mem).
Proof.
  intros ds mem k d Hk Ho. rewrite (nth_error_split_at ds k d Hk) at 1. rewrite sync_app.
  cbn [sync_loop]. rewrite sync_loop_other by exact Ho. unfold set_slice. rewrite Nat.eqb_refl. reflexivity.
Qed.

Lemma app_inj_length {A} : forall (a b x y : list A), a ++ x = b ++ y -> length a = length b -> a = b /\ x = y.
Proof.
  induction a as [|c a IH]; intros [|c' b] x y E L; try discriminate L; cbn [app length] in *; [tauto|].
  injection E as -> E. apply IH in E; [|lia]. destruct E as [-> ->]. tauto.
Qed.
Lemma nodup_app {A} : forall l1 l2 : list A, NoDup l1 -> NoDup l2 -> (forall x, In x l1 -> In x l2 -> False) -> NoDup (l1 ++ l2).
Proof.
  induction l1 as [|a l1 IH]; intros l2 H1 H2 H; [exact H2|]. cbn [app]. apply NoDup_cons_iff in H1. destruct H1 as [Ha H1].
  constructor.
  - intros Q. apply in_app_or in Q. destruct Q as [Q|Q]; [contradiction|]. apply (H a); [left; reflexivity|exact Q].
  - apply IH; [exact H1|exact H2|]. intros x Hx. apply H. right. exact Hx.
Qed.

(** ** Names *)
Lemma adv_grad_name_inj : forall f d f' d', adv_grad_name f d = adv_grad_name f' d' -> f = f' /\ d = d'.
Proof.
  intros f d f' d' E. unfold adv_grad_name in E. cbn [lit list_ascii_of_string app] in E.
  apply (f_equal (@rev ascii)) in E. rewrite !rev_app_distr in E. cbn [rev] in E. rewrite <- !app_assoc in E. cbn [app] in E.
  assert (G : forall (a b x y : list ascii), ~ In under_c a -> ~ In under_c b -> a ++ under_c :: x = b ++ under_c :: y -> a = b /\ x = y).
  { induction a as [|c a IH]; intros [|c' b] x y Ha Hb H; cbn [app] in H.
    - injection H as ->. tauto.
    - injection H as E1 _. exfalso. apply Hb. left. congruence.
    - injection H as E1 _. exfalso. apply Ha. left. congruence.
    - injection H as -> H. apply IH in H; [|intros Q; apply Ha; right; exact Q|intros Q; apply Hb; right; exact Q].
      destruct H as [-> ->]. tauto. }
  apply G in E.
  - destruct E as [E1 E2]. apply (f_equal (@rev ascii)) in E1, E2. rewrite !rev_involutive in E1, E2.
    apply dec_inj in E1. split; [exact E2|lia].
  - rewrite <- in_rev. apply dec_no_under.
  - rewrite <- in_rev. apply dec_no_under.
Qed.

Lemma dg_grad_name_inj : forall f d f' d', dg_grad_name f d = dg_grad_name f' d' -> f = f' /\ d = d'.
Proof.
  intros f d f' d' E. unfold dg_grad_name in E. apply app_inv_head in E. exact (adv_grad_name_inj f d f' d' E).
Qed.

Lemma dec_length : forall z, (0 <= z < 10)%Z -> length (dec z) = 1.
Proof.
  intros z Hz. assert (K : (z = 0 \/ z = 1 \/ z = 2 \/ z = 3 \/ z = 4 \/ z = 5 \/ z = 6 \/ z = 7 \/ z = 8 \/ z = 9)%Z) by lia.
  repeat (destruct K as [->|K]; [reflexivity|]). subst z. reflexivity.
Qed.

Lemma dg_flux_name_inj : forall f d f' d', d < 10 -> d' < 10 -> dg_flux_name f d = dg_flux_name f' d' -> f = f' /\ d = d'.
Proof.
  intros f d f' d' Hd Hd' E. assert (L : length f = length f').
  { apply (f_equal (@length ascii)) in E. unfold dg_flux_name, dg_func_name, dg_grad_name in E. rewrite !app_length in E.
    rewrite !dec_length in E by lia. lia. }
  unfold dg_flux_name, dg_func_name in E. rewrite <- !app_assoc in E. apply app_inv_head in E.
  apply app_inj_length in E; [|exact L]. destruct E as [Ef E]. apply app_inv_head in E. apply dg_grad_name_inj in E. exact E.
Qed.

Lemma dg_flux_name_comp : forall f d d', dg_flux_name f d = dg_flux_name f d' -> d = d'.
Proof. intros f d d' E. unfold dg_flux_name in E. apply app_inv_head in E. apply dg_grad_name_inj in E. apply E. Qed.

Lemma dg_names_differ : forall f d f' d', dg_grad_name f d <> dg_flux_name f' d'.
Proof. intros f d f' d' E. unfold dg_grad_name, dg_flux_name, dg_func_name in E. discriminate E. Qed.

Lemma adv_name_not_grad : forall f vels d, d < 10 -> adv_name f vels <> adv_grad_name f d.
Proof.
  intros f vels d Hd E. apply (f_equal (@length ascii)) in E. unfold adv_name, adv_grad_name in E. rewrite !app_length in E.
  rewrite dec_length in E by lia. cbn [lit list_ascii_of_string length] in E. lia.
Qed.
Lemma adv_grad_not_field : forall f d, adv_grad_name f d <> f.
Proof.
  intros f d E. apply (f_equal (@length ascii)) in E. unfold adv_grad_name in E. rewrite !app_length in E.
  cbn [lit list_ascii_of_string length] in E. lia.
Qed.
Lemma adv_name_not_field : forall f vels, adv_name f vels <> f.
Proof.
  intros f vels E. apply (f_equal (@length ascii)) in E. unfold adv_name in E. rewrite !app_length in E.
  cbn [lit list_ascii_of_string length] in E. lia.
Qed.
Lemma dg_grad_not_field : forall f d, dg_grad_name f d <> f.
Proof.
  intros f d E. apply (f_equal (@length ascii)) in E. unfold dg_grad_name in E. rewrite !app_length in E.
  cbn [lit list_ascii_of_string length] in E. lia.
Qed.
Lemma dg_flux_not_field : forall f d, dg_flux_name f d <> f.
Proof.
  intros f d E. apply (f_equal (@length ascii)) in E. unfold dg_flux_name, dg_func_name in E. rewrite !app_length in E.
  cbn [lit list_ascii_of_string length] in E. lia.
Qed.

(** ** Advection *)
Section Adv.
  Variable grad : nat -> (nat -> C) -> nat -> C.

  Lemma adv_gradients_nth : forall dim field src d new k, k < dim ->
    nth_error (adv_gradients grad field src d dim new) k = Some (grad_field grad (adv_grad_name field (d + k)) (d + k) src (new + k)).
  Proof.
    induction dim as [|dim IH]; intros field src d new k Hk; [lia|]. cbn [adv_gradients]. destruct k as [|k].
    - rewrite !Nat.add_0_r. reflexivity.
    - cbn [nth_error]. rewrite IH by lia. rewrite !Nat.add_succ_comm. reflexivity.
  Qed.
  Lemma adv_gradients_length : forall dim field src d new, length (adv_gradients grad field src d dim new) = dim.
  Proof. induction dim as [|dim IH]; intros field src d new; [reflexivity|]. cbn [adv_gradients length]. rewrite IH. reflexivity. Qed.
  Lemma adv_gradients_in : forall dim field src d new x, In x (adv_gradients grad field src d dim new) ->
    exists k, k < dim /\ x = grad_field grad (adv_grad_name field (d + k)) (d + k) src (new + k).
  Proof.
    intros dim field src d new x H. apply In_nth_error in H. destruct H as (k & Hk).
    assert (L : k < dim). { rewrite <- (adv_gradients_length dim field src d new). apply nth_error_Some. congruence. }
    exists k. split; [exact L|]. rewrite adv_gradients_nth in Hk by exact L. congruence.
  Qed.
  Lemma adv_gradients_names : forall dim field src d new,
    map df_name (adv_gradients grad field src d dim new) = map (adv_grad_name field) (seq d dim).
  Proof. induction dim as [|dim IH]; intros field src d new; [reflexivity|]. cbn [adv_gradients map seq grad_field df_name]. rewrite IH. reflexivity. Qed.

  Lemma nodup_map_inj {A B} (f : A -> B) : (forall a b, f a = f b -> a = b) -> forall l, NoDup l -> NoDup (map f l).
  Proof.
    intros Hf l H. induction H as [|x l Hx _ IH]; [constructor|]. cbn [map]. constructor; [|exact IH].
    intros Q. apply in_map_iff in Q. destruct Q as (y & E & Hy). apply Hf in E. subst y. contradiction.
  Qed.

  Lemma adv_fields_nodup : forall look field vels src new, length vels <= 10 ->
    NoDup (map df_name (adv_fields grad look field vels src new)).
  Proof.
    intros look field vels src new Hl. unfold adv_fields. rewrite map_app, adv_gradients_names. cbn [map df_name].
    apply nodup_app.
    - apply nodup_map_inj; [|apply seq_NoDup]. intros a b E. apply adv_grad_name_inj in E. apply E.
    - constructor; [intros []|constructor].
    - intros x Hx [<-|[]]. apply in_map_iff in Hx. destruct Hx as (d & E & Hd). apply in_seq in Hd.
      symmetry in E. exact (adv_name_not_grad field vels d ltac:(lia) E).
  Qed.
End Adv.

Lemma v_dot_grad_sum : forall look field vels d mem i,
  v_dot_grad look field vels d mem i =
  csum (length vels) (fun k => Cmul (get_by_name look mem (nth k vels []) i) (get_by_name look mem (adv_grad_name field (d + k)) i)).
Proof.
  induction vels as [|v vels IH]; intros d mem i; [reflexivity|]. cbn [v_dot_grad length]. rewrite IH.
  change (S (length vels)) with (1 + length vels). rewrite csum_add. f_equal.
  - cbn [csum nth]. rewrite Nat.add_0_r. csolve.
  - apply csum_ext. intros k _. cbn [Nat.add nth]. replace (d + S k) with (S d + k) by lia. reflexivity.
Qed.

Lemma exists_slice : forall m n, is_brick_name m n = true -> exists s, brick_slice m n = Some s.
Proof.
  intros m n H. unfold is_brick_name in H. unfold brick_slice. destruct (lookup (dm_bricks m) n) as [c|]; [eauto|discriminate H].
Qed.

Lemma in_firstn {A} : forall n (l : list A) x, In x (firstn n l) -> In x l.
Proof. intros n l x H. rewrite <- (firstn_skipn n l). apply in_or_app. left. exact H. Qed.
Lemma nth_error_skipn_add {A} : forall k (l : list A) j, nth_error (skipn k l) j = nth_error l (k + j).
Proof.
  induction k as [|k IH]; intros [|x l] j; cbn [skipn Nat.add nth_error]; try reflexivity.
  - destruct j; reflexivity.
  - apply IH.
Qed.

Section AdvMain.
  Variable grad : nat -> (nat -> C) -> nat -> C.

  Lemma adv_prepared : forall m m1 m2 dim field vels new mem i, wf m -> below m new -> dim <= 10 ->
    adv_prepare grad (brick_slice m2) dim m field vels new = Some m1 -> later (new + dim + 1) m1 m2 ->
    (forall v, In v vels -> v <> adv_name field vels /\ forall d, d < dim -> v <> adv_grad_name field d) ->
    brick_get m2 (sync_derived m2 mem) (adv_name field vels) i
    = Some (advected grad (shown m2 (sync_derived m2 mem) field) (map (shown m2 (sync_derived m2 mem)) vels) i).
  Proof.
    intros m m1 m2 dim field vels new mem i Hwf [Hb1 Hb2] Hdim Hp [Hk (more & Hm & Hmore)] Hv.
    unfold adv_prepare in Hp. destruct (Nat.eqb_spec (length vels) dim) as [Hl|]; [|discriminate Hp]. cbn [negb] in Hp.
    destruct (adv_all_exist m field vels) eqn:Hex; [|discriminate Hp]. cbn [negb] in Hp.
    destruct (brick_slice m field) as [src|] eqn:Hsrc; [|discriminate Hp].
    injection Hp as Hp. set (look := brick_slice m2) in *. set (ds := adv_fields grad look field vels src new) in *.
    set (gs := adv_gradients grad field src 0 dim new).
    set (P := {| df_name := adv_name field vels; df_slice := new + dim; df_calc := v_dot_grad look field vels 0 |}).
    assert (Eds : ds = gs ++ [P]). { unfold ds, adv_fields, gs, P. rewrite Hl. reflexivity. }
    assert (Hnd : NoDup (map df_name ds)) by (apply adv_fields_nodup; lia).
    assert (HP : look (adv_name field vels) = Some (new + dim)).
    { unfold look. apply Hk. rewrite <- Hp. change (adv_name field vels) with (df_name P). change (new + dim) with (df_slice P).
      apply slice_all_new; [exact Hwf|exact Hnd|]. rewrite Eds. apply in_or_app. right. left. reflexivity. }
    assert (HG : forall d, d < dim -> look (adv_grad_name field d) = Some (new + d)).
    { intros d Hd. unfold look. apply Hk. rewrite <- Hp.
      change (adv_grad_name field d) with (df_name (grad_field grad (adv_grad_name field (0 + d)) (0 + d) src (new + d))).
      change (new + d) with (df_slice (grad_field grad (adv_grad_name field (0 + d)) (0 + d) src (new + d))) at 2.
      apply slice_all_new; [exact Hwf|exact Hnd|]. rewrite Eds. apply in_or_app. left.
      apply (nth_error_In _ d). apply adv_gradients_nth. exact Hd. }
    assert (Hold : forall n s, brick_slice m n = Some s -> n <> adv_name field vels -> (forall d, d < dim -> n <> adv_grad_name field d) -> look n = Some s).
    { intros n s Hs Hn1 Hn2. unfold look. apply Hk. rewrite <- Hp. rewrite slice_all_old; [exact Hs|exact Hwf|].
      rewrite Eds, map_app. intros Q. apply in_app_or in Q. destruct Q as [Q|Q].
      - unfold gs in Q. rewrite adv_gradients_names in Q. apply in_map_iff in Q. destruct Q as (d & E & Hd). apply in_seq in Hd.
        apply (Hn2 d); [lia|congruence].
      - cbn [map df_name P In] in Q. destruct Q as [Q|[]]. congruence. }
    assert (HF : look field = Some src).
    { apply Hold; [exact Hsrc| |]. - intros E. symmetry in E. exact (adv_name_not_field _ _ E).
      - intros d _ E. symmetry in E. exact (adv_grad_not_field _ _ E). }
    set (mem1 := sync_derived m2 mem). set (mem0 := sync_loop (dm_derived m) mem).
    assert (Em2 : dm_derived m2 = (dm_derived m ++ gs) ++ P :: more).
    { rewrite Hm, <- Hp, register_all_derived, Eds. rewrite <- !app_assoc. reflexivity. }
    set (memg := sync_loop (dm_derived m ++ gs) mem).
    assert (HgP : mem1 (new + dim) = v_dot_grad look field vels 0 memg).
    { unfold mem1, sync_derived. rewrite Em2. unfold memg. rewrite sync_app. cbn [sync_loop]. rewrite sync_loop_other.
      - unfold set_slice, P. cbn [df_slice df_calc]. rewrite Nat.eqb_refl. reflexivity.
      - intros d Hd. rewrite Forall_forall in Hmore. specialize (Hmore d Hd). cbn beta in Hmore. lia. }
    assert (Hlow : forall s, s < new + dim -> mem1 s = memg s).
    { intros s Hs. unfold mem1, sync_derived, memg. rewrite Em2, sync_app. apply sync_loop_other.
      intros d [<-|Hd]; [unfold P; cbn [df_slice]; lia|]. rewrite Forall_forall in Hmore. specialize (Hmore d Hd). cbn beta in Hmore. lia. }
    assert (Hlow0 : forall s l, s < new -> sync_loop (firstn l gs) mem0 s = mem0 s).
    { intros s l Hs. apply sync_loop_other. intros d Hd. apply in_firstn in Hd. apply adv_gradients_in in Hd.
      destruct Hd as (k & _ & ->). cbn [grad_field df_slice]. lia. }
    assert (Hmemg0 : forall s, s < new -> memg s = mem0 s).
    { intros s Hs. unfold memg. rewrite sync_app. fold mem0. rewrite <- (firstn_all gs). apply Hlow0. exact Hs. }
    assert (HgG : forall d, d < dim -> memg (new + d) = grad d (mem1 src)).
    { intros d Hd. unfold memg. rewrite sync_app. fold mem0.
      pose proof (sync_at gs mem0 d _ (adv_gradients_nth grad dim field src 0 new d Hd)) as Q.
      cbn [grad_field df_slice df_calc Nat.add] in Q. rewrite Q.
      - rewrite Hlow0 by (exact (Hb1 _ _ Hsrc)). pose proof (Hb1 _ _ Hsrc). rewrite Hlow by lia. rewrite Hmemg0 by lia. reflexivity.
      - intros x Hx E. apply In_nth_error in Hx. destruct Hx as (j & Hj).
        assert (Hj2 : nth_error gs (S d + j) = Some x).
        { rewrite <- nth_error_skipn_add. exact Hj. }
        assert (Lj : S d + j < dim). { rewrite <- (adv_gradients_length grad dim field src 0 new). apply nth_error_Some. fold gs. congruence. }
        unfold gs in Hj2. rewrite adv_gradients_nth in Hj2 by exact Lj. injection Hj2 as <-. cbn [grad_field df_slice] in E. lia. }
    unfold brick_get. fold look. rewrite HP. f_equal. fold mem1. rewrite HgP, v_dot_grad_sum. unfold advected. rewrite map_length.
    apply csum_ext. intros k Hk2. cbn [Nat.add]. f_equal.
    - assert (Hin : In (nth k vels []) vels) by (apply nth_In; exact Hk2).
      unfold adv_all_exist in Hex. apply andb_true_iff in Hex. destruct Hex as [Hex _]. rewrite forallb_forall in Hex.
      destruct (exists_slice m _ (Hex _ Hin)) as (s & Hs). destruct (Hv _ Hin) as [Hv1 Hv2].
      rewrite (nth_indep _ (fun _ => C0) (shown m2 mem1 [])) by (rewrite map_length; exact Hk2). rewrite map_nth.
      unfold get_by_name, shown. fold look. rewrite (Hold _ _ Hs Hv1 Hv2). rewrite Hlow; [reflexivity|]. pose proof (Hb1 _ _ Hs). lia.
    - unfold get_by_name. rewrite HG by lia. rewrite HgG by lia. unfold shown. fold look. rewrite HF. reflexivity.
  Qed.
End AdvMain.
