(** Proofs for DivGrad, conservative noise, and what goes wrong with names. *)
From Verif Require Import ListAux ParseProofs FileProofs DerivedProofs SetupSpec SetupProofs CVec.
From Verif Require Import Complex.
Open Scope nat_scope.

Section Dg.
  Variable grad : nat -> (nat -> C) -> nat -> C.
  Variable look : str -> option nat.
  Variable F : memory -> nat -> C.

  Definition dg_grad_at (field : str) (src d s : nat) : dfield := grad_field grad (dg_grad_name field d) d src s.
  Definition dg_flux_at (field : str) (d s : nat) : dfield :=
    {| df_name := dg_flux_name field d; df_slice := s;
       df_calc := fun mem i => Cmul (F mem i) (get_by_name look mem (dg_grad_name field d) i) |}.

  Lemma dg_fields_length : forall dim field src d new, length (dg_fields grad look F field src d dim new) = 2 * dim.
  Proof. induction dim as [|dim IH]; intros field src d new; [reflexivity|]. cbn [dg_fields length]. rewrite IH. lia. Qed.

  Lemma dg_fields_nth : forall dim field src d new k, k < dim ->
    nth_error (dg_fields grad look F field src d dim new) (2 * k) = Some (dg_grad_at field src (d + k) (new + 2 * k))
    /\ nth_error (dg_fields grad look F field src d dim new) (2 * k + 1) = Some (dg_flux_at field (d + k) (new + 2 * k + 1)).
  Proof.
    induction dim as [|dim IH]; intros field src d new k Hk; [lia|]. cbn [dg_fields]. destruct k as [|k].
    - cbn [Nat.mul Nat.add nth_error]. rewrite !Nat.add_0_r. split; [reflexivity|]. rewrite Nat.add_1_r. reflexivity.
    - replace (2 * S k) with (S (S (2 * k))) by lia. cbn [Nat.add nth_error].
      destruct (IH field src (S d) (S (S new)) k) as [A B]; [lia|]. cbn [Nat.add] in A, B. rewrite A, B.
      replace (new + S (S (2 * k))) with (S (S (new + 2 * k))) by lia. replace (d + S k) with (S (d + k)) by lia. split; reflexivity.
  Qed.

  Lemma dg_fields_in : forall dim field src d new x, In x (dg_fields grad look F field src d dim new) ->
    exists k, k < dim /\ (x = dg_grad_at field src (d + k) (new + 2 * k) \/ x = dg_flux_at field (d + k) (new + 2 * k + 1)).
  Proof.
    induction dim as [|dim IH]; intros field src d new x H; [destruct H|]. cbn [dg_fields In] in H. destruct H as [<-|[<-|H]].
    - exists 0. split; [lia|]. left. unfold dg_grad_at. rewrite !Nat.add_0_r. reflexivity.
    - exists 0. split; [lia|]. right. unfold dg_flux_at. rewrite !Nat.add_0_r, Nat.add_1_r. reflexivity.
    - apply IH in H. destruct H as (k & Hk & H). exists (S k). split; [lia|].
      replace (d + S k) with (S d + k) by lia. replace (new + 2 * S k) with (S (S new) + 2 * k) by lia. exact H.
  Qed.

  Lemma dg_fields_nodup : forall dim field src d new, NoDup (map df_name (dg_fields grad look F field src d dim new)).
  Proof.
    induction dim as [|dim IH]; intros field src d new; [constructor|]. cbn [dg_fields map grad_field df_name].
    assert (G : forall n, In n (map df_name (dg_fields grad look F field src (S d) dim (S (S new)))) ->
                exists k, n = dg_grad_name field (S d + k) \/ n = dg_flux_name field (S d + k)).
    { intros n Hn. apply in_map_iff in Hn. destruct Hn as (x & <- & Hx). apply dg_fields_in in Hx.
      destruct Hx as (k & _ & [->| ->]); exists k; [left|right]; reflexivity. }
    constructor.
    - intros [Q|Q]; [symmetry in Q; exact (dg_names_differ _ _ _ _ Q)|]. apply G in Q. destruct Q as (k & [Q|Q]).
      + apply dg_grad_name_inj in Q. lia.
      + exact (dg_names_differ _ _ _ _ Q).
    - constructor; [|apply IH]. intros Q. apply G in Q. destruct Q as (k & [Q|Q]).
      + symmetry in Q. exact (dg_names_differ _ _ _ _ Q).
      + apply dg_flux_name_comp in Q. lia.
  Qed.
End Dg.

Lemma sync_low : forall ds mem s b, (forall d, In d ds -> b <= df_slice d) -> s < b -> sync_loop ds mem s = mem s.
Proof. intros ds mem s b H Hs. apply sync_loop_other. intros d Hd. specialize (H d Hd). lia. Qed.

Section DgMain.
  Variable grad : nat -> (nat -> C) -> nat -> C.

  Lemma dg_prepared : forall F m m1 m2 dim field new mem d i, wf m -> below m new ->
    dg_prepare grad (brick_slice m2) F dim m field new = Some m1 -> later (new + 2 * dim) m1 m2 ->
    depends_only_on (fun s => s < new) F -> d < dim ->
    brick_get m2 (sync_derived m2 mem) (dg_flux_name field d) i
    = Some (Cmul (F (sync_derived m2 mem) i) (grad d (shown m2 (sync_derived m2 mem) field) i)).
  Proof.
    intros F m m1 m2 dim field new mem d i Hwf [Hb1 Hb2] Hp [Hk (more & Hm & Hmore)] HF Hd.
    unfold dg_prepare in Hp. destruct (brick_slice m field) as [src|] eqn:Hsrc; [|discriminate Hp].
    injection Hp as Hp. set (look := brick_slice m2) in *. set (ds := dg_fields grad look F field src 0 dim new) in *.
    assert (Hnd : NoDup (map df_name ds)) by apply dg_fields_nodup.
    destruct (dg_fields_nth grad look F dim field src 0 new d Hd) as [NG NF]. fold ds in NG, NF. cbn [Nat.add] in NG, NF.
    assert (HS : look (dg_flux_name field d) = Some (new + 2 * d + 1)).
    { unfold look. apply Hk. rewrite <- Hp.
      exact (slice_all_new ds m _ Hwf Hnd (nth_error_In _ _ NF)). }
    assert (HG : look (dg_grad_name field d) = Some (new + 2 * d)).
    { unfold look. apply Hk. rewrite <- Hp.
      exact (slice_all_new ds m _ Hwf Hnd (nth_error_In _ _ NG)). }
    assert (HFs : look field = Some src).
    { unfold look. apply Hk. rewrite <- Hp. rewrite slice_all_old; [exact Hsrc|exact Hwf|]. intros Q.
      apply in_map_iff in Q. destruct Q as (x & E & Hx). apply dg_fields_in in Hx.
      destruct Hx as (k & _ & [->| ->]); cbn [dg_grad_at dg_flux_at grad_field df_name] in E.
      - exact (dg_grad_not_field _ _ E). - exact (dg_flux_not_field _ _ E). }
    set (mem1 := sync_derived m2 mem). set (mem0 := sync_loop (dm_derived m) mem).
    assert (Em2 : dm_derived m2 = dm_derived m ++ (ds ++ more)).
    { rewrite Hm, <- Hp, register_all_derived, <- app_assoc. reflexivity. }
    assert (Emem : mem1 = sync_loop more (sync_loop ds mem0)).
    { unfold mem1, sync_derived. rewrite Em2, !sync_app. reflexivity. }
    assert (Hds : forall x, In x ds -> new <= df_slice x).
    { intros x Hx. apply dg_fields_in in Hx. destruct Hx as (k & _ & [->| ->]); cbn [dg_grad_at dg_flux_at grad_field df_slice]; lia. }
    assert (Hmo : forall x, In x more -> new + 2 * dim <= df_slice x) by (rewrite Forall_forall in Hmore; exact Hmore).
    assert (Hlow : forall s, s < new -> mem1 s = mem0 s).
    { intros s Hs. rewrite Emem. rewrite (sync_low more _ s _ Hmo) by lia. exact (sync_low ds _ s _ Hds Hs). }
    assert (Hfix : forall s, s < new + 2 * dim -> mem1 s = sync_loop ds mem0 s).
    { intros s Hs. rewrite Emem. exact (sync_low more _ s _ Hmo Hs). }
    assert (Hafter : forall k x, In x (skipn k ds) -> new + k <= df_slice x).
    { intros k x Hx. apply In_nth_error in Hx. destruct Hx as (j & Hj). rewrite nth_error_skipn_add in Hj.
      assert (L : k + j < 2 * dim). { rewrite <- (dg_fields_length grad look F dim field src 0 new). apply nth_error_Some. fold ds. congruence. }
      pose proof (Nat.div_mod (k + j) 2 ltac:(lia)) as DM. pose proof (Nat.mod_upper_bound (k + j) 2 ltac:(lia)) as MB.
      set (q := (k + j) / 2) in *. destruct (dg_fields_nth grad look F dim field src 0 new q) as [A B]; [lia|]. fold ds in A, B.
      destruct ((k + j) mod 2) as [|[|r]] eqn:Er; [| |lia].
      - rewrite Nat.add_0_r in DM. rewrite DM in Hj. rewrite A in Hj. injection Hj as <-. cbn [dg_grad_at grad_field df_slice]. lia.
      - rewrite DM in Hj. rewrite B in Hj. injection Hj as <-. cbn [dg_flux_at df_slice]. lia. }
    assert (VG : sync_loop (firstn (2 * d + 1) ds) mem0 (new + 2 * d) = grad d (mem0 src)).
    { assert (E1 : firstn (2 * d + 1) ds = firstn (2 * d) ds ++ [dg_grad_at grad field src d (new + 2 * d)]).
      { rewrite (nth_error_split_at ds (2 * d) _ NG) at 1. rewrite firstn_app.
        assert (L : length (firstn (2 * d) ds) = 2 * d).
        { apply firstn_length_le. unfold ds. rewrite dg_fields_length. lia. }
        rewrite L. replace (2 * d + 1 - 2 * d) with 1 by lia. cbn [firstn]. rewrite firstn_all2 by (rewrite L; lia). reflexivity. }
      rewrite E1, sync_app. cbn [sync_loop dg_grad_at grad_field df_slice df_calc]. unfold set_slice. rewrite Nat.eqb_refl.
      f_equal. apply (sync_low _ _ _ new); [|exact (Hb1 _ _ Hsrc)]. intros x Hx. apply Hds. exact (in_firstn _ _ _ Hx). }
    unfold brick_get. fold look. rewrite HS. f_equal. fold mem1. rewrite Hfix by lia.
    pose proof (sync_at ds mem0 (2 * d + 1) _ NF) as Q. cbn [dg_flux_at df_slice df_calc] in Q. rewrite Q.
    - f_equal.
      + apply HF. intros s k Hs. cbn beta in Hs. rewrite (Hlow s Hs). rewrite (sync_low _ mem0 s new); [reflexivity| |exact Hs].
        intros x Hx. apply Hds. exact (in_firstn _ _ _ Hx).
      + unfold get_by_name. rewrite HG, VG. unfold shown. fold look. rewrite HFs. rewrite (Hlow src (Hb1 _ _ Hsrc)). reflexivity.
    - intros x Hx. apply Hafter in Hx. lia.
  Qed.
End DgMain.
