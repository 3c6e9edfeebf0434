(** C19: derived fields hold, and are read as, what their name says. *)
From Verif Require Import DerivedSpec DerivedProofs.
Open Scope nat_scope.

(** After any history of AddField, RegisterDerivedField, RegisterFunction,
    AddEquation and Register*Term calls in which names are not reused and no
    term brings more than one derived field, looking a field up by its name
    gives its own data. *)
Theorem C19_bricks_read_own_data_partial : forall rs,
  new_names new_dmodel rs -> Forall at_most_one rs -> reads_own_data (run_regs new_dmodel rs).
Proof. intros rs Hn Ho. exact (inv_reads _ (registration_safe rs new_dmodel inv_new Hn Ho)). Qed.
Print Assumptions C19_bricks_read_own_data_partial.

(** A term registered with several new derived fields breaks this: all of them
    read the data of the last one. *)
Theorem C19_term_fields_read_last : forall m ds d,
  (forall d', In d' ds -> is_field_name m (df_name d') = false) -> NoDup (map df_name ds) -> In d ds ->
  brick_slice (run_reg m (RTerm ds)) (df_name d) = Some (df_slice (last ds d)).
Proof. intros m ds d Hn Hd Hin. exact (batch_reads_last m ds d (last ds d) Hn Hd Hin eq_refl). Qed.
Print Assumptions C19_term_fields_read_last.

Definition zero_field (n : str) (s : nat) : dfield := {| df_name := n; df_slice := s; df_calc := fun _ _ => C0 |}.

Theorem C19_several_fields_refuted :
  exists rs, new_names new_dmodel rs /\ ~ reads_own_data (run_regs new_dmodel rs).
Proof.
  exists [RField "conc"%string 0; RTerm [zero_field "current_0"%string 1; zero_field "current_1"%string 2]].
  split; [split; [reflexivity|split; exact I]|].
  intros [_ H]. specialize (H (zero_field "current_0"%string 1) (or_introl eq_refl)).
  vm_compute in H. discriminate.
Qed.
Print Assumptions C19_several_fields_refuted.

(** After SyncDerivedFields every derived field holds what its calculator
    yields for the present fields, and the fields are unchanged. *)
Theorem C19_sync_is_current : forall m mem,
  NoDup (map df_slice (dm_derived m)) ->
  (forall d, In d (dm_derived m) ->
     depends_only_on (fun s => ~ In s (map df_slice (dm_derived m))) (df_calc d)) ->
  (forall d i, In d (dm_derived m) -> sync_derived m mem (df_slice d) i = df_calc d mem i)
  /\ (forall s, ~ In s (map df_slice (dm_derived m)) -> sync_derived m mem s = mem s).
Proof.
  intros m mem Hnd Hdep. split.
  - intros d i Hin. apply (sync_loop_own (fun s => ~ In s (map df_slice (dm_derived m)))); auto.
    intros e He Hk. apply Hk, in_map, He.
  - intros s Hs. apply sync_loop_other. intros d Hd E. apply Hs. rewrite <- E. apply in_map, Hd.
Qed.
Print Assumptions C19_sync_is_current.

(** The calculator made from the text of a product of field powers multiplies
    exactly these powers, for every number of factors and every exponent. *)
Theorem C19_product_calculator : forall cpow fields val i fs,
  fs <> [] -> Forall good_factor fs ->
  (forall f, In f fs -> exists v, field_value fields (fa_name f) = Some v /\ v i = val (fa_name f)) ->
  derived_calc cpow (product_of fs) fields i = Some (product_value cpow val fs).
Proof. exact derived_calc_spec. Qed.
Print Assumptions C19_product_calculator.

Definition field_table (m : dmodel) (mem : memory) : list (str * (nat -> C)) :=
  map (fun f => (fst f, mem (snd f))) (dm_fields m).

Lemma field_table_value m mem n i (val : str -> C) :
  In n (map fst (dm_fields m)) -> (forall n s, In (n, s) (dm_fields m) -> val n = mem s i) ->
  exists v, field_value (field_table m mem) n = Some v /\ v i = val n.
Proof.
  unfold field_table. intros Hin Hval. induction (dm_fields m) as [|(x, s) l IH]; [destruct Hin|].
  cbn [map fst snd field_value] in *.
  assert (Hval' : forall n s, In (n, s) l -> val n = mem s i) by (intros; apply Hval; right; assumption).
  destruct (in_dec (list_eq_dec ascii_dec) n (map fst l)) as [H|H].
  - destruct (IH H Hval') as (v & -> & Hv). exists v. auto.
  - assert (E : field_value (map (fun f => (fst f, mem (snd f))) l) n = None).
    { clear -H. induction l as [|(y, t) l IH]; [reflexivity|]. cbn [map fst snd field_value] in *.
      rewrite IH by (intros Hc; apply H; right; exact Hc).
      destruct (str_eqb y n) eqn:E; [|reflexivity]. exfalso. apply H. left.
      apply ParseProofs.str_eqb_eq in E. exact E. }
    rewrite E. destruct Hin as [<-|Hin]; [|contradiction].
    rewrite str_eqb_refl. exists (mem s). split; [reflexivity|]. symmetry. apply Hval. left. reflexivity.
Qed.

Lemma field_value_other m mem mem' n i :
  (forall s, In s (map snd (dm_fields m)) -> mem s i = mem' s i) ->
  match field_value (field_table m mem) n, field_value (field_table m mem') n with
  | Some v, Some v' => v i = v' i
  | None, None => True
  | _, _ => False
  end.
Proof.
  unfold field_table. intros H. induction (dm_fields m) as [|(x, s) l IH]; [exact I|].
  cbn [map fst snd field_value] in *.
  assert (H' : forall s, In s (map snd l) -> mem s i = mem' s i) by (intros; apply H; right; assumption).
  specialize (IH H').
  destruct (field_value (map (fun f => (fst f, mem (snd f))) l) n), (field_value (map (fun f => (fst f, mem' (snd f))) l) n);
    try contradiction; try exact IH.
  destruct (str_eqb x n); [|exact I]. apply H. left. reflexivity.
Qed.

Lemma calc_loop_other cpow m mem mem' i fs : (forall s, In s (map snd (dm_fields m)) -> mem s i = mem' s i) ->
  forall acc, calc_loop cpow (field_table m mem) fs i acc = calc_loop cpow (field_table m mem') fs i acc.
Proof.
  intros H. induction fs as [|f fs IH]; intros acc; [reflexivity|]. cbn [calc_loop].
  assert (Hv := field_value_other m mem mem' (name_no_pow f) i H).
  destruct (field_value (field_table m mem) (name_no_pow f)), (field_value (field_table m mem') (name_no_pow f));
    try contradiction; [|reflexivity].
  rewrite Hv. apply IH.
Qed.

(** The derived field an equation introduces for a product. *)
Definition product_calc (cpow : C -> R -> C) (m : dmodel) (name : str) : memory -> nat -> C :=
  fun mem i => match derived_calc cpow name (field_table m mem) i with Some v => v | None => C0 end.

(** Together: after a safe history and a synchronisation, reading the brick
    named by a product of field powers gives the product of the fields'
    present values. *)
Theorem C19_product_brick : forall cpow rs m mem d fs i val,
  m = run_regs new_dmodel rs -> new_names new_dmodel rs -> Forall at_most_one rs ->
  NoDup (map df_slice (dm_derived m)) ->
  (forall s, In s (map snd (dm_fields m)) -> ~ In s (map df_slice (dm_derived m))) ->
  In d (dm_derived m) -> df_name d = product_of fs -> df_calc d = product_calc cpow m (df_name d) ->
  fs <> [] -> Forall good_factor fs -> Forall (fun f => In (fa_name f) (map fst (dm_fields m))) fs ->
  (forall n s, In (n, s) (dm_fields m) -> val n = mem s i) ->
  brick_get m (sync_derived m mem) (df_name d) i = Some (product_value cpow val fs).
Proof.
  intros cpow rs m mem d fs i val Em Hnew Hone Hnd Hdisj Hd Hname Hcalc Hne Hg Hfields Hval.
  destruct (C19_bricks_read_own_data_partial rs Hnew Hone) as [_ Hown]. rewrite <- Em in Hown.
  unfold brick_get. rewrite (Hown d Hd). f_equal.
  unfold sync_derived.
  rewrite (sync_loop_own (fun s => In s (map snd (dm_fields m)))); try assumption.
  - rewrite Hcalc. unfold product_calc. rewrite Hname.
    rewrite (derived_calc_spec cpow (field_table m mem) val i fs Hne Hg); [reflexivity|].
    intros f Hf. rewrite Forall_forall in Hfields. apply field_table_value; [apply Hfields, Hf|exact Hval].
  - intros e He Hk. apply (Hdisj _ Hk), in_map, He.
  - intros mem1 mem2 H j. rewrite Hcalc. unfold product_calc, derived_calc.
    rewrite (calc_loop_other cpow m mem1 mem2) by (intros s Hs; apply H, Hs). reflexivity.
Qed.
Print Assumptions C19_product_brick.

(** Instances: two fields, the product conc^2.5*eta of an equation, a term
    with one derived field and a registered function. *)
Definition ex_fs : list factor :=
  [{| fa_name := "conc"%string; fa_exp := Some {| ex_int := [2]; ex_frac := Some [5] |} |};
   {| fa_name := "eta"%string; fa_exp := None |}].
Definition ex_fields : list (str * nat) := [("conc"%string : str, 0); ("eta"%string : str, 1)].
Definition ex_base : dmodel := run_regs new_dmodel [RField "conc"%string 0; RField "eta"%string 1].
Definition ex_rs (cpow : C -> R -> C) : list reg :=
  [RField "conc"%string 0; RField "eta"%string 1;
   REquation [{| df_name := product_of ex_fs; df_slice := 2; df_calc := product_calc cpow ex_base (product_of ex_fs) |}];
   RTerm [zero_field "current"%string 3]; RDerived (zero_field "myfunc"%string 4)].

Example C19_nonvacuous : forall cpow,
  product_of ex_fs = ("conc^2.5*eta"%string : str)
  /\ new_names new_dmodel (ex_rs cpow) /\ Forall at_most_one (ex_rs cpow)
  /\ NoDup (map df_slice (dm_derived (run_regs new_dmodel (ex_rs cpow))))
  /\ Forall good_factor ex_fs
  /\ map snd (dm_fields (run_regs new_dmodel (ex_rs cpow))) = [0; 1]
  /\ map df_slice (dm_derived (run_regs new_dmodel (ex_rs cpow))) = [2; 3; 4].
Proof.
  intros cpow.
  assert (Es : map df_slice (dm_derived (run_regs new_dmodel (ex_rs cpow))) = [2; 3; 4]) by reflexivity.
  split; [reflexivity|]. split; [repeat split; reflexivity|].
  split; [repeat constructor|]. split; [rewrite Es; repeat constructor; cbn; intuition discriminate|].
  split; [|split; [reflexivity|exact Es]].
  repeat constructor; cbn; try discriminate; lia.
Qed.
