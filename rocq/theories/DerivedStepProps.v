(** C22: what the terms read during a step, in terms of the registered functions. *)
From Verif Require Import ListAux StepModel StepSpec StepProofs ConserveProofs StepProps.
From Coq Require Import Reals List Lia. Import ListNotations.
From Verif Require Import Complex.

(** [D] are the derived fields of a state: field k is function k, evaluated with the
    fields of the state, the derived fields before k and the old ones from k on. *)
Definition derived_of (p : pde) (e : env) (D : list data) : Prop :=
  length D = length (p_calc p) /\
  forall k c, nth_error (p_calc p) k = Some c ->
    nth_error D k = Some (c {| e_fields := e_fields e; e_derived := firstn k D ++ skipn k (e_derived e) |}).

Lemma set_nth_at {A} (a : list A) y b d : set_nth (length a) d (a ++ y :: b) = a ++ d :: b.
Proof. induction a as [|x a IH]; cbn; [reflexivity|rewrite IH; reflexivity]. Qed.
Lemma sync_from_derived fs calcs : forall a b, length b = length calcs ->
  exists D, sync_from (length a) calcs {| e_fields := fs; e_derived := a ++ b |} = {| e_fields := fs; e_derived := a ++ D |} /\ length D = length calcs /\
  forall k c, nth_error calcs k = Some c -> nth_error D k = Some (c {| e_fields := fs; e_derived := a ++ firstn k D ++ skipn k b |}).
Proof.
  induction calcs as [|c0 calcs IH]; intros a b Hb; destruct b as [|y b]; try discriminate.
  - exists []. split; [reflexivity|]. split; [reflexivity|]. intros [|k] c H; discriminate.
  - cbn [sync_from]. unfold set_derived. cbn [e_fields e_derived]. rewrite set_nth_at. set (d := c0 _).
    destruct (IH (a ++ [d]) b ltac:(cbn [length] in Hb; lia)) as (D & E & L & N).
    rewrite app_length in E. cbn [length] in E. rewrite Nat.add_1_r in E. rewrite <- !app_assoc in E. cbn [app] in E.
    exists (d :: D). split; [exact E|]. split; [cbn [length]; lia|]. intros [|k] c H; cbn [nth_error] in *.
    + injection H as <-. reflexivity.
    + rewrite (N k c H), <- app_assoc. reflexivity.
Qed.
Lemma sync_derived p e : length (e_derived e) = length (p_calc p) -> exists D, derived_of p e D /\ e_fields (sync p e) = e_fields e /\ e_derived (sync p e) = D.
Proof.
  intros H. destruct e as [fs ds]. cbn [e_derived] in H. destruct (sync_from_derived fs (p_calc p) [] ds H) as (D & E & L & N). exists D.
  unfold sync. cbn [length app] in E. rewrite E. split; [split; [exact L|exact N]|split; reflexivity].
Qed.

(** A step of Euler: field [i] reads the transforms of the derived fields at the start
    of the step, and not those of a step before. *)
Theorem C22_euler_reads_derived : forall (p : pde) (ft : transform) (filt : option (R -> R)) (dt t : R) (e : env),
  (length (e_fields e) <= length (p_eqns p))%nat -> length (e_derived e) = length (p_calc p) ->
  exists D e' Y', derived_of p e D /\ euler_step p ft filt dt t e = Some e' /\ e_fields e' = map (to_real ft) Y' /\
    length Y' = length (e_fields e) /\
    forall i y, nth_error (e_fields e) i = Some y ->
      let mix := {| e_fields := firstn i Y' ++ skipn i (map (fft ft) (e_fields e)); e_derived := map (fft ft) D |} in
      exists r a, get_rhs p mix i t (length (fft ft y)) = Some r /\ get_denum p mix i t (length (fft ft y)) = Some a /\
        nth_error Y' i = Some (apply_filter filt ft (map3 (semi_implicit dt) (fft ft y) r a)).
Proof.
  intros p ft filt dt t e HL HD. destruct (sync_derived p e HD) as (D & HDo & _ & ED). destruct (C22_euler_sequential_scheme p ft filt dt t e HL) as (e' & Y' & E1 & E2 & E3 & E4).
  exists D, e', Y'. split; [exact HDo|]. split; [exact E1|]. split; [exact E2|]. split; [exact E3|]. intros i y Hy.
  specialize (E4 i (fft ft y)). unfold spectrum in E4. cbn [e_fields e_derived] in E4. rewrite ED in E4. apply E4. rewrite nth_error_map, Hy. reflexivity.
Qed.
Print Assumptions C22_euler_reads_derived.
(** There is only one such list. *)
Theorem C22_derived_unique : forall p e D D', derived_of p e D -> derived_of p e D' -> D = D'.
Proof.
  intros p e D D' (L & N) (L' & N').
  assert (P : forall k, (k <= length (p_calc p))%nat -> firstn k D = firstn k D').
  { induction k as [|k IH]; intros Hk; [reflexivity|]. assert (IHk := IH ltac:(lia)). destruct (nth_error (p_calc p) k) as [c|] eqn:E; [|apply nth_error_None in E; lia].
    assert (A := N k c E). assert (B := N' k c E). rewrite IHk in A. rewrite <- B in A.
    assert (F : forall (l : list data) x, nth_error l k = Some x -> firstn (S k) l = firstn k l ++ [x]) by (clear; induction k as [|k IH]; intros [|y l] x H; try discriminate; cbn [nth_error] in H; [injection H as ->; reflexivity|change (y :: firstn (S k) l = y :: firstn k l ++ [x]); rewrite (IH l x H); reflexivity]).
    rewrite (F D' _ B). rewrite B in A. rewrite (F D _ A), IHk. reflexivity. }
  specialize (P (length (p_calc p)) (le_n _)). rewrite <- L in P at 1. rewrite <- L' in P. rewrite !firstn_all in P. exact P.
Qed.
Print Assumptions C22_derived_unique.

(** The stages of RK4 read the derived fields of the fields of the stage. *)
Theorem C23_stages_read_derived : forall p ft d0 Y, length d0 = length (p_calc p) ->
  exists D, derived_of p {| e_fields := map (to_real ft) Y; e_derived := d0 |} D /\ e_fields (at_amplitudes p ft d0 Y) = Y /\ e_derived (at_amplitudes p ft d0 Y) = map (fft ft) D.
Proof.
  intros p ft d0 Y H. destruct (sync_derived p {| e_fields := map (to_real ft) Y; e_derived := d0 |} H) as (D & HD & _ & ED). exists D. split; [exact HD|]. split; [reflexivity|]. unfold at_amplitudes. cbn [e_derived]. rewrite ED. reflexivity.
Qed.
Print Assumptions C23_stages_read_derived.

(** Two derived fields, the second of which reads the first. *)
Example C22_reads_derived_nonvacuous : let double := fun e : env => map (fun z => Cadd z z) (nth 0 (e_fields e) []) in
  let again := fun e : env => map (fun z => Cadd z z) (nth 0 (e_derived e) []) in
  let p := {| p_calc := [double; again]; p_eqns := []; p_mods := [] |} in
  let e := {| e_fields := [[C1]]; e_derived := [[C0]; [C0]] |} in
  derived_of p e [[Cadd C1 C1]; [Cadd (Cadd C1 C1) (Cadd C1 C1)]] /\ length (e_derived e) = length (p_calc p).
Proof. cbv zeta. split; [|reflexivity]. split; [reflexivity|]. intros [|[|[|k]]] c H; try discriminate; cbn in H; injection H as <-; reflexivity. Qed.
