(** Property C92: which part of a declared equation is treated implicitly, and
    which values of the fields an Euler step uses. *)
From Verif Require Import ListAux FileModel ParseProofs StepProofs ConserveProofs EquationProps RegistryProps.
From Verif Require Import SplitSpec SimProofs SimProofs2 SimProofs3 SimProofs4 SimProofs5 SimProofs6 SimProps SplitProofs2 SplitProofs3 SplitProofs4.
From Coq Require Import Permutation Lia Lra.
Open Scope nat_scope.

(** ** C92 *)

(** In any state of the slices whose derived fields are those of the last
    synchronisation, the right-hand side handed to the steppers is the explicit
    part of the equation as written, with the sources, and the coefficient
    handed to them is that of the terms linear in the field of the left-hand
    side. *)
Theorem C92_parts : forall L cs es m, declared L cs es -> run_calls new_mstate (cs ++ [CInit]) = Ok m ->
  forall n ft lib, good_library L n lib ->
  let p := simulation n ft lib m in
  forall E e t i q, fits L n m e -> e_derived E = e_derived (spectrum p ft e) -> length (e_fields E) = length (l_fields L) ->
  nth_error es i = Some q ->
  exists r a, get_rhs p E i t n = Some r /\ get_denum p E i t n = Some a /\ length r = n /\ length a = n
  /\ forall k X A, k < n -> split_written L cs n ft lib (e_fields e) (e_fields E) E t q k X A ->
     nth k r C0 = Cadd X (source_sum cs lib t i k) /\ nth k a C0 = A.
Proof. intros L cs es m HD Em n ft lib GL p E e t i q. exact (split_state L cs es m HD Em n ft lib GL E e t i q). Qed.
Print Assumptions C92_parts.

Theorem C92_parts_exist : forall L cs es m, declared L cs es -> run_calls new_mstate (cs ++ [CInit]) = Ok m ->
  forall n ft lib E t q k fields seen, exists X A, split_written L cs n ft lib fields seen E t q k X A.
Proof. intros L cs es m HD Em n ft lib E t q k fields seen. exact (split_exists L cs es m HD Em n ft lib E t q k fields seen). Qed.
Print Assumptions C92_parts_exist.

(** The two parts make up the right-hand side as written (C87). *)
Theorem C92_sum_of_parts : forall L cs es m, declared L cs es -> run_calls new_mstate (cs ++ [CInit]) = Ok m ->
  forall n ft lib, good_library L n lib -> map q_field es = l_fields L ->
  let p := simulation n ft lib m in
  forall e t i q k X A M, fits L n m e -> nth_error es i = Some q -> k < n ->
  split_written L cs n ft lib (e_fields e) (map (fft ft) (e_fields e)) (spectrum p ft e) t q k X A ->
  written L cs n ft lib (e_fields e) (spectrum p ft e) t q k M ->
  Cadd X (Cmul A (nth k (nth i (map (fft ft) (e_fields e)) []) C0)) = M.
Proof.
  intros L cs es m HD Em n ft lib GL HO p e t i q k X A M. exact (split_sum L cs es m HD Em n ft lib GL HO e t i q k X A M).
Qed.
Print Assumptions C92_sum_of_parts.

(** An Euler step of all fields: Y' = (Y + dt (X + S)) / (1 - dt A). In the
    equation of field number [i] powers and products are formed from the values
    before the step; a field that stands alone has its amplitudes after the step
    when its number is below [i] and before the step otherwise. *)
Theorem C92_euler_step : forall L cs es m, declared L cs es -> run_calls new_mstate (cs ++ [CInit]) = Ok m ->
  forall n ft lib, good_library L n lib -> good_transform n ft -> map q_field es = l_fields L ->
  let p := simulation n ft lib m in
  forall dt t e, fits L n m e ->
  exists e', euler_step p ft None dt t e = Some e' /\ length (e_fields e') = length (e_fields e) /\ all_length n (e_fields e')
  /\ forall i q, nth_error es i = Some q ->
     let seen := firstn i (map (fft ft) (e_fields e')) ++ skipn i (map (fft ft) (e_fields e)) in
     forall k X A, k < n ->
     split_written L cs n ft lib (e_fields e) seen {| e_fields := seen; e_derived := e_derived (spectrum p ft e) |} t q k X A ->
     nth k (fft ft (nth i (e_fields e') [])) C0
     = Cdiv (Cadd (nth k (fft ft (nth i (e_fields e) [])) C0) (Cmul (RtoC dt) (Cadd X (source_sum cs lib t i k)))) (Csub C1 (Cmul (RtoC dt) A)).
Proof. intros L cs es m HD Em n ft lib GL GT HO p dt t e. exact (split_euler L cs es m HD Em n ft lib GL GT HO dt t e). Qed.
Print Assumptions C92_euler_step.

(** *** Example: two coupled fields *)
Definition couple_calls : list call :=
  [CField (lit "conc"); CField (lit "eta"); CEquation (lit "dconc/dt = eta - conc"); CEquation (lit "deta/dt = conc*eta - eta + conc")].
Definition couple_q0 : eqtext :=
  {| q_field := lit "conc"; q_lead := None; q_first := IProduct [plainw "eta" None]; q_more := [(minus_c, IProduct [plainw "conc" None])] |}.
Definition couple_q1 : eqtext :=
  {| q_field := lit "eta"; q_lead := None; q_first := IProduct [plainw "conc" None; plainw "eta" None];
      q_more := [(minus_c, IProduct [plainw "eta" None]); (plus_c, IProduct [plainw "conc" None])] |}.
Definition couple_eqs : list eqtext := [couple_q0; couple_q1].

Lemma couple_declared : declared Lo couple_calls couple_eqs.
Proof.
  constructor.
  - good_language.
  - split; [reflexivity|]. intros n. cbn. tauto.
  - exists (firstn 2 couple_calls), (skipn 2 couple_calls). split; [reflexivity|]. split; [|split].
    + intros c H. cbn in H. repeat (destruct H as [<-|H]; [exact (fun x => x)|]). destruct H.
    + intros c H. cbn in H. repeat (destruct H as [<-|H]; [exact (fun x => x)|]). destruct H.
    + discriminate.
  - intros b a eq s E. unfold couple_calls in E.
    do 4 (destruct b as [|? b]; [discriminate E|injection E as <- E]). destruct b; discriminate E.
  - cbn. intuition discriminate.
  - intros k name t ds H. cbn in H. intuition discriminate.
  - constructor; [reflexivity|]. constructor; [reflexivity|constructor].
  - constructor; [|constructor; [|constructor]]; (split; [cbn; auto|]); (split; [discriminate|]).
    + split; [split; [exists [], [plainw "eta" None], []; good_prod|vm_compute; intuition discriminate]|].
      constructor; [|constructor]. split; [right; reflexivity|]. split; [exists [], [plainw "conc" None], []; good_prod|vm_compute; intuition discriminate].
    + split; [split; [exists [], [plainw "conc" None; plainw "eta" None], []; good_prod|vm_compute; intuition discriminate]|].
      constructor; [|constructor; [|constructor]].
      * split; [right; reflexivity|]. split; [exists [], [plainw "eta" None], []; good_prod|vm_compute; intuition discriminate].
      * split; [left; reflexivity|]. split; [exists [], [plainw "conc" None], []; good_prod|vm_compute; intuition discriminate].
Qed.
Definition couple_state : mstate := match run_calls new_mstate (couple_calls ++ [CInit]) with Ok m => m | _ => new_mstate end.
Lemma couple_run : run_calls new_mstate (couple_calls ++ [CInit]) = Ok couple_state.
Proof. vm_compute. reflexivity. Qed.
Definition couple_env : env := {| e_fields := [[C1; C0]; [C1; C1]]; e_derived := [[C0; C0]] |}.
Lemma couple_fits : fits Lo 2 couple_state couple_env.
Proof. split; [reflexivity|]. split; [repeat constructor|vm_compute; reflexivity]. Qed.


Ltac couple_parts :=
  unfold sum_signed, signed_items, couple_q0, couple_q1; cbn [map fst snd q_first q_lead q_more q_field]; unfold explicit_item, implicit_item;
  change (linear_in Lo (lit "conc") [plainw "eta" None]) with false; change (linear_in Lo (lit "conc") [plainw "conc" None]) with true;
  change (linear_in Lo (lit "eta") [plainw "eta" None]) with true; change (linear_in Lo (lit "eta") [plainw "conc" None]) with false;
  change (linear_in Lo (lit "eta") [plainw "conc" None; plainw "eta" None]) with false;
  cbv iota; unfold shown_amplitude, coefficient;
  change (field_factors Lo [plainw "eta" None]) with [fac "eta" None]; change (field_factors Lo [plainw "conc" None]) with [fac "conc" None];
  change (field_factors Lo [plainw "conc" None; plainw "eta" None]) with [fac "conc" None; fac "eta" None];
  change (scalar_factors Lo [plainw "eta" None]) with (@nil factor); change (scalar_factors Lo [plainw "conc" None]) with (@nil factor);
  change (scalar_factors Lo [plainw "conc" None; plainw "eta" None]) with (@nil factor);
  cbn [fac fa_exp option_map fa_name Csum product_value total_power plainw wf_op oper_power Nat.add pow sign_value];
  change (Ascii.eqb minus_c minus_c) with true; change (Ascii.eqb plus_c minus_c) with false; cbv iota;
  change (RtoC 1) with C1.
Lemma minus_one : RtoC (-1) = Copp C1. Proof. csolve. Qed.

Lemma RtoC_ratio x y : y <> 0%R -> Cdiv (RtoC x) (RtoC y) = RtoC (x / y).
Proof. intros H. unfold Rdiv. rewrite RtoC_mul, RtoC_inv by exact H. reflexivity. Qed.

Lemma couple_conc d0 d1 E t X A :
  split_written Lo couple_calls 2 ft2 (no_library 2 keep) (e_fields couple_env) [d0; d1] E t couple_q0 0 X A ->
  X = nth 0 d1 C0 /\ A = RtoC (-1).
Proof.
  intros (val & lone & im & ex & li & nl & _ & Hlone & _ & _ & _ & _ & -> & ->).
  assert (E1 := Hlone 1 (lit "eta") _ eq_refl eq_refl). couple_parts. rewrite E1, minus_one. split; ring.
Qed.
Lemma couple_eta d0 d1 E t X A :
  split_written Lo couple_calls 2 ft2 (no_library 2 keep) (e_fields couple_env) [d0; d1] E t couple_q1 0 X A ->
  X = Cadd C1 (nth 0 d0 C0) /\ A = RtoC (-1).
Proof.
  intros (val & lone & im & ex & li & nl & (HV & _) & Hlone & _ & _ & _ & _ & -> & ->).
  assert (E1 := Hlone 0 (lit "conc") _ eq_refl eq_refl).
  assert (V0 := HV 0 (lit "conc") _ eq_refl eq_refl). assert (V1 := HV 1 (lit "eta") _ eq_refl eq_refl).
  couple_parts. rewrite E1, minus_one. unfold amplitude, amplitude_at. cbn [map seq product_value fac fa_name factor_power fa_exp option_map].
  rewrite !V0, !V1. cbn [nth lb_pow no_library keep ft2 fft]. unfold keep. split; ring.
Qed.

(** conc = (1, 0), eta = (1, 1), dt = 1: the means after the step follow from
    (1 + 2) / (1 + 1) for conc and from (2 + 1 + 3/2) / (1 + 1) for eta: the
    product conc eta is the old one, conc alone the new one. *)
Example C92_nonvacuous : exists e',
  euler_step (simulation 2 ft2 (no_library 2 keep) couple_state) ft2 None 1 0 couple_env = Some e'
  /\ nth 0 (fft ft2 (nth 0 (e_fields e') [])) C0 = RtoC (3 / 2)
  /\ nth 0 (fft ft2 (nth 1 (e_fields e') [])) C0 = RtoC (9 / 4).
Proof.
  destruct (C92_euler_step Lo couple_calls couple_eqs couple_state couple_declared couple_run 2 ft2 (no_library 2 keep) (no_library_good Lo 2 keep eq_refl)
    ft2_good eq_refl 1 0 couple_env couple_fits) as (e' & Es & Hl & _ & HS).
  exists e'. split; [exact Es|].
  assert (HX := C92_parts_exist Lo couple_calls couple_eqs couple_state couple_declared couple_run 2 ft2 (no_library 2 keep)).
  assert (H2 : Cdiv (Cadd C1 (Cadd C1 C1)) (Csub C1 (Cmul (RtoC 1) (RtoC (-1)))) = RtoC (3 / 2)).
  { rewrite minus_one. change (RtoC 1) with C1. transitivity (Cdiv (RtoC 3) (RtoC 2)); [f_equal; csolve|]. rewrite RtoC_ratio by lra. reflexivity. }
  destruct (e_fields e') as [|d0 [|d1 [|d2 r]]] eqn:Ee; try discriminate Hl.
  assert (H0 : nth 0 (fft ft2 d0) C0 = RtoC (3 / 2)).
  { specialize (HS 0 _ eq_refl). cbv zeta in HS. cbn [map firstn skipn app couple_env e_fields] in HS.
    match type of HS with forall k X A, _ -> split_written _ _ _ _ _ ?F ?S ?E ?T ?Q _ _ _ -> _ => destruct (HX E T Q 0 F S) as (X & A & HXA) end.
    specialize (HS 0 X A ltac:(lia) HXA). destruct (couple_conc _ _ _ _ _ _ HXA) as [-> ->].
    cbn [nth ft2 fft e_fields couple_env] in HS. rewrite <- H2. cbn [nth ft2 fft]. rewrite HS. f_equal. change (source_sum _ _ _ _ _) with C0. change (RtoC 1) with C1. ring. }
  split; [exact H0|].
  specialize (HS 1 _ eq_refl). cbv zeta in HS. cbn [map firstn skipn app couple_env e_fields] in HS.
  match type of HS with forall k X A, _ -> split_written _ _ _ _ _ ?F ?S ?E ?T ?Q _ _ _ -> _ => destruct (HX E T Q 0 F S) as (X & A & HXA) end.
  specialize (HS 0 X A ltac:(lia) HXA). destruct (couple_eta _ _ _ _ _ _ HXA) as [-> ->].
  cbn [nth]. cbn [nth] in HS. rewrite HS, H0. change (source_sum _ _ _ _ _) with C0.
  transitivity (Cdiv (RtoC (9 / 2)) (RtoC 2)); [f_equal; [cbn [ft2 fft nth]; csolve|csolve]|]. rewrite RtoC_ratio by lra. f_equal. lra.
Qed.
