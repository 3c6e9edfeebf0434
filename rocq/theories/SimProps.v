(** Properties C87 - C88: what the steppers do to a model that was declared by
    calls and equation texts. *)
From Verif Require Import ListAux FileModel ParseProofs StepProofs ConserveProofs EquationProps RegistryProps.
From Verif Require Import SimSpec SimProofs SimProofs2 SimProofs3 SimProofs4 SimProofs5 SimProofs6.
From Coq Require Import Permutation Lia Lra.
Open Scope nat_scope.

(** ** C87 *)

(** The calls succeed, and at every node of the Fourier domain the right-hand
    side the steppers evaluate for equation number [i], with the coefficient
    of the implicit part times the field, is the sum of the terms as they are
    written, with the sources of the equation. *)
Theorem C87_right_hand_sides : forall L cs es, declared L cs es -> exists m, run_calls new_mstate (cs ++ [CInit]) = Ok m
  /\ length (ms_rhs m) = length es
  /\ forall n ft lib e t i q, good_library L n lib -> fits L n m e ->
     nth_error es i = Some q -> nth_error (l_fields L) i = Some (q_field q) ->
     let p := simulation n ft lib m in let E := spectrum p ft e in
     exists r a y, get_rhs p E i t n = Some r /\ get_denum p E i t n = Some a /\ nth_error (e_fields E) i = Some y
     /\ length r = n /\ length a = n
     /\ forall k, k < n -> forall M, written L cs n ft lib (e_fields e) E t q k M ->
        Cadd (nth k r C0) (Cmul (nth k a C0) (nth k y C0)) = Cadd M (source_sum cs lib t i k).
Proof. exact declared_rhs. Qed.
Print Assumptions C87_right_hand_sides.

(** What is written has a value at every node. *)
Theorem C87_written_exists : forall L cs es m, declared L cs es -> run_calls new_mstate (cs ++ [CInit]) = Ok m ->
  forall n ft lib E t q k fields, exists M, written L cs n ft lib fields E t q k M.
Proof. intros L cs es m HD Em n ft lib E t q k fields. exact (written_exists L cs es m HD Em n ft lib E t q k fields). Qed.
Print Assumptions C87_written_exists.

(** An Euler step of the first field: (1 - dt a) (Y' - Y) = dt (M + S), with
    the right-hand side [M] as written and the sources [S]. *)
Theorem C87_euler_step_partial : forall L cs es m, declared L cs es -> run_calls new_mstate (cs ++ [CInit]) = Ok m ->
  forall n ft lib, good_library L n lib -> good_transform n ft -> map q_field es = l_fields L ->
  let p := simulation n ft lib m in
  forall dt t e q, fits L n m e -> nth_error es 0 = Some q ->
  exists e' d d' a, euler_step p ft None dt t e = Some e' /\ nth_error (e_fields e) 0 = Some d /\ nth_error (e_fields e') 0 = Some d'
    /\ length d' = n /\ get_denum p (spectrum p ft e) 0 t n = Some a
    /\ forall k, k < n -> Csub C1 (Cmul (RtoC dt) (nth k a C0)) <> C0 ->
       forall M, written L cs n ft lib (e_fields e) (spectrum p ft e) t q k M ->
       Cmul (Csub C1 (Cmul (RtoC dt) (nth k a C0))) (Csub (nth k (fft ft d') C0) (nth k (fft ft d) C0))
       = Cmul (RtoC dt) (Cadd M (source_sum cs lib t 0 k)).
Proof. intros L cs es m HD Em n ft lib GL GT HO p. exact (euler_first L cs es m HD Em n ft lib GL GT HO). Qed.
Print Assumptions C87_euler_step_partial.

(** A Runge-Kutta step of all fields: the four slopes are the right-hand sides
    as written, at the four stages. *)
Theorem C87_rk4_step : forall L cs es m, declared L cs es -> run_calls new_mstate (cs ++ [CInit]) = Ok m ->
  forall n ft lib, good_library L n lib -> good_transform n ft -> map q_field es = l_fields L -> field_independent cs lib ->
  let p := simulation n ft lib m in
  forall dt t e, fits L n m e ->
  exists S1 S2 S3 S4 K1 K2 K3 K4 e', rk4_step p ft None dt t e = Some e' /\ length (e_fields e') = length (e_fields e)
    /\ S1 = map (fft ft) (e_fields e) /\ Forall (fun S => length S = length (e_fields e) /\ all_length n S) [S1; S2; S3; S4]
    /\ forall i q, nth_error es i = Some q -> exists a d', get_denum p e i t n = Some a /\ nth_error (e_fields e') i = Some d' /\ length d' = n
    /\ forall k, k < n ->
       let at_ := fun S : list data => nth k (nth i S []) C0 in let ak := nth k a C0 in
       as_written L cs n ft lib p (e_derived e) t q i k S1 (at_ K1) ak
       /\ at_ S2 = semi_implicit (dt / 2) (at_ S1) (at_ K1) ak /\ as_written L cs n ft lib p (e_derived e) t q i k S2 (at_ K2) ak
       /\ at_ S3 = semi_implicit (dt / 2) (at_ S1) (at_ K2) ak /\ as_written L cs n ft lib p (e_derived e) t q i k S3 (at_ K3) ak
       /\ at_ S4 = semi_implicit dt (at_ S1) (at_ K3) ak /\ as_written L cs n ft lib p (e_derived e) t q i k S4 (at_ K4) ak
       /\ nth k (fft ft d') C0 = Cdiv (combine4 dt (at_ S1) (at_ K1) (at_ K2) (at_ K3) (at_ K4)) (Csub C1 (Cmul (RtoC dt) ak)).
Proof.
  intros L cs es m HD Em n ft lib GL GT HO HI p dt t e Hf. exact (rk4_written L cs es m HD Em n ft lib GL GT HO dt t e Hf HI).
Qed.
Print Assumptions C87_rk4_step.

(** *** Equations in another order than the fields *)
Definition no_library (n : nat) (pw : C -> R -> C) : library :=
  {| lb_pow := pw; lb_scalar := fun _ => C1; lb_calc := fun _ => None;
     lb_pure := fun _ _ _ => []; lb_linear := fun _ _ _ => []; lb_nonlinear := fun _ _ _ => []; lb_source := fun _ _ => repeat C0 n |}.
Definition Lo : lang :=
  {| l_fields := [lit "conc"; lit "eta"]; l_functions := []; l_scalars := []; l_implicit := []; l_explicit := []; l_mixed := [] |}.
Definition order_calls : list call :=
  [CField (lit "conc"); CField (lit "eta"); CEquation (lit "deta/dt = eta"); CEquation (lit "dconc/dt = eta")].
Definition order_eqs : list eqtext :=
  [{| q_field := lit "eta"; q_lead := None; q_first := IProduct [plainw "eta" None]; q_more := [] |};
   {| q_field := lit "conc"; q_lead := None; q_first := IProduct [plainw "eta" None]; q_more := [] |}].

Ltac good_language :=
  constructor;
  [ intros n H; cbn in H; repeat (destruct H as [<-|H]; [split; reflexivity|]); destruct H
  | intros n H; cbn in H; repeat (destruct H as [<-|H]; [split; [cbn; lia|intros [E|[E|E]]; discriminate]|]); destruct H
  | repeat constructor; cbn; intuition discriminate
  | intros a n Ha Hn Hne; cbn in Ha, Hn;
    repeat (destruct Ha as [<-|Ha]; [repeat (destruct Hn as [<-|Hn]; [first [congruence|no_occ]|]); destruct Hn|]); destruct Ha
  | intros a Ha Hs; cbn in Ha, Hs; repeat (destruct Ha as [<-|Ha]; [repeat (destruct Hs as [E|Hs]; [discriminate|]); exact Hs|]); destruct Ha
  | intros n H; cbn in H; repeat (destruct H as [<-|H]; [no_occ|]); destruct H
  | intros a n Ha Hn; cbn in Ha, Hn;
    repeat (destruct Ha as [<-|Ha]; [repeat (destruct Hn as [<-|Hn]; [no_occ|]); destruct Hn|]); destruct Ha
  | intros u Hu; destruct Hu ].

Lemma order_declared : declared Lo order_calls order_eqs.
Proof.
  constructor.
  - good_language.
  - split; [reflexivity|]. intros n. cbn. tauto.
  - exists (firstn 2 order_calls), (skipn 2 order_calls). split; [reflexivity|]. split; [|split].
    + intros c H. cbn in H. repeat (destruct H as [<-|H]; [exact (fun x => x)|]). destruct H.
    + intros c H. cbn in H. repeat (destruct H as [<-|H]; [exact (fun x => x)|]). destruct H.
    + discriminate.
  - intros b a eq s E. unfold order_calls in E.
    do 4 (destruct b as [|? b]; [discriminate E|injection E as <- E]). destruct b; discriminate E.
  - cbn. intuition discriminate.
  - intros k name t ds H. cbn in H. intuition discriminate.
  - constructor; [reflexivity|]. constructor; [reflexivity|constructor].
  - constructor; [|constructor; [|constructor]]; (split; [cbn; auto|]); (split; [discriminate|]); (split; [|constructor]);
      (split; [exists [], [plainw "eta" None], []; good_prod|vm_compute; intuition discriminate]).
Qed.

Lemma no_library_good L n pw : l_functions L = [] -> good_library L n (no_library n pw).
Proof.
  intros HL. constructor; cbn [no_library lb_calc lb_source].
  - intros name. rewrite HL. split; [intros []|]. intros (c & H). discriminate.
  - discriminate.
  - intros _ _. apply repeat_length.
Qed.

Definition order_state : mstate := match run_calls new_mstate (order_calls ++ [CInit]) with Ok m => m | _ => new_mstate end.
Definition order_env : env := {| e_fields := [[C1; C1]; [C0; C0]]; e_derived := [] |}.
Definition keep (z : C) (_ : R) : C := z.

Lemma order_written t i q k M : nth_error order_eqs i = Some q -> k < 2 ->
  written Lo order_calls 2 ft2 (no_library 2 keep) (e_fields order_env) (spectrum (simulation 2 ft2 (no_library 2 keep) order_state) ft2 order_env) t q k M ->
  Cadd M (source_sum order_calls (no_library 2 keep) t i k) = C0.
Proof.
  intros Hi Hk (val & im & ex & li & nl & [HV _] & _ & _ & _ & ->).
  assert (V : forall j, val (lit "eta") j = C0).
  { intros j. rewrite (HV 1 (lit "eta") [C0; C0] eq_refl eq_refl j). destruct j as [|[|[|j]]]; reflexivity. }
  assert (S : source_sum order_calls (no_library 2 keep) t i k = C0).
  { destruct i as [|[|[|i]]]; reflexivity. }
  assert (A : amplitude_at 2 ft2 k (val (lit "eta")) = C0).
  { unfold amplitude_at. cbn [seq map]. rewrite !V. destruct k as [|[|k]]; cbn [ft2 fft nth]; [csolve|csolve|lia]. }
  rewrite S. destruct i as [|[|i]]; cbn [nth_error order_eqs] in Hi; [| |destruct i; discriminate]; injection Hi as <-;
    cbn [rhs_meaning signed_items q_first q_lead q_more map Csum snd fst item_meaning];
    unfold product_meaning; change (scalar_factors Lo [plainw "eta" None]) with (@nil factor);
    change (field_factors Lo [plainw "eta" None]) with [fac "eta" None]; cbn [amplitude fac fa_exp option_map fa_name];
    rewrite A; ring.
Qed.

Lemma order_run : run_calls new_mstate (order_calls ++ [CInit]) = Ok order_state.
Proof. vm_compute. reflexivity. Qed.

(** Equation number [i] drives field number [i], whatever the name on its
    left-hand side: with conc and eta declared in this order and their
    equations deta/dt = eta and dconc/dt = eta added in the other order, all
    right-hand sides as written are zero when eta is zero, and still conc
    changes. *)
Theorem C87_wrong_order_refuted : exists L cs es m n ft lib dt t e,
  declared L cs es /\ run_calls new_mstate (cs ++ [CInit]) = Ok m /\ good_library L n lib /\ good_transform n ft /\ fits L n m e
  /\ Permutation (map q_field es) (l_fields L) /\ dt <> 0%R /\ solvable n (simulation n ft lib m) ft dt t e
  /\ (forall i q k M, nth_error es i = Some q -> k < n ->
       written L cs n ft lib (e_fields e) (spectrum (simulation n ft lib m) ft e) t q k M -> Cadd M (source_sum cs lib t i k) = C0)
  /\ ~ (exists e', euler_step (simulation n ft lib m) ft None dt t e = Some e' /\ e_fields e' = e_fields e).
Proof.
  exists Lo, order_calls, order_eqs, order_state, 2, ft2, (no_library 2 keep), (1 / 2)%R, 0%R, order_env.
  assert (GL := no_library_good Lo 2 keep eq_refl).
  assert (Hsim : p_eqns (simulation 2 ft2 (no_library 2 keep) order_state) =
    [{| q_terms := []; q_denum := [entry_term 2 ft2 (no_library 2 keep) (ms_names order_state) (BTerm {| pt_neg := false; pt_bricks := []; pt_field := []; pt_lap := None |}, None)]; q_sources := [] |};
     {| q_terms := [entry_term 2 ft2 (no_library 2 keep) (ms_names order_state) (BTerm {| pt_neg := false; pt_bricks := []; pt_field := lit "eta"; pt_lap := None |}, None)]; q_denum := []; q_sources := [] |}]).
  { unfold simulation. cbn [p_eqns]. replace (ms_rhs order_state) with
      [([] : list entry, [(BTerm {| pt_neg := false; pt_bricks := []; pt_field := []; pt_lap := None |}, None) : entry]);
       ([(BTerm {| pt_neg := false; pt_bricks := []; pt_field := lit "eta"; pt_lap := None |}, None) : entry], [])] by (vm_compute; reflexivity).
    replace (ms_sources order_state) with [[] : list nat; []] by (vm_compute; reflexivity). reflexivity. }
  assert (Hden : forall E t, get_denum (simulation 2 ft2 (no_library 2 keep) order_state) E 0 t 2 = Some [C1; C1]
     /\ get_denum (simulation 2 ft2 (no_library 2 keep) order_state) E 1 t 2 = Some [C0; C0]).
  { intros E t. unfold get_denum. rewrite Hsim. cbn [nth_error q_denum fold_left add_term fst snd repeat]. split; [|reflexivity].
    f_equal. unfold add_term. cbn [fst snd entry_term seq map eval_entry eval_built eval_pterm pt_bricks pt_field pt_lap pt_neg eval_bricks vadd].
    f_equal; [|f_equal]; csolve. }
  assert (Hsol : solvable 2 (simulation 2 ft2 (no_library 2 keep) order_state) ft2 (1 / 2) 0 order_env).
  { intros i a k Ha Hk H. destruct i as [|[|i]].
    - rewrite (proj1 (Hden _ _)) in Ha. injection Ha as <-. apply (f_equal Re) in H. destruct k as [|[|k]]; [| |lia]; cbn in H; lra.
    - rewrite (proj2 (Hden _ _)) in Ha. injection Ha as <-. apply (f_equal Re) in H. destruct k as [|[|k]]; [| |lia]; cbn in H; lra.
    - unfold get_denum in Ha. rewrite Hsim in Ha. destruct i; discriminate. }
  split; [exact order_declared|]. split; [exact order_run|]. split; [exact GL|]. split; [exact ft2_good|].
  split; [split; [reflexivity|]; split; [repeat constructor|reflexivity]|]. split; [apply perm_swap|]. split; [lra|]. split; [exact Hsol|].
  split; [intros; eapply order_written; eassumption|]. intros H.
  apply (euler_steady 2 (simulation 2 ft2 (no_library 2 keep) order_state) ft2 (1 / 2) 0 ft2_good (sim_keeps_length Lo order_state 2 ft2 (no_library 2 keep) GL)) in H;
    [|lra|repeat constructor|rewrite Hsim; cbn; lia|exact Hsol].
  assert (HB := H 0 [Cadd C1 C1; Csub C1 C1] [C0; C0] [C1; C1] eq_refl). rewrite (proj1 (Hden _ _)) in HB.
  assert (Hr : get_rhs (simulation 2 ft2 (no_library 2 keep) order_state) (spectrum (simulation 2 ft2 (no_library 2 keep) order_state) ft2 order_env) 0 0 2 = Some [C0; C0]).
  { unfold get_rhs. rewrite Hsim. reflexivity. }
  specialize (HB Hr eq_refl 0 ltac:(lia)). apply (f_equal Re) in HB. cbn in HB. lra.
Qed.
Print Assumptions C87_wrong_order_refuted.

(** *** A constant rate *)
Definition pulse_calls : list call := [CField (lit "conc"); CScalar (lit "m1"); CEquation (lit "dconc/dt = m1")].
Definition pulse_state : mstate := match run_calls new_mstate (pulse_calls ++ [CInit]) with Ok m => m | _ => new_mstate end.

(** dconc/dt = m1 with m1 = 1: an Euler step of a field that is zero adds dt at
    the first node of two and nothing at the second. *)
Theorem C87_constant_pulse_refuted : forall dt t, exists m e', run_calls new_mstate (pulse_calls ++ [CInit]) = Ok m
  /\ euler_step (simulation 2 ft2 (no_library 2 keep) m) ft2 None dt t {| e_fields := [[C0; C0]]; e_derived := [] |} = Some e'
  /\ e_fields e' = [[RtoC dt; C0]].
Proof.
  intros dt t. exists pulse_state.
  assert (Hsim : simulation 2 ft2 (no_library 2 keep) pulse_state = {| p_calc := []; p_eqns :=
    [{| q_terms := [entry_term 2 ft2 (no_library 2 keep) (ms_names pulse_state) (BTerm {| pt_neg := false; pt_bricks := [(lit "m1", 1%Q)]; pt_field := []; pt_lap := None |}, None)]; q_denum := []; q_sources := [] |}];
    p_mods := [] |}).
  { unfold simulation. replace (pm_derived (ms_names pulse_state)) with (@nil str) by (vm_compute; reflexivity).
    replace (ms_rhs pulse_state) with [([(BTerm {| pt_neg := false; pt_bricks := [(lit "m1", 1%Q)]; pt_field := []; pt_lap := None |}, None) : entry], [] : list entry)] by (vm_compute; reflexivity).
    replace (ms_sources pulse_state) with [[] : list nat] by (vm_compute; reflexivity). reflexivity. }
  rewrite Hsim. clear Hsim. match goal with |- context [euler_step ?x _ _ _ _ _] => set (p := x) end.
  assert (Hb : forall e k, brick_at (no_library 2 keep) (ms_names pulse_state) e k (lit "m1") = C1).
  { intros e k. unfold brick_at. replace (pm_derived (ms_names pulse_state)) with (@nil str) by (vm_compute; reflexivity).
    replace (pm_fields (ms_names pulse_state)) with [lit "conc"] by (vm_compute; reflexivity). reflexivity. }
  assert (Hr : forall e, get_rhs p e 0 t 2 = Some [C1; C1]).
  { intros e. unfold get_rhs, p. cbn [p_eqns nth_error q_terms q_sources p_mods fold_left]. f_equal. unfold apply_mods. cbn [fold_left].
    unfold add_term. cbn [fst snd]. unfold entry_term. cbn [seq map repeat vadd]. unfold eval_entry. cbn [fst eval_built]. unfold eval_pterm.
    cbn [pt_bricks pt_field pt_lap pt_neg eval_bricks no_library lb_pow]. unfold keep. fold (no_library 2 keep). f_equal; [|f_equal].
    all: match goal with |- context [brick_at ?a ?b ?c ?d ?e] => change (brick_at a b c d e) with (brick_at (no_library 2 keep) (ms_names pulse_state) c d (lit "m1")) end.
    all: rewrite Hb; csolve. }
  assert (Hd : forall e, get_denum p e 0 t 2 = Some [C0; C0]) by (intros; reflexivity).
  eexists. split; [vm_compute; reflexivity|]. unfold euler_step. change (sync p ?x) with x.
  cbn [e_fields e_derived map ft2 fft length euler_fields nth_error]. rewrite Hr, Hd. cbn [euler_fields set_field e_fields set_nth apply_filter map3 map].
  split; [reflexivity|]. cbn [e_fields map]. unfold to_real. cbn [ft2 ifft length div_real map]. unfold semi_implicit.
  assert (D : forall z, Cdiv z (Csub C1 (Cmul (RtoC dt) C0)) = z).
  { intros z. replace (Csub C1 (Cmul (RtoC dt) C0)) with C1 by ring. field. intros H. apply (f_equal Re) in H. cbn in H. lra. }
  rewrite !D. change (INR 2) with (1 + 1)%R.
  assert (T : RtoC (1 + 1) <> C0) by (intros H; apply (f_equal Re) in H; cbn in H; lra).
  assert (E2 : RtoC (1 + 1) = Cadd C1 C1) by csolve.
  f_equal. f_equal; [|f_equal]; rewrite E2 in *; field; exact T.
Qed.
Print Assumptions C87_constant_pulse_refuted.

(** *** Allen-Cahn: dconc/dt = conc - conc^3 *)
Definition La : lang :=
  {| l_fields := [lit "conc"]; l_functions := []; l_scalars := []; l_implicit := []; l_explicit := []; l_mixed := [] |}.
Definition ac_calls : list call := [CField (lit "conc"); CEquation (lit "dconc/dt = conc - conc^3")].
Definition ac_eqs : list eqtext :=
  [{| q_field := lit "conc"; q_lead := None; q_first := IProduct [plainw "conc" None]; q_more := [(minus_c, IProduct [plainw "conc" (Some 3)])] |}].
Definition ac_state : mstate := match run_calls new_mstate (ac_calls ++ [CInit]) with Ok m => m | _ => new_mstate end.
Definition ac_env : env := {| e_fields := [[C1; Copp C1]]; e_derived := [[]] |}.
Definition cube (z : C) (r : R) : C := if Req_EM_T r 3 then Cmul z (Cmul z z) else z.

Lemma ac_declared : declared La ac_calls ac_eqs.
Proof.
  constructor.
  - good_language.
  - split; [reflexivity|]. intros n. cbn. tauto.
  - exists (firstn 1 ac_calls), (skipn 1 ac_calls). split; [reflexivity|]. split; [|split].
    + intros c H. cbn in H. repeat (destruct H as [<-|H]; [exact (fun x => x)|]). destruct H.
    + intros c H. cbn in H. repeat (destruct H as [<-|H]; [exact (fun x => x)|]). destruct H.
    + discriminate.
  - intros b a eq s E. unfold ac_calls in E.
    do 2 (destruct b as [|? b]; [discriminate E|injection E as <- E]). destruct b; discriminate E.
  - cbn. intuition discriminate.
  - intros k name t ds H. cbn in H. intuition discriminate.
  - constructor; [reflexivity|constructor].
  - constructor; [|constructor]. split; [cbn; auto|]. split; [discriminate|]. split.
    + split; [exists [], [plainw "conc" None], []; good_prod|vm_compute; intuition discriminate].
    + constructor; [|constructor]. split; [right; reflexivity|]. cbn [snd].
      split; [exists [], [plainw "conc" (Some 3)], []; good_prod|vm_compute; intuition discriminate].
Qed.
Lemma ac_run : run_calls new_mstate (ac_calls ++ [CInit]) = Ok ac_state.
Proof. vm_compute. reflexivity. Qed.
Lemma ac_sim : p_eqns (simulation 2 ft2 (no_library 2 cube) ac_state) =
  [{| q_terms := [entry_term 2 ft2 (no_library 2 cube) (ms_names ac_state) (BTerm {| pt_neg := true; pt_bricks := []; pt_field := lit "conc^3"; pt_lap := None |}, None)];
      q_denum := [entry_term 2 ft2 (no_library 2 cube) (ms_names ac_state) (BTerm {| pt_neg := false; pt_bricks := []; pt_field := []; pt_lap := None |}, None)]; q_sources := [] |}].
Proof.
  unfold simulation. cbn [p_eqns]. replace (ms_rhs ac_state) with
      [([(BTerm {| pt_neg := true; pt_bricks := []; pt_field := lit "conc^3"; pt_lap := None |}, None) : entry],
        [(BTerm {| pt_neg := false; pt_bricks := []; pt_field := []; pt_lap := None |}, None) : entry])] by (vm_compute; reflexivity).
  replace (ms_sources ac_state) with [[] : list nat] by (vm_compute; reflexivity). reflexivity.
Qed.
Lemma ac_denum E t : get_denum (simulation 2 ft2 (no_library 2 cube) ac_state) E 0 t 2 = Some [C1; C1].
Proof.
  unfold get_denum. rewrite ac_sim. cbn [nth_error q_denum fold_left add_term fst snd repeat].
  f_equal. unfold add_term. cbn [fst snd entry_term seq map eval_entry eval_built eval_pterm pt_bricks pt_field pt_lap pt_neg eval_bricks vadd].
  f_equal; [|f_equal]; csolve.
Qed.
Lemma ac_solvable h t e : h <> 1%R -> solvable 2 (simulation 2 ft2 (no_library 2 cube) ac_state) ft2 h t e.
Proof.
  intros Hh i a k Ha Hk H. destruct i as [|i].
  - rewrite ac_denum in Ha. injection Ha as <-. apply (f_equal Re) in H. destruct k as [|[|k]]; [| |lia]; cbn in H; lra.
  - unfold get_denum in Ha. rewrite ac_sim in Ha. destruct i; discriminate.
Qed.
Lemma ac_written E t i q k M : nth_error ac_eqs i = Some q -> k < 2 ->
  written La ac_calls 2 ft2 (no_library 2 cube) (e_fields ac_env) E t q k M ->
  Cadd M (source_sum ac_calls (no_library 2 cube) t i k) = C0.
Proof.
  intros Hi Hk (val & im & ex & li & nl & [HV _] & _ & _ & _ & ->).
  assert (V := fun j => HV 0 (lit "conc") [C1; Copp C1] eq_refl eq_refl j). unfold ac_env in V. cbn [e_fields] in V.
  assert (S : source_sum ac_calls (no_library 2 cube) t i k = C0) by (destruct i as [|[|i]]; reflexivity).
  rewrite S. destruct i as [|i]; cbn [nth_error ac_eqs] in Hi; [|destruct i; discriminate]. injection Hi as <-.
  cbn [rhs_meaning signed_items q_first q_lead q_more map Csum snd fst item_meaning]. unfold product_meaning.
  change (scalar_factors La [plainw "conc" None]) with (@nil factor). change (field_factors La [plainw "conc" None]) with [fac "conc" None].
  change (scalar_factors La [plainw "conc" (Some 3)]) with (@nil factor). change (field_factors La [plainw "conc" (Some 3)]) with [fac "conc" (Some 3)].
  cbn [amplitude fac fa_exp option_map fa_name].
  assert (A : amplitude_at 2 ft2 k (fun j => product_value (lb_pow (no_library 2 cube)) (fun n => val n j) [fac "conc" (Some 3)]) = amplitude_at 2 ft2 k (val (lit "conc"))).
  { unfold amplitude_at. f_equal. f_equal. apply map_ext_in. intros j Hj. cbn in Hj.
    cbn [product_value no_library lb_pow]. replace (factor_power (fac "conc" (Some 3))) with 3%R by reflexivity.
    change (fa_name (fac "conc" (Some 3))) with (lit "conc"). rewrite V. unfold cube. destruct (Req_EM_T 3 3) as [_|N]; [|destruct N; reflexivity].
    destruct Hj as [<-|[<-|[]]]; cbn [nth]; csolve. }
  rewrite A. cbn [sign_value]. change (Ascii.eqb minus_c minus_c) with true. cbn [total_power oper_power plainw wf_op Nat.add pow product_value].
  change (wf_fac (plainw "conc" None)) with (fac "conc" None). csolve.
Qed.

(** The hypotheses of C87 and C88: conc is 1 at one node and -1 at the other. *)
Example C87_nonvacuous : declared La ac_calls ac_eqs /\ run_calls new_mstate (ac_calls ++ [CInit]) = Ok ac_state
  /\ good_library La 2 (no_library 2 cube) /\ good_transform 2 ft2 /\ fits La 2 ac_state ac_env /\ map q_field ac_eqs = l_fields La
  /\ field_independent ac_calls (no_library 2 cube) /\ nth_error ac_eqs 0 <> None.
Proof.
  split; [exact ac_declared|]. split; [exact ac_run|]. split; [exact (no_library_good La 2 cube eq_refl)|]. split; [exact ft2_good|].
  split; [split; [reflexivity|split; [repeat constructor|reflexivity]]|]. split; [reflexivity|]. split; [split; reflexivity|discriminate].
Qed.

(** ** C88 *)

(** Steady states: an Euler step leaves all fields as they are exactly when the
    right-hand side of every equation, as written and with its sources, is
    zero at every node of the Fourier domain. *)
Theorem C88_steady_states : forall L cs es m, declared L cs es -> run_calls new_mstate (cs ++ [CInit]) = Ok m ->
  forall n ft lib, good_library L n lib -> good_transform n ft -> map q_field es = l_fields L ->
  let p := simulation n ft lib m in
  forall dt t e, fits L n m e -> dt <> 0%R -> solvable n p ft dt t e ->
  ((exists e', euler_step p ft None dt t e = Some e' /\ e_fields e' = e_fields e) <->
   forall i q k M, nth_error es i = Some q -> k < n -> written L cs n ft lib (e_fields e) (spectrum p ft e) t q k M ->
     Cadd M (source_sum cs lib t i k) = C0).
Proof.
  intros L cs es m HD Em n ft lib GL GT HO p dt t e Hf Hdt Hs.
  exact (iff_trans (sim_euler_steady L cs es m HD Em n ft lib GL GT HO dt t e Hf Hdt Hs) (balanced_written L cs es m HD Em n ft lib GL HO e t Hf)).
Qed.
Print Assumptions C88_steady_states.

(** Any number of Euler steps and of Runge-Kutta steps keeps a state whose
    right-hand sides are zero at the times of these steps. *)
Theorem C88_steady_forever : forall L cs es m, declared L cs es -> run_calls new_mstate (cs ++ [CInit]) = Ok m ->
  forall n ft lib, good_library L n lib -> good_transform n ft -> map q_field es = l_fields L ->
  let p := simulation n ft lib m in
  forall dt steps step e, fits L n m e -> dt <> 0%R ->
  (forall j i q k M, j < steps -> nth_error es i = Some q -> k < n ->
     written L cs n ft lib (e_fields e) (spectrum p ft e) (time_of dt (step + j)) q k M ->
     Cadd M (source_sum cs lib (time_of dt (step + j)) i k) = C0) ->
  (forall j, j < steps -> solvable n p ft dt (time_of dt (step + j)) e) ->
  (exists e', euler_propagate p ft None dt steps step e = Some (e', step + steps) /\ e_fields e' = e_fields e)
  /\ (field_independent cs lib -> (forall j, j < steps -> solvable n p ft (dt / 2) (time_of dt (step + j)) e) ->
      exists e', rk4_propagate p ft None dt steps step e = Some (e', step + steps) /\ e_fields e' = e_fields e).
Proof.
  intros L cs es m HD Em n ft lib GL GT HO p dt steps step e Hf Hdt HW Hs.
  assert (HB : forall j, j < steps -> balanced n p ft (time_of dt (step + j)) e).
  { intros j Hj. apply (balanced_written L cs es m HD Em n ft lib GL HO e _ Hf). intros i q k M Hq Hk HM. exact (HW j i q k M Hj Hq Hk HM). }
  split.
  - apply (sim_euler_forever L cs es m HD Em n ft lib GL GT HO dt Hdt steps step e Hf). intros j Hj. split; [exact (HB j Hj)|exact (Hs j Hj)].
  - intros HI Hs2. apply (sim_rk4_forever L cs es m HD Em n ft lib GL GT HO dt HI Hdt steps step e Hf). intros j Hj.
    split; [exact (HB j Hj)|]. split; [exact (Hs j Hj)|exact (Hs2 j Hj)].
Qed.
Print Assumptions C88_steady_forever.

Example C88_nonvacuous : forall t,
  solvable 2 (simulation 2 ft2 (no_library 2 cube) ac_state) ft2 (1 / 10) t ac_env
  /\ solvable 2 (simulation 2 ft2 (no_library 2 cube) ac_state) ft2 (1 / 10 / 2) t ac_env
  /\ (forall E i q k M, nth_error ac_eqs i = Some q -> k < 2 ->
       written La ac_calls 2 ft2 (no_library 2 cube) (e_fields ac_env) E t q k M -> Cadd M (source_sum ac_calls (no_library 2 cube) t i k) = C0)
  /\ exists e', euler_propagate (simulation 2 ft2 (no_library 2 cube) ac_state) ft2 None (1 / 10) 1000 0 ac_env = Some (e', 1000)
     /\ e_fields e' = [[C1; Copp C1]].
Proof.
  intros t. split; [apply ac_solvable; lra|]. split; [apply ac_solvable; lra|]. split; [intros E i q k M; apply ac_written|].
  destruct C87_nonvacuous as (H1 & H2 & H3 & H4 & H5 & H6 & H7 & _).
  apply (C88_steady_forever _ _ _ _ H1 H2 _ _ _ H3 H4 H6 (1 / 10) 1000 0 ac_env H5); [lra| |].
  - intros j i q k M _. apply ac_written.
  - intros j _. apply ac_solvable. lra.
Qed.
