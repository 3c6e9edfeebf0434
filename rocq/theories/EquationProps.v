(** C18: a right-hand side evaluates to what its text says. *)
From Verif Require Import ParseProofs EquationSpec TextProofs EquationProofs8.
From Coq Require Import Lra Qreals.
Open Scope nat_scope.

(** Any number of equations of the supported grammar, written with any spacing,
    is accepted, and for each of them the explicit terms plus the implicit
    terms times the evolving field are the sum of the written items: constants
    to their powers, times the amplitude of the product of the fields, times
    the power of the Laplacian symbol, with the written sign. *)
Theorem C18_rhs_means_its_text_partial : forall L texts es,
  good_lang L ->
  Forall2 (fun s e => strip_spaces s = eq_text e) texts es ->
  Forall (good_equation L) es ->
  exists m, add_equations (start_model L) texts = Ok m /\
    Forall (fun e => exists terms denum, build m (eq_text e) = Ok (terms, denum) /\
      forall cpow val ft scal brick implicit explicit linear nonlinear freq,
        good_bricks L m cpow val ft scal brick ->
        let ev := eval_built cpow brick implicit explicit linear nonlinear freq in
        Cadd (Csum (map ev terms)) (Cmul (Csum (map ev denum)) (brick (q_field e)))
        = rhs_meaning L cpow val ft scal implicit explicit linear nonlinear freq (brick (q_field e)) e) es.
Proof. intros L texts es HL. exact (parsed_rhs L HL texts es). Qed.
Print Assumptions C18_rhs_means_its_text_partial.

(** *** Sums outside the grammar are evaluated to something else *)

(** The value at a node of the right-hand side of the equation of "conc" in a
    model with these names, as AddEquation and Build make it. *)
Section Outside.
  Variable cpow : C -> R -> C.
  Variable brick : str -> C.
  Variable freq : list R.
  Definition rhs_value (fields functions scalars : list string) (eq : string) : res C :=
    let L := {| l_fields := map lit fields; l_functions := map lit functions; l_scalars := map lit scalars;
                l_implicit := []; l_explicit := []; l_mixed := [] |} in
    bind (add_equation (start_model L) (lit eq)) (fun m =>
    bind (build m (strip_spaces (lit eq))) (fun td =>
      let ev := eval_built cpow brick (fun _ => C0) (fun _ => C0) (fun _ => C0) (fun _ => C0) freq in
      Ok (Cadd (Csum (map ev (fst td))) (Cmul (Csum (map ev (snd td))) (brick (lit "conc")))))).
End Outside.

Ltac run_rhs :=
  intros; unfold rhs_value;
  match goal with |- bind ?x _ = _ => let y := eval vm_compute in x in change x with y end;
  cbn [bind];
  match goal with |- bind ?x _ = _ => let y := eval vm_compute in x in change x with y end;
  cbn [bind fst snd map eval_built Csum eval_pterm pt_neg pt_bricks pt_field pt_lap eval_bricks];
  try reflexivity;
  change (Q2R 1) with (IZR 1 * / IZR 1)%R; rewrite ?Rinv_1, ?Rmult_1_r; rewrite ?lap_eval_symbol;
  cbn [pow]; rewrite ?Rmult_1_r; change (RtoC 1) with C1; f_equal; cbn [lit list_ascii_of_string]; ring.

(** A field written twice counts once: the square is lost. *)
Theorem C18_repeated_field_refuted : forall cpow brick freq,
  rhs_value cpow brick freq ["conc"%string] [] [] "dconc/dt = conc*conc" = Ok (brick (lit "conc")).
Proof. run_rhs. Qed.
Print Assumptions C18_repeated_field_refuted.

(** A constant whose name shares all but the last letter of the field: the
    exponent of the field is lost. *)
Theorem C18_similar_constant_refuted : forall cpow brick freq,
  rhs_value cpow brick freq ["conc"%string] [] ["cond"%string] "dconc/dt = cond*conc^2"
  = Ok (Cmul (cpow (brick (lit "cond")) 1%R) (brick (lit "conc"))).
Proof. run_rhs. Qed.
Print Assumptions C18_similar_constant_refuted.

(** A constant between the operator and the field is lost. *)
Theorem C18_operator_before_constant_refuted : forall cpow brick freq,
  rhs_value cpow brick freq ["conc"%string] [] ["m1"%string] "dconc/dt = LAP m1*conc"
  = Ok (Cmul (RtoC (lap_symbol freq)) (brick (lit "conc"))).
Proof. run_rhs. Qed.
Print Assumptions C18_operator_before_constant_refuted.

(** A constant that sorts between two field names: both fields are lost. *)
Theorem C18_constant_between_fields_refuted : forall cpow brick freq,
  rhs_value cpow brick freq ["conc"%string; "eta"%string] [] ["dd"%string] "dconc/dt = conc*dd*eta"
  = Ok (cpow (brick (lit "dd")) 1%R).
Proof. run_rhs. Qed.
Print Assumptions C18_constant_between_fields_refuted.

(** An operator in front of a field that does not sort first: the fields are
    lost. *)
Theorem C18_operator_before_later_field_refuted : forall cpow brick freq,
  rhs_value cpow brick freq ["conc"%string; "eta"%string] [] [] "dconc/dt = LAP eta*conc"
  = Ok (RtoC (lap_symbol freq)).
Proof. run_rhs. Qed.
Print Assumptions C18_operator_before_later_field_refuted.

(** A registered function times a field: both are lost; the power of a
    registered function is ignored. *)
Theorem C18_function_product_refuted : forall cpow brick freq,
  rhs_value cpow brick freq ["conc"%string] ["myfunc"%string] [] "dconc/dt = myfunc*conc" = Ok C1
  /\ rhs_value cpow brick freq ["conc"%string] ["myfunc"%string] [] "dconc/dt = myfunc^2" = Ok (brick (lit "myfunc")).
Proof. split; run_rhs. Qed.
Print Assumptions C18_function_product_refuted.

(** A constant whose name contains LA in front of an operator: the power of the
    Laplacian is lost. *)
Theorem C18_constant_with_LA_refuted : forall cpow brick freq,
  rhs_value cpow brick freq ["conc"%string] [] ["LAMBDA"%string] "dconc/dt = LAMBDA*LAP^2 conc"
  = Ok (Cmul (RtoC (lap_symbol freq)) (Cmul (cpow (brick (lit "LAMBDA")) 1%R) (brick (lit "conc")))).
Proof. run_rhs. Qed.
Print Assumptions C18_constant_with_LA_refuted.

(** A product of constants only: its value is added to every amplitude, not to
    the one of zero frequency only.  In real space this is a pulse at the first
    node (C87_constant_pulse_refuted) instead of the same rate everywhere. *)
Theorem C18_constants_only_refuted : forall cpow brick freq,
  rhs_value cpow brick freq ["conc"%string] [] ["m1"%string] "dconc/dt = m1" = Ok (cpow (brick (lit "m1")) 1%R).
Proof. run_rhs. Qed.
Print Assumptions C18_constants_only_refuted.

(** Negative exponents and products with names of one or two letters are
    rejected. *)
Theorem C18_panics_refuted : forall cpow brick freq,
  rhs_value cpow brick freq ["conc"%string] [] [] "dconc/dt = conc^-1" = Panic
  /\ rhs_value cpow brick freq ["ab"%string] [] [] "dab/dt = ab^2" = Panic.
Proof. split; run_rhs. Qed.
Print Assumptions C18_panics_refuted.

(** *** A model and two equations that meet the hypotheses *)
Definition Lx : lang :=
  {| l_fields := [lit "conc"; lit "eta"]; l_functions := [lit "dfdc"]; l_scalars := [lit "m1"; lit "kap"];
     l_implicit := []; l_explicit := [lit "noise"]; l_mixed := [] |}.
Definition fac (n : string) (p : option nat) : factor :=
  {| fa_name := lit n; fa_exp := option_map (fun k => {| ex_int := [k]; ex_frac := None |}) p |}.
Definition plainw (n : string) (p : option nat) : wfactor := {| wf_op := NoOp; wf_fac := fac n p |}.
Definition lapw (n : string) (p : option nat) : wfactor := {| wf_op := OpLap; wf_fac := fac n p |}.
Definition eq1 : eqtext :=
  {| q_field := lit "conc"; q_lead := None;
     q_first := IProduct [plainw "m1" None; lapw "conc" (Some 3)];
     q_more := [(minus_c, IProduct [plainw "kap" (Some 2); plainw "conc" None]);
                (plus_c, IProduct [plainw "conc" (Some 2); plainw "eta" None; plainw "m1" None]);
                (minus_c, IProduct [lapw "dfdc" None; plainw "m1" None]);
                (plus_c, IUser [Lap 1] (lit "noise"))] |}.
Definition eq2 : eqtext :=
  {| q_field := lit "eta"; q_lead := Some minus_c;
     q_first := IProduct [plainw "kap" None; {| wf_op := OpLapPow [2]; wf_fac := fac "eta" None |}];
     q_more := [(plus_c, IProduct [plainw "conc" None])] |}.

Ltac each_in H := repeat (destruct H as [<-|H]; [|]); [..|destruct H].
Ltac no_occ := let Hx := fresh in intros Hx; apply contains_true in Hx; vm_compute in Hx; discriminate.

Example C18_nonvacuous_lang : good_lang Lx.
Proof.
  constructor.
  - intros n H. cbn in H. repeat (destruct H as [<-|H]; [split; reflexivity|]). destruct H.
  - intros n H. cbn in H. repeat (destruct H as [<-|H]; [split; [cbn; lia|intros [E|[E|E]]; discriminate]|]). destruct H.
  - repeat constructor; cbn; intuition discriminate.
  - intros a n Ha Hn Hne. cbn in Ha, Hn.
    repeat (destruct Ha as [<-|Ha]; [repeat (destruct Hn as [<-|Hn]; [first [congruence|no_occ]|]); destruct Hn|]). destruct Ha.
  - intros a Ha Hs. cbn in Ha, Hs. repeat (destruct Ha as [<-|Ha]; [repeat (destruct Hs as [E|Hs]; [discriminate|]); exact Hs|]). destruct Ha.
  - intros n H. cbn in H. repeat (destruct H as [<-|H]; [no_occ|]). destruct H.
  - intros a n Ha Hn. cbn in Ha, Hn.
    repeat (destruct Ha as [<-|Ha]; [repeat (destruct Hn as [<-|Hn]; [no_occ|]); destruct Hn|]). destruct Ha.
  - intros u Hu. cbn in Hu. destruct Hu as [<-|[]]. split; [split|split; [|split]].
    + apply name_ok_spec. reflexivity.
    + intros (r & E). discriminate.
    + split; [discriminate|]. intros c [<-|[<-|[]]] Hin; cbn in Hin; intuition discriminate.
    + cbn. intuition discriminate.
    + intros a Ha. cbn in Ha. repeat (destruct Ha as [<-|Ha]; [no_occ|]). destruct Ha.
Qed.

Lemma exp_far k : (1 < k < 10)%nat -> (1 / 10000000000 <= Rabs (expo_value {| ex_int := [k]; ex_frac := None |} - 1))%R.
Proof.
  intros [H1 H2]. do 10 (destruct k as [|k]; [first [lia|unfold expo_value; cbn; rewrite ?Rabs_right; lra]|]). lia.
Qed.

Ltac good_prod :=
  constructor;
  [ first [apply Permutation_refl|apply perm_swap|
      cbn [app]; eapply Permutation_trans; [apply perm_swap|]; apply Permutation_refl]
  | discriminate | discriminate
  | cbn; repeat split; intros y Hy; cbn in Hy; repeat (destruct Hy as [<-|Hy]; [reflexivity|]); destruct Hy
  | cbn; repeat split; intros y Hy; cbn in Hy; repeat (destruct Hy as [<-|Hy]; [reflexivity|]); destruct Hy
  | intros w Hw; cbn in Hw; repeat (destruct Hw as [<-|Hw]; [split; [split; reflexivity|cbn; repeat split; repeat constructor; try discriminate; lia]|]); destruct Hw
  | intros w Hw; cbn in Hw; repeat (destruct Hw as [<-|Hw]; [split; [cbn; auto|reflexivity]|]); destruct Hw
  | intros w rest E; injection E as <- <-; split; [cbn; repeat split; repeat constructor; try discriminate; lia
      |intros w' Hw'; cbn in Hw'; repeat (destruct Hw' as [<-|Hw']; [reflexivity|]); destruct Hw']
  | cbn; repeat constructor; cbn; intuition discriminate
  | first [ left; intros w Hw; cbn in Hw; repeat (destruct Hw as [<-|Hw]; [split; [cbn; auto; fail|first [exact I|apply exp_far; lia]]|]); destruct Hw; fail
          | right; eexists; split; [reflexivity|]; split; [cbn; auto|reflexivity] ] ].

Example C18_nonvacuous_equations : Forall (good_equation Lx) [eq1; eq2]
  /\ strip_spaces (lit "dconc/dt = m1*LAP conc^3 - kap^2*conc + conc^2*eta*m1 - LAP dfdc*m1 + LAP noise") = eq_text eq1
  /\ strip_spaces (lit "deta/dt = -kap*LAP^2 eta + conc") = eq_text eq2.
Proof.
  split; [|split; reflexivity].
  constructor; [|constructor; [|constructor]]; (split; [cbn; auto|]).
  - split; [discriminate|]. split.
    { split; [exists [], [lapw "conc" (Some 3)], [plainw "m1" None]; good_prod|vm_compute; intuition discriminate]. }
    constructor; [|constructor; [|constructor; [|constructor; [|constructor]]]];
      (split; [first [left; reflexivity|right; reflexivity]|]); cbn [snd].
    + split; [exists [], [plainw "conc" None], [plainw "kap" (Some 2)]; good_prod|vm_compute; intuition discriminate].
    + split; [exists [], [plainw "conc" (Some 2); plainw "eta" None], [plainw "m1" None]; good_prod|vm_compute; intuition discriminate].
    + split; [exists [], [lapw "dfdc" None], [plainw "m1" None]; good_prod|vm_compute; intuition discriminate].
    + split; [cbn; auto|]. constructor; [split; discriminate|constructor].
  - split; [intros c E; injection E as <-; right; reflexivity|]. split.
    { split; [exists [], [{| wf_op := OpLapPow [2]; wf_fac := fac "eta" None |}], [plainw "kap" None]; good_prod|vm_compute; intuition discriminate]. }
    constructor; [|constructor]. split; [left; reflexivity|]. cbn [snd].
    split; [exists [], [plainw "conc" None], []; good_prod|vm_compute; intuition discriminate].
Qed.

(** Bricks as assumed exist for all values of fields and constants; the one of
    a derived field is what its calculator computes (C19). *)
Theorem C18_bricks_exist : forall L m cpow val ft scal, good_lang L -> (forall z, cpow z 1%R = z) ->
  good_bricks L m cpow val ft scal (calc_bricks L cpow val ft scal).
Proof. exact calc_bricks_good. Qed.
Print Assumptions C18_bricks_exist.
