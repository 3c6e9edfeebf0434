(** C97, continued: fields under ImplicitEuler; C26, continued: dimers that are not set up. *)
From Verif Require Import ListAux ImplicitModel SddModel.
From Coq Require Import Lia Lra.
From Verif Require Import Complex.
Open Scope R_scope.

Definition real_fields (e : env) : Prop := Forall (Forall (fun z => Im z = 0)) (e_fields e).
Lemma vec2fields_real fs : forall v, Forall (Forall (fun z => Im z = 0)) (vec2fields v fs).
Proof.
  induction fs as [|d fs IH]; intros v; cbn [vec2fields]; constructor; [|apply IH]. apply Forall_forall. intros z Hz. apply in_map_iff in Hz. destruct Hz as (x & <- & _). reflexivity.
Qed.
(** Whatever the model, the solver and the fields at the start: after every step of
    ImplicitEuler all fields are real.  An imaginary part at the start is lost. *)
Theorem C97_implicit : forall solve p ft filt dt N step e e' step', (real_fields e \/ 0 < N)%nat -> ie_propagate solve p ft filt dt N step e = Some (e', step') ->
  real_fields e' /\ step' = (step + N)%nat.
Proof.
  intros solve p ft filt dt N. induction N as [|N IH]; intros step e e' step' H E; cbn [ie_propagate] in E.
  - injection E as <- <-. split; [destruct H as [H|H]; [exact H|lia]|lia].
  - destruct (ie_step solve p ft filt dt (ie_time dt step) e) as [e1|] eqn:S1; [|discriminate]. assert (R1 : real_fields e1).
    { unfold ie_step in S1. destruct (ie_problem p ft filt dt (ie_time dt step) e) as [[[F x0] e2]|]; [|discriminate]. injection S1 as <-. apply vec2fields_real. }
    destruct (IH (S step) e1 e' step' (or_introl R1) E) as (A & B). split; [exact A|lia].
Qed.
Print Assumptions C97_implicit.

(** A dimer without Init or SetInitialOrientation, or without a time step, does not
    step: the first step panics, whatever the model. *)
Theorem C26_not_set_up : forall p ft s e N, (s_ready s = false \/ s_dt s < / 10 ^ 16) -> sdd_run p ft (S N) s e = None.
Proof.
  intros p ft s e N H. cbn [sdd_run]. assert (E : sdd_step p ft s e = None); [|rewrite E; reflexivity]. unfold sdd_step. destruct H as [->|H]; [reflexivity|]. destruct (negb (s_ready s)); [reflexivity|]. destruct (Rlt_dec _ _); [reflexivity|contradiction].
Qed.
Print Assumptions C26_not_set_up.
(** So one made with NewSDD needs both. *)
Theorem C26_new_not_set_up : forall p ft n dt e N, sdd_run p ft (S N) (new_sdd n dt) e = None
  /\ forall o s, set_initial_orientation (new_sdd n 0) o = Some s -> sdd_run p ft (S N) s e = None.
Proof.
  intros p ft n dt e N. split; [apply C26_not_set_up; left; reflexivity|]. intros o s E. apply C26_not_set_up. right. unfold set_initial_orientation in E. destruct (Nat.eqb _ _); [|discriminate]. injection E as <-. cbn [s_dt new_sdd]. apply Rinv_0_lt_compat, pow_lt. lra.
Qed.
Print Assumptions C26_new_not_set_up.
