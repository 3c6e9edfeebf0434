(** Vocabulary for the statements about declared models that keep fields real. *)
From Verif Require Import FileModel.
From Verif Require Export SimSpec RealSpec.
Open Scope R_scope.

Definition is_real (z : C) : Prop := Im z = 0.

(** What registered terms see: amplitudes of real fields. *)
Definition real_amplitudes (dom : list Z) (nf nd : nat) (E : env) : Prop :=
  sized nf nd E /\ hermitian_fields dom (e_fields E) /\ hermitian_fields dom (e_derived E).

(** What the user supplies is real: constants, functions of real fields, the
    powers that occur in the equations, and registered terms and sources, which
    return amplitudes of real fields when they see amplitudes of real fields. *)
Record real_library (L : lang) (cs : list call) (es : list eqtext) (dom : list Z) (nd : nat) (lib : library) : Prop := {
  rl_scalar : forall q t s f, In q es -> In (IProduct t, s) (signed_items q) -> In f (scalar_factors L t) ->
    is_real (lb_pow lib (lb_scalar lib (fa_name f)) (factor_power f));
  rl_power : forall q t s f x, In q es -> In (IProduct t, s) (signed_items q) -> In f (field_factors L t) ->
    is_real (lb_pow lib (RtoC x) (factor_power f));
  rl_calc : forall name c fs, lb_calc lib name = Some c -> length fs = length (l_fields L) -> real_fields dom fs -> real_field (c fs);
  rl_pure : forall k name s E t, k <> KMixed -> registered cs k name s -> real_amplitudes dom (length (l_fields L)) nd E ->
    hermitian dom (lb_pure lib s E t);
  rl_mixed : forall name s E t, registered cs KMixed name s -> real_amplitudes dom (length (l_fields L)) nd E ->
    hermitian dom (lb_linear lib s E t) /\ hermitian dom (lb_nonlinear lib s E t);
  rl_source : forall i s t, In s (sources_of i cs) -> hermitian dom (lb_source lib s t)
}.

(** cmplx.Pow with a real exponent, in exact arithmetic: the principal value. *)
Definition argument (z : C) : R :=
  if Req_EM_T (Im z) 0 then (if Rlt_dec (Re z) 0 then PI else 0) else 2 * atan (Im z / (sqrt (Re z * Re z + Im z * Im z) + Re z)).
Definition principal_power (z : C) (a : R) : C :=
  if Req_EM_T (Re z * Re z + Im z * Im z) 0 then (if Req_EM_T a 0 then C1 else C0)
  else Cmul (RtoC (Rpower (sqrt (Re z * Re z + Im z * Im z)) a)) (cos (a * argument z), sin (a * argument z)).
