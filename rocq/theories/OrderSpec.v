(** Vocabulary for the statement that runs of RK4 are accurate to fourth
    order. *)
From Coq Require Import Reals.
From Verif Require Import FileModel SplitSpec.
From Verif Require Export LimitSpec KeepSpec.
Open Scope R_scope.

(** The right-hand sides are polynomials that contain no implicit term: there
    are no registered functions and terms, the sources do not depend on time,
    the exponents are whole numbers and no summand is the field of the
    left-hand side alone (with scalars and Laplacians). *)
Record explicit_polynomial (L : lang) (cs : list call) (es : list eqtext) (lib : library) : Prop := {
  ep_functions : l_functions L = [];
  ep_terms : user_terms L = [];
  ep_sources : forall i s t t', In s (sources_of i cs) -> lb_source lib s t = lb_source lib s t';
  ep_power : lb_pow lib = principal_power;
  ep_whole : forall q t s w, In q es -> In (IProduct t, s) (signed_items q) -> In w t -> match fa_exp (wf_fac w) with Some e => ex_frac e = None | None => True end;
  ep_own : forall q t s, In q es -> In (IProduct t, s) (signed_items q) -> linear_in L (q_field q) t = false
}.

(** The same, but implicit terms are allowed. *)
Record polynomial_rates (L : lang) (cs : list call) (es : list eqtext) (lib : library) : Prop := {
  pr_functions : l_functions L = [];
  pr_terms : user_terms L = [];
  pr_sources : forall i s t t', In s (sources_of i cs) -> lb_source lib s t = lb_source lib s t';
  pr_power : lb_pow lib = principal_power;
  pr_whole : forall q t s w, In q es -> In (IProduct t, s) (signed_items q) -> In w t -> match fa_exp (wf_fac w) with Some e => ex_frac e = None | None => True end
}.
