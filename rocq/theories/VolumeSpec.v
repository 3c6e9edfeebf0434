(** Vocabulary for the statements about the volume conserving multiplier. *)
From Verif Require Export VolumeModel StepSpec.
Open Scope R_scope.

(** The total of the real part of field [i]. *)
Definition total (n i : nat) (e : env) : R := rsum n (fun j => Re (nth j (nth i (e_fields e) []) C0)).

(** The number of fields and derived fields a model needs, all on [n] nodes. *)
Definition suits (n : nat) (p : pde) (e : env) : Prop :=
  all_length n (e_fields e) /\ length (e_fields e) = length (p_eqns p) /\ length (e_derived e) = length (p_calc p).

(** The model without the multiplier: nothing changes the number of nodes;
    sources overwrite the array they are given; in equation [i] the implicit
    terms vanish at zero frequency and there is no modifier; derived field
    [ind] exists. *)
Record vol_ok (n : nat) (p : pde) (i ind : nat) (ft : transform) : Prop := {
  vo_nodes : (0 < n)%nat;
  vo_ft : good_transform n ft;
  vo_lengths : keeps_length n p;
  vo_field : (i < length (p_eqns p))%nat;
  vo_indicator : (ind < length (p_calc p))%nat;
  vo_sources : forall q s t tmp tmp', In q (p_eqns p) -> In s (q_sources q) -> length tmp = length tmp' -> s t tmp = s t tmp';
  vo_denum : forall e t a, get_denum p e i t n = Some a -> nth 0 a C0 = C0;
  vo_mods : forall m, In m (p_mods p) -> fst m <> i
}.

(** The rate at which the model alone changes the total of field [i] when the
    fields and derived fields have the amplitudes [s]. *)
Definition rate (p : pde) (i n : nat) (t : R) (s : env) : R :=
  match get_rhs p s i t n with Some r => Re (nth 0 r C0) | None => 0 end.

(** The total of the indicator when the derived fields have the amplitudes [s]. *)
Definition indicator (ind : nat) (s : env) : R := Re (nth 0 (nth ind (e_derived s) []) C0).

(** That rate in an Euler step of length [dt] from [e]: equation [i] is evaluated
    when the fields before [i] have already been moved. *)
Definition euler_rate (p : pde) (ft : transform) (dt t : R) (i n : nat) (e : env) : R :=
  match euler_fields p ft None dt t i 0 (spectrum p ft e) with Some s => rate p i n t s | None => 0 end.

(** [st] are the states of a run of [N] steps with a new multiplier. *)
Definition vol_history (step : pde -> transform -> option (R -> R) -> R -> R -> env -> option env)
    (p : pde) (i ind : nat) (ft : transform) (dt : R) (clock : nat -> R) (n N : nat) (e : env) (st : nat -> env * multiplier) : Prop :=
  st 0%nat = (e, new_multiplier) /\ forall k, (k < N)%nat -> vol_step step p i ind ft dt (clock k) n (st k) = Some (st (S k)).
