(** Vocabulary for the statements about the field database. *)
From Verif Require Export IndexSpec ParseSpec DbModel.
Open Scope nat_scope.

(** Everything stored for one simulation. *)
Record sim_data := {
  sd_fields : list frow; sd_attr : list arow; sd_text : list trow; sd_comments : list crow; sd_series : list srow
}.
Definition stored_for (s : Z) (d : db) : sim_data :=
  {| sd_fields := filter (fun r => Z.eqb (fr_sim r) s) (t_fields d);
     sd_attr := filter (fun r => Z.eqb (ar_sim r) s) (t_attr d);
     sd_text := filter (fun r => Z.eqb (tr_sim r) s) (t_text d);
     sd_comments := filter (fun r => Z.eqb (cr_sim r) s) (t_comments d);
     sd_series := filter (fun r => Z.eqb (sr_sim r) s) (t_series d) |}.

(** The simulation number under which an event of the history works. *)
Definition sim_of (w : world) (e : event) : Z := h_sim (w_handles (step w e) (ev_who e)).
Fixpoint sims_writing (w : world) (es : list event) : list Z :=
  match es with [] => [] | e :: es' => sim_of w e :: sims_writing (step w e) es' end.

(** SaveFields was called for this simulation and time step. *)
Fixpoint saved_at (w : world) (es : list event) (s ts : Z) : Prop :=
  match es with
  | [] => False
  | e :: es' => (sim_of w e = s /\ exists fields, ev_op e = OpSave fields ts) \/ saved_at (step w e) es' s ts
  end.

(** What SaveFields keeps of a field. *)
Definition real_parts (vs : list C) : list C := map (fun v => RtoC (fst v)) vs.
Definition as_saved (fields : list (str * list C)) : list (str * list C) :=
  map (fun f => (fst f, real_parts (snd f))) fields.

Definition in_order (l : list str) : Prop := NoDup l /\ forall i j x y,
  i < j -> nth_error l i = Some x -> nth_error l j = Some y -> str_le x y = true.

(** A new database file and any number of new FieldDB objects, all for domains
    of the same number of dimensions, with at least two nodes. *)
Definition new_handle (k : nat) (h : handle) : Prop :=
  h_sim h = 0%Z /\ h_init h = false
  /\ exists dom, h_dom h = Some dom /\ valid_domain dom /\ length dom = k /\ (2 <= num_nodes dom)%Z.
Definition new_world (k : nat) (w : world) : Prop :=
  w_db w = empty_db /\ forall i, new_handle k (w_handles w i).

(** An event that is not interrupted and does not panic. *)
Definition completes (w : world) (e : event) : Prop :=
  ev_crash e = None
  /\ snd (exec (w_handles w (ev_who e)) (ev_rnd e) (ev_op e) (w_db w)) = true.

(** The positions table holds the nodes of a domain. *)
Definition positions_of (dom : list Z) (d : db) : Prop :=
  valid_domain dom /\ length (t_pos d) = Z.to_nat (num_nodes dom)
  /\ forall i, i < length (t_pos d) -> exists p, IndexModel.pos dom (Z.of_nat i) = Some p /\ nth_error (t_pos d) i = Some (pad3 p).

(** The documented join of a field row: positions.id = fields.positionId. *)
Definition joined_position (d : db) (r : frow) : option (list Z) :=
  match fr_pos r with O => None | S k => nth_error (t_pos d) k end.
