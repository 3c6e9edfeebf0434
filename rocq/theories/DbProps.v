(** Properties C31-C34: the field database. *)
From Verif Require Import IndexSpec DbSpec DbProofs DbProofs2 DbProofs3 DbProofs4 DbProofs5.
From Coq Require Import Sorting.Permutation Lra.
Open Scope nat_scope.

(** C31. A simulation whose number no operation of the later history uses
    keeps all its records, and reads give what they gave.  The histories are
    arbitrary: any number of FieldDB objects, any interleaving, any crash. *)
Theorem C31_other_simulations_untouched : forall k w0 hist es s, new_world k w0 ->
  ~ In s (sims_writing (run w0 hist) es) ->
  stored_for s (w_db (run (run w0 hist) es)) = stored_for s (w_db (run w0 hist))
  /\ (forall ts, load s ts (w_db (run (run w0 hist) es)) = load s ts (w_db (run w0 hist)))
  /\ load_last s (w_db (run (run w0 hist) es)) = load_last s (w_db (run w0 hist)).
Proof. exact isolated. Qed.
Print Assumptions C31_other_simulations_untouched.

(** The records (not the reads) need no assumption on the file. *)
Theorem C31_records_untouched_any_file : forall w es s, ~ In s (sims_writing w es) ->
  stored_for s (w_db (run w es)) = stored_for s (w_db w).
Proof. exact isolation. Qed.
Print Assumptions C31_records_untouched_any_file.

(** A completed SaveFields reads back as the real parts of the fields, in the
    order of the names, whatever happens later at other steps or simulations. *)
Theorem C31_saved_fields_read_back_partial : forall k w0 hist e fields epoch later, new_world k w0 ->
  let w := run w0 hist in let s := sim_of w e in
  ev_op e = OpSave fields epoch -> NoDup (map fst fields) -> completes w e ->
  ~ saved_at (step w e) later s epoch ->
  exists r, load s epoch (w_db (run (step w e) later)) = Some r /\ in_order (map fst r)
  /\ (forall f, In f (as_saved fields) -> In f r)
  /\ (~ saved_at w0 hist s epoch -> Permutation r (as_saved fields)).
Proof. exact read_back. Qed.
Print Assumptions C31_saved_fields_read_back_partial.

Theorem C31_first_save_completes : forall k w0 e fields epoch dom, new_world k w0 ->
  ev_op e = OpSave fields epoch -> ev_crash e = None ->
  h_dom (w_handles w0 (ev_who e)) = Some dom ->
  Forall (fun f => Z.of_nat (length (snd f)) = num_nodes dom) fields -> completes w0 e.
Proof. exact first_save_completes. Qed.
Print Assumptions C31_first_save_completes.

(** Comments, attributes and time series are recorded, under the number of the
    simulation, and nothing else is. *)
Theorem C31_records_added : forall w e, ev_crash e = None ->
  let s := sim_of w e in let d := w_db w in let d' := w_db (step w e) in
  match ev_op e with
  | OpSave _ _ => True
  | OpComment text => t_comments d' = t_comments d ++ [{| cr_value := one_line text; cr_sim := s |}]
      /\ t_attr d' = t_attr d /\ t_text d' = t_text d /\ t_series d' = t_series d
  | OpAttr kv => t_attr d' = t_attr d ++ map (fun e => {| ar_key := fst e; ar_value := snd e; ar_sim := s |}) kv
      /\ t_comments d' = t_comments d /\ t_text d' = t_text d /\ t_series d' = t_series d
  | OpText kv => t_text d' = t_text d ++ map (fun e => {| tr_key := fst e; tr_value := snd e; tr_sim := s |}) kv
      /\ t_attr d' = t_attr d /\ t_comments d' = t_comments d /\ t_series d' = t_series d
  | OpSeries kv ts => t_series d' = t_series d ++ map (fun e => {| sr_key := fst e; sr_value := snd e; sr_ts := ts; sr_sim := s |}) kv
      /\ t_attr d' = t_attr d /\ t_comments d' = t_comments d /\ t_text d' = t_text d
  end.
Proof. exact records_added. Qed.
Print Assumptions C31_records_added.

Definition fresh (dom : nat -> list Z) : world :=
  {| w_db := empty_db; w_handles := fun i => {| h_dom := Some (dom i); h_sim := 0%Z; h_init := false |} |}.
Definition saving (who : nat) (rnd : Z) (fields : list (str * list C)) (ts : Z) : event :=
  {| ev_who := who; ev_rnd := rnd; ev_op := OpSave fields ts; ev_crash := None |}.

Lemma fresh_new dom : (forall i, valid_domain (dom i) /\ length (dom i) = 2 /\ (2 <= num_nodes (dom i))%Z) -> new_world 2 (fresh dom).
Proof. intros H. split; [reflexivity|]. intros i. split; [reflexivity|]. split; [reflexivity|]. exists (dom i). split; [reflexivity|]. apply H. Qed.
Lemma dom21 : valid_domain [2; 1]%Z /\ length [2; 1]%Z = 2 /\ (2 <= num_nodes [2; 1])%Z.
Proof. split; [split; [left; reflexivity|repeat constructor]|]. split; [reflexivity|]. cbn. lia. Qed.

Definition ones : list C := [RtoC 1; RtoC 1].
Definition twos : list C := [RtoC 2; RtoC 2].

(** Two objects that draw the same number share their data: the refused
    insertion of the number is not noticed, and the second run overwrites what
    the first one reads back. *)
Theorem C31_same_number_drawn_refuted : exists w0 e1 e2,
  new_world 2 w0 /\ ev_who e1 <> ev_who e2 /\ completes w0 e1 /\ completes (step w0 e1) e2
  /\ load (sim_of w0 e1) 0 (w_db (step w0 e1)) = Some [(lit "conc", ones)]
  /\ load (sim_of w0 e1) 0 (w_db (step (step w0 e1) e2)) = Some [(lit "conc", twos)].
Proof.
  exists (fresh (fun _ => [2; 1]%Z)), (saving 0 7 [(lit "conc", ones)] 0), (saving 1 7 [(lit "conc", twos)] 0).
  split; [apply fresh_new; intros _; exact dom21|]. split; [discriminate|]. repeat split; reflexivity.
Qed.
Print Assumptions C31_same_number_drawn_refuted.

(** On a domain with one node the positions are inserted again by the second
    call, so that fields read back with two nodes. *)
Theorem C31_one_node_domain_refuted :
  let w0 := fresh (fun _ => [1; 1]%Z) in
  let e1 := saving 0 7 [(lit "conc", [RtoC 5])] 0 in let e2 := saving 0 8 [(lit "conc", [RtoC 6])] 1 in
  completes w0 e1 /\ completes (step w0 e1) e2
  /\ load 7 0 (w_db (step w0 e1)) = Some [(lit "conc", [RtoC 5])]
  /\ load 7 0 (w_db (step (step w0 e1) e2)) = Some [(lit "conc", [RtoC 5; C0])].
Proof. repeat split; reflexivity. Qed.
Print Assumptions C31_one_node_domain_refuted.

Example C31_nonvacuous :
  let w0 := fresh (fun _ => [2; 1]%Z) in
  let e1 := saving 0 7 [(lit "eta", twos); (lit "conc", ones)] 3 in
  let e2 := saving 1 9 [(lit "conc", twos)] 3 in
  new_world 2 w0 /\ completes w0 e1 /\ ~ In 7%Z (sims_writing (step w0 e1) [e2])
  /\ ~ saved_at (step w0 e1) [e2] 7 3 /\ NoDup (map fst [(lit "eta", twos); (lit "conc", ones)])
  /\ load 7 3 (w_db (run (step w0 e1) [e2])) = Some [(lit "conc", ones); (lit "eta", twos)]
  /\ load 9 3 (w_db (run (step w0 e1) [e2])) = Some [(lit "conc", twos)].
Proof.
  split; [apply fresh_new; intros _; exact dom21|]. split; [split; reflexivity|]. split; [cbn; intros [H|[]]; discriminate|].
  split; [intros [[H _]|[]]; discriminate|]. split; [|split; reflexivity].
  constructor; [intros [H|[]]; discriminate|]. constructor; [intros []|constructor].
Qed.

(** C32. The row of a node refers to the position with the next identifier:
    the documented join positions.id = fields.positionId gives the position of
    the previous node, and none for the first; joining on the identifier minus
    one gives the position of the node. *)
Theorem C32_documented_join_refuted : forall k w0 hist e fields epoch later n vs i v dom, new_world k w0 ->
  let w := run w0 hist in let s := sim_of w e in let d := w_db (run (step w e) later) in
  ev_op e = OpSave fields epoch -> completes w e -> h_dom (w_handles w (ev_who e)) = Some dom ->
  In (n, vs) fields -> nth_error vs i = Some v ->
  exists r p, In r (t_fields d)
  /\ fr_name r = n /\ fr_value r = fst v /\ fr_ts r = epoch /\ fr_sim r = s /\ fr_pos r = i
  /\ IndexModel.pos dom (Z.of_nat i) = Some p
  /\ nth_error (t_pos d) (fr_pos r) = Some (pad3 p)
  /\ joined_position d r = match i with
                           | 0 => None
                           | S i' => match IndexModel.pos dom (Z.of_nat i') with Some q => Some (pad3 q) | None => None end
                           end.
Proof. exact saved_rows_join. Qed.
Print Assumptions C32_documented_join_refuted.

Example C32_nonvacuous :
  let w0 := fresh (fun _ => [2; 1]%Z) in
  let d := w_db (step w0 (saving 0 7 [(lit "conc", ones)] 3)) in
  t_pos d = [[0; 0; 0]; [1; 0; 0]]%Z /\ map (joined_position d) (t_fields d) = [None; Some [0; 0; 0]%Z]
  /\ map (fun r => nth_error (t_pos d) (fr_pos r)) (t_fields d) = [Some [0; 0; 0]%Z; Some [1; 0; 0]%Z].
Proof. repeat split; reflexivity. Qed.

(** C33. A process that dies inside SaveFields can leave a time step with some
    of the fields only, and LoadLast returns it. *)
Theorem C33_crash_between_fields_refuted :
  let w0 := fresh (fun _ => [2; 1]%Z) in
  let fields := [(lit "conc", ones); (lit "eta", twos)] in
  let e1 := saving 0 7 fields 1 in
  let e2 := {| ev_who := 0; ev_rnd := 8; ev_op := OpSave fields 2; ev_crash := Some 1 |} in
  new_world 2 w0 /\ completes w0 e1
  /\ load_last 7 (w_db (step w0 e1)) = Some [(lit "conc", ones); (lit "eta", twos)]
  /\ load_last 7 (w_db (step (step w0 e1) e2)) = Some [(lit "conc", ones)].
Proof.
  split; [apply fresh_new; intros _; exact dom21|]. split; [split; reflexivity|]. split; [reflexivity|].
  unfold load_last. replace (last_step 7 _) with 2%Z by reflexivity. reflexivity.
Qed.
Print Assumptions C33_crash_between_fields_refuted.

(** Whatever the crash point, the step holds the complete data of the first
    fields and nothing of the others. *)
Theorem C33_whole_fields_partial : forall k w0 hist e fields epoch later, new_world k w0 ->
  let w := run w0 hist in let s := sim_of w e in
  ev_op e = OpSave fields epoch -> NoDup (map fst fields) ->
  ~ saved_at w0 hist s epoch -> ~ saved_at (step w e) later s epoch ->
  exists j r, load s epoch (w_db (run (step w e) later)) = Some r /\ Permutation r (as_saved (firstn j fields)).
Proof. exact whole_fields. Qed.
Print Assumptions C33_whole_fields_partial.

(** Every other step reads back as before. *)
Theorem C33_other_steps_survive : forall k w0 hist es s ts, new_world k w0 -> ~ saved_at (run w0 hist) es s ts ->
  load s ts (w_db (run (run w0 hist) es)) = load s ts (w_db (run w0 hist)).
Proof. exact earlier_kept. Qed.
Print Assumptions C33_other_steps_survive.

(** With one field LoadLast gives the state before or the state after. *)
Theorem C33_single_field_atomic_partial : forall k w0 hist e n vs epoch, new_world k w0 ->
  let w := run w0 hist in let s := sim_of w e in
  ev_op e = OpSave [(n, vs)] epoch ->
  (forall ts, load s ts (w_db w) <> Some [] -> (ts < epoch)%Z) ->
  load_last s (w_db (step w e)) = load_last s (w_db w)
  \/ load_last s (w_db (step w e)) = Some [(n, real_parts vs)].
Proof. exact single_field_last. Qed.
Print Assumptions C33_single_field_atomic_partial.

Example C33_nonvacuous :
  let w0 := fresh (fun _ => [2; 1]%Z) in
  let e c := {| ev_who := 0; ev_rnd := 7; ev_op := OpSave [(lit "conc", ones)] 1; ev_crash := Some c |} in
  load_last 7 (w_db (step w0 (e 2))) = Some [] /\ load_last 7 (w_db (step w0 (e 3))) = Some [(lit "conc", ones)].
Proof.
  split; [reflexivity|]. unfold load_last. replace (last_step 7 _) with 1%Z by reflexivity. reflexivity.
Qed.

(** C34. SaveFields on a file that holds the positions of [dom0]: it succeeds
    exactly if every extent of the object's domain is the extent of [dom0]
    (a third extent that is missing there counts as one); otherwise it panics
    before it writes any field. *)
Theorem C34_domain_check_partial : forall w e fields epoch dom0 dom,
  positions_of dom0 (w_db w) -> (2 <= num_nodes dom0)%Z ->
  ev_op e = OpSave fields epoch -> ev_crash e = None -> fields <> [] ->
  h_dom (w_handles w (ev_who e)) = Some dom ->
  (completes w e <->
     (length dom <= 3 /\ forall i, i < length dom -> nth i dom 1%Z = nth i dom0 1%Z)
     /\ Forall (fun f => Z.of_nat (length (snd f)) = num_nodes dom) fields)
  /\ (~ (length dom <= 3 /\ forall i, i < length dom -> nth i dom 1%Z = nth i dom0 1%Z) ->
      ~ completes w e /\ t_fields (w_db (step w e)) = t_fields (w_db w) /\ t_pos (w_db (step w e)) = t_pos (w_db w)).
Proof. exact domain_check. Qed.
Print Assumptions C34_domain_check_partial.

Theorem C34_same_dimension_domain_check : forall w e fields epoch dom0 dom,
  positions_of dom0 (w_db w) -> (2 <= num_nodes dom0)%Z ->
  ev_op e = OpSave fields epoch -> ev_crash e = None -> fields <> [] ->
  h_dom (w_handles w (ev_who e)) = Some dom -> length dom = length dom0 ->
  (completes w e <-> dom = dom0 /\ Forall (fun f => Z.of_nat (length (snd f)) = num_nodes dom) fields)
  /\ (dom <> dom0 -> ~ completes w e /\ t_fields (w_db (step w e)) = t_fields (w_db w)).
Proof. exact domain_check_same_rank. Qed.
Print Assumptions C34_same_dimension_domain_check.

(** After any history on a new file the positions are those of one object. *)
Theorem C34_table_holds_a_domain : forall k w0 hist, new_world k w0 -> t_pos (w_db (run w0 hist)) <> [] ->
  exists i dom0, h_dom (w_handles w0 i) = Some dom0 /\ length dom0 = k /\ (2 <= num_nodes dom0)%Z
  /\ positions_of dom0 (w_db (run w0 hist)).
Proof. exact table_domain. Qed.
Print Assumptions C34_table_holds_a_domain.

(** A two-dimensional field is accepted into a three-dimensional file and reads
    back with extra nodes. *)
Theorem C34_two_in_three_dimensions_refuted :
  let w0 := fresh (fun i => match i with 0%nat => [2; 1; 2]%Z | _ => [2; 1]%Z end) in
  let e1 := saving 0 7 [(lit "conc", ones ++ twos)] 0 in let e2 := saving 1 9 [(lit "conc", ones)] 0 in
  completes w0 e1 /\ completes (step w0 e1) e2
  /\ load 9 0 (w_db (step (step w0 e1) e2)) = Some [(lit "conc", ones ++ [C0; C0])].
Proof. repeat split; reflexivity. Qed.
Print Assumptions C34_two_in_three_dimensions_refuted.

Example C34_nonvacuous :
  let w0 := fresh (fun i => match i with 0%nat => [2; 1]%Z | _ => [1; 2]%Z end) in
  let w1 := step w0 (saving 0 7 [(lit "conc", ones)] 0) in
  positions_of [2; 1]%Z (w_db w1) /\ ~ completes w1 (saving 1 9 [(lit "conc", ones)] 0)
  /\ completes w1 (saving 0 9 [(lit "conc", twos)] 1).
Proof.
  split; [|split; [intros [_ H]; discriminate|split; reflexivity]].
  split; [exact (proj1 dom21)|]. split; [reflexivity|]. intros [|[|i]] Hi; [| |change (S (S i) < 2) in Hi; lia]; eexists; split; reflexivity.
Qed.
