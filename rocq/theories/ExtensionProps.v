(** C51, C82 and C83, continued: file names with extension, the names of all
    variables and NumNodes. *)
From Coq Require Import String.
From Verif Require Import ListAux DbProofs3 EquationProofs4 CliModel VariablesModel CliSpec RegistryModel RegistrySpec RegistryProofs CliProofs3.
From Coq Require Import List Lia Arith.
From Coq Require Import Permutation.
Import ListNotations.
Local Open Scope list_scope.

(** A name that ends in .csv stays as it is, another one gets .csv appended, and
    a name of less than four characters panics. *)
Theorem C51_extension : forall fname,
  (append_file_extension fname = None <-> length fname < 4)
  /\ (forall base, fname = base ++ lit ".csv" -> append_file_extension fname = Some fname)
  /\ (4 <= length fname -> (forall base, fname <> base ++ lit ".csv") -> append_file_extension fname = Some (fname ++ lit ".csv")).
Proof.
  intros fname. unfold append_file_extension. split; [|split].
  - destruct (Nat.ltb_spec (length fname) 4); split; intros; [lia|reflexivity|discriminate|lia].
  - intros base ->. rewrite app_length. change (length (lit ".csv")) with 4. destruct (Nat.ltb_spec (length base + 4) 4); [lia|].
    replace (length base + 4 - 4) with (length base + 0) by lia. rewrite skipn_app, skipn_all2 by lia.
    replace (length base + 0 - length base) with 0 by lia. cbn [skipn app]. rewrite (proj2 (str_eqb_iff _ _) eq_refl). reflexivity.
  - intros H Hb. destruct (Nat.ltb_spec (length fname) 4); [lia|]. destruct (str_eqb (skipn (length fname - 4) fname) (lit ".csv")) eqn:E; [|reflexivity].
    apply str_eqb_iff in E. exfalso. apply (Hb (firstn (length fname - 4) fname)). rewrite <- E. symmetry. apply firstn_skipn.
Qed.
Print Assumptions C51_extension.
(** Applying it twice is applying it once. *)
Theorem C51_extension_once : forall fname r, append_file_extension fname = Some r -> append_file_extension r = Some r.
Proof.
  intros fname r H. destruct (C51_extension fname) as (A & B & D). destruct (le_lt_dec 4 (length fname)) as [L|L]; [|apply A in L; congruence].
  assert (X : (exists base, fname = base ++ lit ".csv") \/ forall base, fname <> base ++ lit ".csv").
  { destruct (str_eqb (skipn (length fname - 4) fname) (lit ".csv")) eqn:E.
    - left. exists (firstn (length fname - 4) fname). apply str_eqb_iff in E. rewrite <- E. symmetry. apply firstn_skipn.
    - right. intros base ->. rewrite app_length in E. change (length (lit ".csv")) with 4 in E. replace (length base + 4 - 4) with (length base + 0) in E by lia.
      rewrite skipn_app, skipn_all2 in E by lia. replace (length base + 0 - length base) with 0 in E by lia. cbn [skipn app] in E. rewrite (proj2 (str_eqb_iff _ _) eq_refl) in E. discriminate. }
  destruct X as [(base & E)|N].
  - rewrite (B base E) in H. injection H as <-. exact (B base E).
  - rewrite (D L N) in H. injection H as <-. apply (proj1 (proj2 (C51_extension (fname ++ lit ".csv"))) fname eq_refl).
Qed.
Print Assumptions C51_extension_once.
Example C51_extension_nonvacuous : append_file_extension (lit "a.txt") = Some (lit "a.txt.csv") /\ append_file_extension (lit "data") = Some (lit "data.csv")
  /\ append_file_extension (lit "a.csv") = Some (lit "a.csv") /\ append_file_extension (lit "out") = None.
Proof. repeat split. Qed.

(** After any calls NumNodes is the number of nodes of the field that was added
    first, and panics exactly if none was added. *)
Theorem C83_num_nodes : forall cs m nodes, run_calls new_mstate cs = Ok m ->
  (forall before name after, cs = before ++ CField name :: after -> (forall n, ~ In (CField n) before) -> num_nodes_of m nodes = Ok (nodes name))
  /\ (num_nodes_of m nodes = Panic <-> forall n, ~ In (CField n) cs).
Proof.
  intros cs m nodes H. assert (T := tracked_run _ _ H). unfold num_nodes_of. rewrite (tk_fields _ _ T).
  assert (No : forall l, (forall n, ~ In (CField n) l) -> fields_of l = []).
  { induction l as [|c l IH]; intros Hl; [reflexivity|]. cbn. destruct c; try (apply IH; intros n Hn; apply (Hl n); right; exact Hn). exfalso. apply (Hl name). left. reflexivity. }
  split.
  - intros before name after -> Hb. unfold fields_of. rewrite flat_map_app. fold (fields_of before). rewrite (No before Hb). reflexivity.
  - split.
    + destruct (fields_of cs) as [|f l] eqn:E; [|discriminate]. intros _ n Hn. assert (In n (fields_of cs)) by (apply in_flat_map; exists (CField n); split; [exact Hn|left; reflexivity]).
      rewrite E in *. contradiction.
    + intros Hn. rewrite (No cs Hn). reflexivity.
Qed.
Print Assumptions C83_num_nodes.
Example C83_num_nodes_nonvacuous : exists m, run_calls new_mstate [CScalar (lit "a"); CField (lit "conc"); CField (lit "eta")] = Ok m
  /\ num_nodes_of m (fun _ => 7) = Ok 7.
Proof. eexists. split; [vm_compute; reflexivity|reflexivity]. Qed.

(** AllVariableNames lists every field, scalar, registered function and derived
    field of a registered term, and otherwise only names that equations may use;
    each once. *)
Theorem C82_variable_names : forall cs m order, run_calls new_mstate cs = Ok m -> some_order order ->
  NoDup (all_variable_names order m)
  /\ incl (fields_of cs ++ scalars_of cs ++ functions_of cs) (all_variable_names order m)
  /\ forall n, In n (all_variable_names order m) <-> is_brick (ms_names m) n = true.
Proof.
  intros cs m order H Ho. assert (T := tracked_run _ _ H). unfold all_variable_names. set (l := all_field_names (ms_names m) ++ pm_scalars (ms_names m)).
  assert (P := Ho (distinct l)). assert (I : forall n, In n (order (distinct l)) <-> In n l).
  { intros n. rewrite <- (distinct_In l n). split; apply Permutation_in; [exact P|apply Permutation_sym, P]. }
  split; [apply (Permutation_NoDup (Permutation_sym P)), distinct_NoDup|]. split.
  - intros n Hn. apply I. unfold l. apply in_or_app. rewrite !in_app_iff in Hn. destruct Hn as [Hn|[Hn|Hn]].
    + left. unfold all_field_names. apply in_or_app. left. rewrite (tk_fields _ _ T). exact Hn.
    + right. rewrite (tk_scalars _ _ T). exact Hn.
    + left. apply (tk_functions _ _ T). exact Hn.
  - intros n. rewrite I. unfold l, is_brick. rewrite in_app_iff, Bool.orb_true_iff, !mem_str_In. reflexivity.
Qed.
Print Assumptions C82_variable_names.
Example C82_variable_names_nonvacuous : exists m, run_calls new_mstate [CScalar (lit "a"); CField (lit "conc"); CFunction (lit "f")] = Ok m
  /\ all_variable_names (fun l => l) m = [lit "conc"; lit "f"; lit "a"].
Proof. eexists. split; [vm_compute; reflexivity|reflexivity]. Qed.
