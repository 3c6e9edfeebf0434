From Verif Require Import ListAux FileModel CliModel ParseProofs RegistrySpec EquationProofs4 RegistryProofs RegistryProofs2.
From Coq Require Import Lia.
Open Scope nat_scope.

(** ** Init *)
Lemma build_all_length m eqs r : build_all m eqs = Ok r -> length r = length eqs.
Proof.
  revert r. induction eqs as [|e eqs IH]; intros r H; cbn [build_all] in H; [injection H as <-; reflexivity|].
  destruct (build (ms_names m) e) as [td| |]; try discriminate. cbn [bind] in H.
  destruct (build_all m eqs) as [r'| |]; try discriminate. cbn [bind] in H. injection H as <-. cbn [length]. f_equal. apply IH. reflexivity.
Qed.
Lemma build_all_nth m eqs r i t d : build_all m eqs = Ok r -> nth_error r i = Some (t, d) ->
  exists e bt bd, nth_error eqs i = Some e /\ build (ms_names m) e = Ok (bt, bd) /\ t = map (resolve m) bt /\ d = map (resolve m) bd.
Proof.
  revert r i. induction eqs as [|e eqs IH]; intros r i H Hi; cbn [build_all] in H; [injection H as <-; destruct i; discriminate|].
  destruct (build (ms_names m) e) as [[bt bd]| |] eqn:Eb; try discriminate. cbn [bind] in H.
  destruct (build_all m eqs) as [r'| |]; try discriminate. cbn [bind fst snd] in H. injection H as <-. destruct i as [|i]; cbn [nth_error] in *.
  - injection Hi as <- <-. exists e, bt, bd. auto.
  - apply (IH r' i eq_refl Hi).
Qed.
Lemma build_all_same m m' eqs : ms_names m = ms_names m' -> ms_implicit m = ms_implicit m' -> ms_explicit m = ms_explicit m' ->
  ms_mixed m = ms_mixed m' -> build_all m eqs = build_all m' eqs.
Proof.
  intros H1 H2 H3 H4. assert (R : forall l, map (resolve m) l = map (resolve m') l).
  { intros l. apply map_ext. intros b. unfold resolve. rewrite H2, H3, H4. reflexivity. }
  induction eqs as [|e eqs IH]; [reflexivity|]. cbn [build_all]. rewrite H1, IH. destruct (build _ e) as [td| |]; cbn [bind]; try reflexivity.
  rewrite !R. reflexivity.
Qed.

Lemma init_again m m' : call_init m = Ok m' -> call_init m' = Ok m'.
Proof.
  unfold call_init. destruct (build_all m (ms_equations m)) as [r| |] eqn:E; try discriminate. cbn [bind]. intros H. injection H as <-.
  cbn [ms_equations]. match goal with |- context [build_all ?x _] => rewrite (build_all_same x m) by reflexivity end.
  rewrite E. reflexivity.
Qed.

Definition entry_ok (cs : list call) (e : entry) : Prop :=
  match fst e with
  | BTerm _ => snd e = None
  | BImplicit n _ => exists t, snd e = Some t /\ registered cs KImplicit n t
  | BExplicit n _ => exists t, snd e = Some t /\ registered cs KExplicit n t
  | BLinear n _ => exists t, snd e = Some t /\ registered cs KMixed n t
  | BNonLinear n _ => exists t, snd e = Some t /\ registered cs KMixed n t
  end.
Lemma resolve_ok cs m b : tracked cs m -> names_ok (ms_names m) b -> entry_ok cs (resolve m b).
Proof.
  intros T. unfold entry_ok, resolve. cbn [fst snd]. destruct b as [t|n p|n p|n p|n p]; cbn [names_ok]; intros H; [reflexivity| | | |].
  - rewrite (tk_implicit _ _ T) in H. apply terms_of_registered in H. destruct H as (t & H). exists t. split; [|exact H]. exact (proj2 (tk_table _ _ T KImplicit n t) H).
  - rewrite (tk_explicit _ _ T) in H. apply terms_of_registered in H. destruct H as (t & H). exists t. split; [|exact H]. exact (proj2 (tk_table _ _ T KExplicit n t) H).
  - rewrite (tk_mixed _ _ T) in H. apply terms_of_registered in H. destruct H as (t & H). exists t. split; [|exact H]. exact (proj2 (tk_table _ _ T KMixed n t) H).
  - rewrite (tk_mixed _ _ T) in H. apply terms_of_registered in H. destruct H as (t & H). exists t. split; [|exact H]. exact (proj2 (tk_table _ _ T KMixed n t) H).
Qed.
Lemma init_entries cs m : run_calls new_mstate (cs ++ [CInit]) = Ok m ->
  length (ms_rhs m) = length (equations_of cs)
  /\ forall i t d e, nth_error (ms_rhs m) i = Some (t, d) -> In e (t ++ d) -> entry_ok cs e.
Proof.
  intros H. apply run_calls_snoc in H. destruct H as (m1 & E1 & E2). cbn [run_call] in E2.
  assert (T := tracked_run _ _ E1). unfold call_init in E2.
  destruct (build_all m1 (ms_equations m1)) as [r| |] eqn:E; try discriminate. cbn [bind] in E2. injection E2 as <-. cbn [ms_rhs]. split.
  - rewrite (build_all_length _ _ _ E), (tk_equations _ _ T), map_length. reflexivity.
  - intros i t d e Hi He. destruct (build_all_nth _ _ _ _ _ _ E Hi) as (q & bt & bd & _ & Eb & -> & ->).
    destruct (build_names _ _ _ _ Eb) as [N1 N2]. rewrite <- map_app in He. apply in_map_iff in He. destruct He as (b & <- & Hb).
    apply resolve_ok; [exact T|]. rewrite Forall_forall in N1, N2. apply in_app_or in Hb. destruct Hb; auto.
Qed.

Lemma run_call_rhs m c m' : run_call m c = Ok m' -> c <> CInit -> ms_rhs m' = ms_rhs m.
Proof.
  intros H Hc. destruct c as [n|n|n|k n t ds|text|eq s|]; cbn [run_call] in H; try congruence.
  - unfold call_field, checked in H. destruct (name_ok n); [|discriminate]. injection H as <-. reflexivity.
  - unfold call_scalar, checked in H. destruct (name_ok n); [|discriminate]. injection H as <-. reflexivity.
  - unfold call_function, checked in H. destruct (name_ok n); [|discriminate]. cbn [bind] in H.
    destruct (pm_fields _); [discriminate|]. injection H as <-. reflexivity.
  - unfold call_term, checked in H. destruct (name_ok n); [|discriminate]. cbn [bind] in H. injection H as <-. reflexivity.
  - unfold call_equation in H. destruct (add_equation _ _); try discriminate. cbn [bind] in H. injection H as <-. reflexivity.
  - unfold call_source in H. destruct (eq <? 0)%Z; [discriminate|]. destruct (append_at _ _ _); [|discriminate]. injection H as <-. reflexivity.
Qed.
Lemma run_calls_rhs cs m m' : run_calls m cs = Ok m' -> ~ In CInit cs -> ms_rhs m' = ms_rhs m.
Proof.
  revert m. induction cs as [|c cs IH]; intros m H Hc; cbn [run_calls] in H; [injection H as <-; reflexivity|].
  destruct (run_call m c) as [m1| |] eqn:E; try discriminate. cbn [bind] in H.
  rewrite (IH m1 H) by (intros Hin; apply Hc; right; exact Hin). apply (run_call_rhs m c m1 E). intros ->. apply Hc. left. reflexivity.
Qed.

Lemma equations_app a b : equations_of (a ++ b) = equations_of a ++ equations_of b.
Proof. unfold equations_of. apply flat_map_app. Qed.

(** ** Summarize *)
Lemma summary_line_row i text ne ni : row_of [dec (Z.of_nat i); text; dec (Z.of_nat ne); dec (Z.of_nat ni)] (summary_line i text ne ni).
Proof.
  unfold summary_line, pad_left, pad_right. cbn [row_of].
  set (a := 2 - length (dec (Z.of_nat i))). set (b := 70 - length text).
  set (c := 2 - length (dec (Z.of_nat ne))). set (d := 2 - length (dec (Z.of_nat ni))).
  assert (He : forall n (r : str), repeat blank n ++ lit " " ++ r = repeat " "%char (S n) ++ r).
  { intros n r. rewrite app_assoc. f_equal. change (lit " ") with [blank]. rewrite <- repeat_cons. reflexivity. }
  exists (S a), 1, (lit "|" ++ repeat " "%char 1 ++ text ++ repeat " "%char (S b) ++ lit "|" ++ repeat " "%char (S c) ++ dec (Z.of_nat ne) ++ repeat " "%char 1
     ++ lit "|" ++ repeat " "%char (S d) ++ dec (Z.of_nat ni) ++ repeat " "%char 1 ++ lit "|"). split.
  { rewrite <- !app_assoc. change (lit "| ") with (lit "|" ++ lit " "). change (lit " | ") with (lit " " ++ lit "|" ++ lit " ").
    change (lit " |") with (lit " " ++ lit "|"). rewrite <- !app_assoc. rewrite (He b). reflexivity. }
  exists 1, (S b), (lit "|" ++ repeat " "%char (S c) ++ dec (Z.of_nat ne) ++ repeat " "%char 1
     ++ lit "|" ++ repeat " "%char (S d) ++ dec (Z.of_nat ni) ++ repeat " "%char 1 ++ lit "|"). split; [reflexivity|].
  exists (S c), 1, (lit "|" ++ repeat " "%char (S d) ++ dec (Z.of_nat ni) ++ repeat " "%char 1 ++ lit "|"). split; [reflexivity|].
  exists (S d), 1, (lit "|"). split; reflexivity.
Qed.

Lemma summary_lines_spec eqs : forall k rhs, length rhs = length eqs ->
  length (summary_lines k eqs rhs) = length eqs
  /\ forall i e t d, nth_error eqs i = Some e -> nth_error rhs i = Some (t, d) ->
     exists line, nth_error (summary_lines k eqs rhs) i = Some line
     /\ row_of [dec (Z.of_nat (k + i)); e; dec (Z.of_nat (length t)); dec (Z.of_nat (length d))] line.
Proof.
  induction eqs as [|e eqs IH]; intros k [|[t d] rhs] H; try discriminate.
  - split; [reflexivity|]. intros [|i]; discriminate.
  - injection H as H. destruct (IH (S k) rhs H) as [A B]. cbn [summary_lines length]. split; [f_equal; exact A|].
    intros [|i] e' t' d' He Hr; cbn [nth_error] in *.
    + injection He as <-. injection Hr as <- <-. eexists. split; [reflexivity|]. rewrite Nat.add_0_r. apply summary_line_row.
    + rewrite <- plus_n_Sm. apply (B i e' t' d' He Hr).
Qed.
