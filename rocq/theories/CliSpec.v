(** Vocabulary for the statements about the commands. *)
From Verif Require Export DbSpec FileSpec CliModel.
From Coq Require Export Sorting.Permutation.
Open Scope nat_scope.

(** The last element of a list with a property. *)
Definition last_with {A} (P : A -> Prop) (l : list A) (x : A) : Prop :=
  exists before after, l = before ++ x :: after /\ P x /\ forall y, In y after -> ~ P y.

(** The rows of the table of simulations with their creation times, and an
    answer of the query that sorts them, the newest first (rows created in the
    same second may come in any order). *)
Definition newest_first (rows answer : list (Z * str)) : Prop :=
  Permutation answer rows
  /\ forall i j a b, i < j -> nth_error answer i = Some a -> nth_error answer j = Some b ->
     str_le (snd b) (snd a) = true.

(** A line of a printed table with the texts [a] and [b] in its two columns. *)
Definition table_line (line a b : str) : Prop := exists i j k l,
  line = lit "| " ++ repeat blank i ++ a ++ repeat blank j ++ lit " | " ++ repeat blank k ++ b ++ repeat blank l ++ lit " |".

(** The comment a simulation has: the one stored last. *)
Definition has_comment (d : db) (sim : Z) (text : str) : Prop :=
  exists r, last_with (fun r => cr_sim r = sim) (t_comments d) r /\ cr_value r = text.
Definition no_comment (d : db) (sim : Z) : Prop := forall r, In r (t_comments d) -> cr_sim r <> sim.

(** The text shown for an attribute: a text attribute hides a number of the
    same name, later ones hide earlier ones. *)
Definition attr_text (fmtf : R -> str) (d : db) (sim : Z) (key text : str) : Prop :=
  (exists r, last_with (fun r => tr_sim r = sim /\ tr_key r = key) (t_text d) r /\ tr_value r = text)
  \/ (forall r, In r (t_text d) -> ~ (tr_sim r = sim /\ tr_key r = key))
     /\ exists r, last_with (fun r => ar_sim r = sim /\ ar_key r = key) (t_attr d) r /\ fmtf (ar_value r) = text.
Definition has_attr (d : db) (sim : Z) (key : str) : Prop :=
  (exists r, In r (t_attr d) /\ ar_sim r = sim /\ ar_key r = key)
  \/ (exists r, In r (t_text d) /\ tr_sim r = sim /\ tr_key r = key).

(** A sample of a time series. *)
Definition sample (d : db) (sim : Z) (key : str) (step : Z) (v : R) : Prop :=
  exists r, last_with (fun r => sr_sim r = sim /\ sr_key r = key /\ sr_ts r = step) (t_series d) r /\ sr_value r = v.
Definition no_sample (d : db) (sim : Z) (key : str) (step : Z) : Prop :=
  forall r, In r (t_series d) -> ~ (sr_sim r = sim /\ sr_key r = key /\ sr_ts r = step).

(** The cell of a table: line [i], column [j]. *)
Definition cell (t : records) (i j : nat) : option str :=
  match nth_error t i with Some r => nth_error r j | None => None end.

(** The order of the query is some order. *)
Definition some_order (order : list str -> list str) : Prop := forall l, Permutation (order l) l.

(** The lines [ls] show the text up to a blank, or all of it with the last line
    repeated: never words of something else, never words out of order. *)
Definition wrapped (rest : str) (ls : list str) : Prop :=
  (exists tail, ls <> [] /\ rest = join_char blank ls ++ blank :: tail)
  \/ (exists whole m, whole <> [] /\ ls = whole ++ repeat (last whole []) m /\ join_char blank whole = rest).

(** Exactly two of the three coordinates of a line are given (-1: not given). *)
Definition two_given (x y z : Z) : Prop :=
  (x = -1 /\ y <> -1 /\ z <> -1 \/ x <> -1 /\ y = -1 /\ z <> -1 \/ x <> -1 /\ y <> -1 /\ z = -1)%Z.
(** The node at [p] (two or three coordinates) is on the line; [a] is its
    coordinate along the line. *)
Definition on_line (x y z : Z) (p : list Z) (a : Z) : Prop :=
  exists px py pz, three p = [px; py; pz]
  /\ ((x = -1 /\ a = px /\ py = y /\ pz = z) \/ (y = -1 /\ a = py /\ px = x /\ pz = z) \/ (z = -1 /\ a = pz /\ px = x /\ py = y))%Z.
