(** C119: the JSON text of the monitors. *)
From Verif Require Import ListAux FileModel JsonModel JsonSpec JsonProofs.
From Verif Require Import CliModel CliProofs5.
From Coq Require Import String Lia Bool List. Import ListNotations.

(** The object of JSON [v] holds the values of a monitor: its data as numbers in
    the order in which they were recorded (null if there is no slice), its site,
    the name of its field and its own name. *)
Definition describes {V} (parse : str -> option V) (v : jvalue) (m : jmonitor V) : Prop :=
  match jm_data m with
  | None => member "Data" v = Some JNull
  | Some d => exists ts, member "Data" v = Some (JArray (map JNumber ts)) /\ map parse ts = map Some d
  end
  /\ (exists t, member "Site" v = Some (JNumber t) /\ atoi t = Some (jm_site m))
  /\ member "Field" v = Some (JString (jm_field m))
  /\ member "Name" v = Some (JString (jm_name m)).
Definition ascii_names {V} (ms : list (jmonitor V)) : Prop := Forall (fun m => ascii_text (jm_field m) /\ ascii_text (jm_name m)) ms.
(** What encoding/json and strconv promise: a finite value is written as a number
    of JSON that is read back as the same value. *)
Definition writes_back {V} (fmt : V -> option str) (parse : str -> option V) : Prop :=
  forall v t, fmt v = Some t -> is_number t = true /\ parse t = Some v.

(** Whatever a reader of JSON is given, it finds one object per monitor, in the
    order in which the monitors were added, with the recorded values. *)
Theorem C119_read_back : forall V (fmt : V -> option str) parse, writes_back fmt parse ->
  forall ms text, ascii_names ms -> jsonify_monitors fmt ms = Some text ->
  exists vs, read_json text = Some (JArray vs) /\ Forall2 (describes parse) vs ms.
Proof.
  intros V fmt parse HW ms text HA E. destruct (json_reads fmt (fun v t H => proj1 (HW v t H)) ms text HA E) as (vs & R & F). exists vs. split; [exact R|].
  clear R E HA. induction F as [|m v ms vs (d & -> & Hd) F IH]; constructor; [|exact IH]. unfold describes. cbn [member under].
  change (str_eqb (lit "Data") (lit "Data")) with true. change (str_eqb (lit "Site") (lit "Data")) with false. change (str_eqb (lit "Site") (lit "Site")) with true.
  change (str_eqb (lit "Field") (lit "Data")) with false. change (str_eqb (lit "Field") (lit "Site")) with false. change (str_eqb (lit "Field") (lit "Field")) with true.
  change (str_eqb (lit "Name") (lit "Data")) with false. change (str_eqb (lit "Name") (lit "Site")) with false. change (str_eqb (lit "Name") (lit "Field")) with false. change (str_eqb (lit "Name") (lit "Name")) with true.
  cbv iota. split; [|split; [eexists; split; [reflexivity|apply atoi_dec]|split; reflexivity]].
  destruct (jm_data m) as [l|]; cbn [data_value] in Hd; [|rewrite Hd; reflexivity]. destruct Hd as (ts & -> & H2). exists ts. split; [reflexivity|].
  clear - H2 HW. induction H2 as [|x t l ts Hx H2 IH]; [reflexivity|]. cbn [map]. rewrite (proj2 (HW x t Hx)), IH. reflexivity.
Qed.
Print Assumptions C119_read_back.

Lemma describes_one {V} (parse : str -> option V) v m m' : describes parse v m -> describes parse v m' -> m = m'.
Proof.
  intros (A1 & (t & A2 & A3) & A4 & A5) (B1 & (t' & B2 & B3) & B4 & B5).
  assert (S : jm_site m = jm_site m') by congruence. assert (F : jm_field m = jm_field m') by congruence. assert (N : jm_name m = jm_name m') by congruence.
  assert (D : jm_data m = jm_data m').
  { destruct (jm_data m) as [d|], (jm_data m') as [d'|].
    - destruct A1 as (ts & E1 & E2), B1 as (ts' & E3 & E4). rewrite E1 in E3. injection E3 as E3.
      assert (ts = ts') by (clear - E3; revert ts' E3; induction ts as [|a ts IH]; intros [|b ts'] H; try discriminate; [reflexivity|]; cbn in H; injection H as -> H; f_equal; apply IH; exact H).
      subst ts'. f_equal. rewrite E2 in E4. clear - E4. revert d' E4. induction d as [|a d IH]; intros [|b d'] H; try discriminate; [reflexivity|]. cbn in H. injection H as -> H. f_equal. apply IH. exact H.
    - destruct A1 as (ts & E1 & _). congruence.
    - destruct B1 as (ts & E1 & _). congruence.
    - reflexivity. }
  destruct m, m'. cbn in *. congruence.
Qed.
(** Two solvers whose monitors give the same text have the same monitors. *)
Theorem C119_same_text : forall V (fmt : V -> option str) parse, writes_back fmt parse ->
  forall ms ms' text, ascii_names ms -> ascii_names ms' -> jsonify_monitors fmt ms = Some text -> jsonify_monitors fmt ms' = Some text -> ms = ms'.
Proof.
  intros V fmt parse HW ms ms' text H H' E E'. destruct (C119_read_back V fmt parse HW ms text H E) as (vs & R & F). destruct (C119_read_back V fmt parse HW ms' text H' E') as (vs' & R' & F').
  rewrite R in R'. injection R' as <-. clear - F F'. revert ms' F'. induction F as [|v m vs ms Hm F IH]; intros ms' F'; inversion F' as [|? m' ? ms2 Hm' F2]; [reflexivity|]. subst. f_equal; [exact (describes_one parse v m m' Hm Hm')|exact (IH ms2 F2)].
Qed.
Print Assumptions C119_same_text.

(** JSONifyMonitors panics exactly if some monitor recorded a value that is not
    finite: after a run that diverged nothing is returned, also for the monitors
    whose data are finite. *)
Theorem C119_panics : forall V (fmt : V -> option str) ms,
  jsonify_monitors fmt ms = None <-> exists m d v, In m ms /\ jm_data m = Some d /\ In v d /\ fmt v = None.
Proof.
  intros V fmt ms.
  assert (N : forall l, json_numbers fmt l = None <-> exists v, In v l /\ fmt v = None).
  { induction l as [|v l IH]; cbn [json_numbers]; [split; [discriminate|intros (v & [] & _)]|]. destruct (fmt v) as [t|] eqn:E.
    - destruct (json_numbers fmt l) as [ts|] eqn:E2.
      + split; [discriminate|]. intros (w & [<-|Hw] & Hn); [congruence|]. assert (X : Some ts = None) by (apply IH; eauto). discriminate X.
      + split; [|reflexivity]. intros _. destruct (proj1 IH eq_refl) as (w & Hw & Hn). exists w. split; [right; exact Hw|exact Hn].
    - split; [|reflexivity]. intros _. exists v. split; [left; reflexivity|exact E]. }
  assert (M : forall m, json_monitor fmt m = None <-> exists d v, jm_data m = Some d /\ In v d /\ fmt v = None).
  { intros m. unfold json_monitor, json_data. destruct (jm_data m) as [d|].
    - destruct (json_numbers fmt d) as [ts|] eqn:E; cbn [option_map].
      + split; [discriminate|]. intros (d' & v & Ed & Hv). injection Ed as <-. assert (X : json_numbers fmt d = None) by (apply N; eauto). congruence.
      + split; [|reflexivity]. intros _. apply N in E. destruct E as (v & Hv). exists d, v. tauto.
    - split; [discriminate|]. intros (d & v & Ed & _). discriminate Ed. }
  unfold jsonify_monitors. induction ms as [|m ms IH]; cbn [json_monitors]; [split; [discriminate|intros (m & d & v & [] & _)]|].
  destruct (json_monitor fmt m) as [t|] eqn:E.
  - destruct (json_monitors fmt ms) as [ts|] eqn:E2; cbn [option_map] in *.
    + split; [discriminate|]. intros (m' & d & v & [<-|Hm] & H).
      * assert (X : json_monitor fmt m = None) by (apply M; exists d, v; tauto). congruence.
      * discriminate (proj2 IH (ex_intro _ m' (ex_intro _ d (ex_intro _ v (conj Hm H))))).
    + split; [|reflexivity]. intros _. destruct (proj1 IH eq_refl) as (m' & d & v & Hm & H). exists m', d, v. split; [right; exact Hm|exact H].
  - split; [|reflexivity]. intros _. apply M in E. destruct E as (d & v & H). exists m, d, v. split; [left; reflexivity|exact H].
Qed.
Print Assumptions C119_panics.

(** A monitor made by NewPointMonitor that recorded the values [vals] one after
    the other is given as a monitor of its field and site with these values. *)
Theorem C119_recorded : forall V (fmt : V -> option str) parse, writes_back fmt parse ->
  forall (l : list (Z * str * list V)) text, Forall (fun x => ascii_text (snd (fst x))) l ->
  jsonify_monitors fmt (map (fun x => fold_left jm_add (snd x) (new_jmonitor (fst (fst x)) (snd (fst x)))) l) = Some text ->
  exists vs, read_json text = Some (JArray vs)
    /\ Forall2 (fun v x => exists ts t, member "Data" v = Some (JArray (map JNumber ts)) /\ map parse ts = map Some (snd x)
                 /\ member "Site" v = Some (JNumber t) /\ atoi t = Some (fst (fst x)) /\ member "Field" v = Some (JString (snd (fst x))) /\ member "Name" v = Some (JString (lit "PointMonitor"))) vs l.
Proof.
  intros V fmt parse HW l text HA E.
  assert (A : forall (vals d : list V) site field, fold_left jm_add vals {| jm_data := Some d; jm_site := site; jm_field := field; jm_name := lit "PointMonitor" |}
    = {| jm_data := Some (d ++ vals); jm_site := site; jm_field := field; jm_name := lit "PointMonitor" |}).
  { induction vals as [|v vals IH]; intros d site field; cbn [fold_left]; [rewrite app_nil_r; reflexivity|]. unfold jm_add. cbn [jm_data jm_site jm_field jm_name]. rewrite IH, <- app_assoc. reflexivity. }
  assert (A1 : forall x : Z * str * list V, fold_left jm_add (snd x) (new_jmonitor (fst (fst x)) (snd (fst x))) = {| jm_data := Some (snd x); jm_site := fst (fst x); jm_field := snd (fst x); jm_name := lit "PointMonitor" |}) by (intros x; apply (A (snd x) [])).
  rewrite (map_ext _ _ A1) in E. match type of E with jsonify_monitors _ ?ms = _ => assert (HN : ascii_names ms) end.
  { unfold ascii_names. rewrite Forall_map. eapply Forall_impl; [|exact HA]. intros x Hx. split; [exact Hx|repeat constructor]. }
  destruct (C119_read_back V fmt parse HW _ text HN E) as (vs & R & F).
  exists vs. split; [exact R|]. clear - F. remember (map _ l) as ms eqn:Em. revert l Em. induction F as [|v m vs ms Hm F IH]; intros [|x l] Em; try discriminate; constructor.
  - cbn in Em. injection Em as -> _. destruct Hm as ((ts & D1 & D2) & (t & S1 & S2) & Fd & Nm). cbn [jm_data jm_site jm_field jm_name] in *. exists ts, t. tauto.
  - apply IH. cbn in Em. injection Em as _ Em. exact Em.
Qed.
Print Assumptions C119_recorded.

(** The text of TestJSONifyMonitors, whole numbers written as decimals, and a
    name with characters that have to be escaped. *)
Definition whole (v : option Z) : option str := option_map dec v.
Example C119_nonvacuous :
  writes_back whole (fun t => option_map Some (atoi t))
  /\ (let ms := [jm_add (new_jmonitor 0 (lit "field1")) (Some 1%Z); jm_add (new_jmonitor 1 (lit "field2")) (Some 2%Z); jm_add (new_jmonitor 0 (lit "a<b")) (Some (-3)%Z)] in
      ascii_names ms /\ jsonify_monitors whole ms = Some (lit "[{""Data"":[1],""Site"":0,""Field"":""field1"",""Name"":""PointMonitor""},{""Data"":[2],""Site"":1,""Field"":""field2"",""Name"":""PointMonitor""},{""Data"":[-3],""Site"":0,""Field"":""a\u003cb"",""Name"":""PointMonitor""}]"))
  /\ jsonify_monitors whole [new_jmonitor 0 (lit "field1"); jm_add (new_jmonitor 1 (lit "field2")) None] = None
  /\ jsonify_monitors whole [] = Some (lit "[]").
Proof.
  split; [intros [z|] t H; [|discriminate H]; injection H as <-; split; [apply dec_number|rewrite atoi_dec; reflexivity]|].
  split; [split; [repeat constructor|vm_compute; reflexivity]|]. split; vm_compute; reflexivity.
Qed.
