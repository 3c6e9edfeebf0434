(** Proofs about JSONifyMonitors and the reader of JsonSpec. *)
From Verif Require Import ListAux FileModel FileProofs JsonModel JsonSpec.
From Coq Require Import String Lia Bool.
From Verif Require Import CliModel CliProofs5.
From Coq Require Import List. Import ListNotations.
Open Scope nat_scope.

Lemma str_eqb_head c s d t : c <> d -> str_eqb (c :: s) (d :: t) = false.
Proof. intros H. unfold str_eqb. destruct (list_eq_dec ascii_dec (c :: s) (d :: t)) as [E|]; [injection E as E _; contradiction|reflexivity]. Qed.

(** ** Strings *)
Lemma char_step c rest : (N_of_ascii c < 128)%N ->
  read_string (json_char c ++ rest) = match read_string rest with Some (r, s) => Some (c :: r, s) | None => None end.
Proof. destruct c as [[] [] [] [] [] [] [] []]; intros H; try (exfalso; vm_compute in H; discriminate H); reflexivity. Qed.
Lemma string_step s rest : ascii_text s -> read_string (flat_map json_char s ++ quote :: rest) = Some (s, rest).
Proof.
  induction s as [|c s IH]; intros H; [reflexivity|]. inversion H. subst. cbn [flat_map]. rewrite <- app_assoc, char_step, IH by assumption. reflexivity.
Qed.

(** ** What can be read in front of a separator *)
Definition stops (rest : str) : Prop := match rest with [] => False | c :: _ => c = ","%char \/ c = "]"%char \/ c = "}"%char end.
Definition starts (t : str) : Prop := match t with [] => False | c :: _ => white c = false /\ Ascii.eqb c "]" = false end.
Definition good (d : nat) (t : str) (v : jvalue) : Prop :=
  starts t /\ forall f rest, d <= f -> stops rest -> read_value f (t ++ rest) = Some (v, rest).

Lemma good_string s : ascii_text s -> good 1 (json_string s) (JString s).
Proof.
  intros H. split; [split; reflexivity|]. intros f rest Hf _. destruct f as [|f]; [lia|]. unfold json_string. rewrite <- !app_assoc.
  change (read_value (S f) ([ascii_of_N 34] ++ flat_map json_char s ++ [ascii_of_N 34] ++ rest)) with (match read_string (flat_map json_char s ++ quote :: rest) with Some (t, s2) => Some (JString t, s2) | None => None end).
  rewrite string_step by exact H. reflexivity.
Qed.
Lemma number_head c : number_char c = true ->
  white c = false /\ Ascii.eqb c "]" = false /\ Ascii.eqb c "[" = false /\ Ascii.eqb c "{" = false /\ Ascii.eqb c quote = false /\ c <> "n"%char /\ c <> "t"%char /\ c <> "f"%char.
Proof. destruct c as [[] [] [] [] [] [] [] []]; intros H; try discriminate H; repeat split; reflexivity || discriminate. Qed.
Lemma take_all p : forall t rest, forallb p t = true -> match rest with [] => True | c :: _ => p c = false end -> take_while p (t ++ rest) = t /\ drop_while p (t ++ rest) = rest.
Proof.
  induction t as [|c t IH]; intros rest H Hr.
  - destruct rest as [|c rest]; [split; reflexivity|]. cbn. rewrite Hr. split; reflexivity.
  - cbn in H. apply andb_prop in H. destruct H as (H1 & H2). cbn. rewrite H1. destruct (IH rest H2 Hr) as (-> & ->). split; reflexivity.
Qed.
Lemma good_number t : is_number t = true -> good 1 t (JNumber t).
Proof.
  intros H. assert (Hall : forallb number_char t = true) by (unfold is_number in H; apply andb_prop in H; destruct H as (H & _); apply andb_prop in H; exact (proj1 H)).
  destruct t as [|c t]; [discriminate H|]. assert (Hc : number_char c = true) by (cbn in Hall; apply andb_prop in Hall; exact (proj1 Hall)).
  destruct (number_head c Hc) as (W & E1 & E2 & E3 & E4 & E5 & E6 & E7). split; [split; assumption|].
  intros f rest Hf Hr. destruct f as [|f]; [lia|]. assert (Hr' : match rest with [] => True | c :: _ => number_char c = false end) by (destruct rest as [|x rest]; [exact I|]; destruct Hr as [->|[->| ->]]; reflexivity).
  destruct (take_all number_char (c :: t) rest Hall Hr') as (T1 & T2). cbn [app] in *.
  assert (D : drop_while white (c :: t ++ rest) = c :: t ++ rest) by (cbn [drop_while]; rewrite W; reflexivity).
  cbn [read_value]. rewrite D, E2, E3, E4. cbn [firstn].
  change (lit "null") with ("n"%char :: lit "ull"). change (lit "true") with ("t"%char :: lit "rue"). change (lit "false") with ("f"%char :: lit "alse").
  rewrite !str_eqb_head by assumption. cbv zeta. rewrite T1, T2, H. reflexivity.
Qed.
Lemma good_null : good 1 (lit "null") JNull.
Proof. split; [split; reflexivity|]. intros f rest Hf _. destruct f as [|f]; [lia|]. reflexivity. Qed.
Lemma good_more d d' t v : good d t v -> d <= d' -> good d' t v.
Proof. intros (H1 & H2) H. split; [exact H1|]. intros f rest Hf. apply H2. lia. Qed.

Lemma stop_head c rest : c = ","%char \/ c = "]"%char \/ c = "}"%char -> drop_while white (c :: rest) = c :: rest.
Proof. intros [->|[->| ->]]; reflexivity. Qed.
Lemma read_list d : forall l, l <> [] -> Forall (fun tv => good d (fst tv) (snd tv)) l -> forall f rest, d + List.length l <= f ->
  read_items f (join_char "," (map fst l) ++ "]"%char :: rest) = Some (map snd l, rest).
Proof.
  induction l as [|(t, v) l IH]; intros Hl Hg f rest Hf; [contradiction|]. inversion Hg as [|? ? G1 G2]. subst. cbn [fst snd] in G1. cbn [List.length] in Hf.
  destruct f as [|f]; [lia|]. destruct l as [|tv l].
  - cbn [map join_char fst snd read_items]. rewrite (proj2 G1) by (lia || (cbn; auto)). rewrite stop_head by auto. reflexivity.
  - change (join_char "," (map fst ((t, v) :: tv :: l))) with (t ++ ","%char :: join_char "," (map fst (tv :: l))). rewrite <- app_assoc. cbn [read_items app].
    rewrite (proj2 G1) by (lia || (cbn; auto)). rewrite stop_head by auto. cbn [Ascii.eqb Bool.eqb]. rewrite IH by (discriminate || assumption || lia). reflexivity.
Qed.
Lemma good_array d l : Forall (fun tv => good d (fst tv) (snd tv)) l ->
  starts (json_array (map fst l)) /\ forall f rest, d + List.length l < f -> read_value f (json_array (map fst l) ++ rest) = Some (JArray (map snd l), rest).
Proof.
  intros Hg. split; [split; reflexivity|]. intros f rest Hf. destruct f as [|f]; [lia|]. destruct l as [|(t, v) l]; [reflexivity|].
  set (L := (t, v) :: l) in *. unfold json_array. rewrite <- !app_assoc. change (lit "]" ++ rest) with ("]"%char :: rest). change (lit "[" ++ join_char "," (map fst L) ++ "]"%char :: rest) with ("["%char :: (join_char "," (map fst L) ++ "]"%char :: rest)).
  assert (E : exists c s, join_char "," (map fst L) ++ "]"%char :: rest = c :: s /\ white c = false /\ Ascii.eqb c "]" = false).
  { inversion Hg as [|? ? G1 _]. cbn [fst] in G1. destruct G1 as (G1 & _). destruct t as [|c t]; [contradiction|]. destruct G1 as (W & N). unfold L. cbn [map fst].
    destruct l as [|tv l]; cbn [map join_char app]; eauto. }
  destruct E as (c & s & E & W & N). cbn [read_value]. change (drop_while white ("["%char :: ?x)) with ("["%char :: x). cbv iota. rewrite Ascii.eqb_refl.
  assert (R := read_list d L ltac:(discriminate) Hg f rest ltac:(lia)). rewrite E in *. cbn [drop_while]. rewrite W, N, R. reflexivity.
Qed.
Lemma key_step k f rest : ascii_text (lit k) ->
  read_members (S f) (json_key k ++ rest) =
  match read_value f rest with
  | None => None
  | Some (v, s3) =>
      match drop_while white s3 with
      | [] => None
      | d :: s4 => if Ascii.eqb d "}" then Some ([(lit k, v)], s4)
                   else if Ascii.eqb d "," then match read_members f s4 with Some (l, s5) => Some ((lit k, v) :: l, s5) | None => None end else None
      end
  end.
Proof.
  intros H. unfold json_key, json_string. rewrite <- !app_assoc. cbn [read_members]. change (drop_while white ([ascii_of_N 34] ++ ?x)) with (quote :: x). cbv iota. rewrite Ascii.eqb_refl.
  change ([ascii_of_N 34] ++ lit ":" ++ rest) with (quote :: lit ":" ++ rest). rewrite string_step by exact H. reflexivity.
Qed.
Lemma member_more k d t v f rest : ascii_text (lit k) -> good d t v -> d <= f ->
  read_members (S f) (json_key k ++ t ++ lit "," ++ rest) = match read_members f rest with Some (l, s5) => Some ((lit k, v) :: l, s5) | None => None end.
Proof. intros H G Hf. rewrite key_step by exact H. rewrite (proj2 G) by (assumption || (cbn; auto)). reflexivity. Qed.
Lemma member_last k d t v f rest : ascii_text (lit k) -> good d t v -> d <= f -> read_members (S f) (json_key k ++ t ++ lit "}" ++ rest) = Some ([(lit k, v)], rest).
Proof. intros H G Hf. rewrite key_step by exact H. rewrite (proj2 G) by (assumption || (cbn; auto)). reflexivity. Qed.

(** ** The decimals of the site *)
Lemma dec_fuel_head f : forall n, (0 < n < 2 ^ Z.of_nat f)%Z -> exists c s, dec_fuel f n = c :: s /\ Ascii.eqb c "0" = false.
Proof.
  induction f as [|f IH]; intros n Hn; [cbn in Hn; lia|]. cbn [dec_fuel]. destruct (n <? 10)%Z eqn:E.
  - apply Z.ltb_lt in E. exists (digit_of n), []. split; [reflexivity|].
    assert (C : (n = 1 \/ n = 2 \/ n = 3 \/ n = 4 \/ n = 5 \/ n = 6 \/ n = 7 \/ n = 8 \/ n = 9)%Z) by lia. destruct C as [->|[->|[->|[->|[->|[->|[->|[->| ->]]]]]]]]; reflexivity.
  - apply Z.ltb_ge in E. destruct (IH (n / 10)%Z) as (c & s & -> & Hc).
    { rewrite Nat2Z.inj_succ, Z.pow_succ_r in Hn by lia. split; [apply Z.div_str_pos; lia|]. apply Z.div_lt_upper_bound; lia. }
    exists c, (s ++ [digit_of (n mod 10)]). split; [reflexivity|exact Hc].
Qed.
Lemma dec_nat_head n : (0 <= n)%Z -> match dec_nat n with [] => False | [_] => True | c :: _ => Ascii.eqb c "0" = false end.
Proof.
  intros H. destruct (Z.eq_dec n 0) as [->|N]; [exact I|]. unfold dec_nat. destruct (dec_fuel_head (S (Z.to_nat (Z.log2 n))) n) as (c & s & -> & Hc).
  { split; [lia|]. rewrite Nat2Z.inj_succ, Z2Nat.id by apply Z.log2_nonneg. apply Z.log2_spec. lia. }
  destruct s; [exact I|exact Hc].
Qed.
Lemma digits_number s : forallb digit_c s = true -> forallb number_char s = true.
Proof. intros H. apply forallb_forall. intros c Hc. unfold number_char. rewrite forallb_forall in H. rewrite (H c Hc). reflexivity. Qed.
Lemma dec_number z : is_number (dec z) = true.
Proof.
  assert (P : forall n, (0 <= n)%Z -> forallb number_char (dec_nat n) = true /\ match take_while digit_c (dec_nat n) with [] => false | [_] => true | c :: _ => negb (Ascii.eqb c "0") end = true /\ drop_while digit_c (dec_nat n) = []).
  { intros n Hn. destruct (dec_nat_spec n Hn) as (D & _ & _). assert (Hh := dec_nat_head n Hn). destruct (take_all digit_c (dec_nat n) [] D I) as (T1 & T2). rewrite app_nil_r in T1, T2. rewrite T1, T2.
    split; [exact (digits_number _ D)|]. split; [|reflexivity]. destruct (dec_nat n) as [|c [|c2 s]]; [contradiction|reflexivity|]. rewrite Hh. reflexivity. }
  unfold dec. destruct (z <? 0)%Z eqn:E.
  - apply Z.ltb_lt in E. destruct (P (- z)%Z ltac:(lia)) as (P1 & P2 & P3). unfold is_number. change (Ascii.eqb minus_c "-") with true. cbv iota zeta. cbn [forallb]. rewrite P1, P2, P3. reflexivity.
  - apply Z.ltb_ge in E. destruct (P z E) as (P1 & P2 & P3). unfold is_number.
    assert (Q : match dec_nat z with c :: s' => if Ascii.eqb c "-" then s' else dec_nat z | [] => dec_nat z end = dec_nat z).
    { destruct (dec_nat z) as [|c s] eqn:Ez; [reflexivity|]. destruct (Ascii.eqb_spec c "-"); [|reflexivity]. subst c. exfalso. exact (dec_nat_no_minus z s E Ez). }
    cbv zeta. rewrite Q, P1, P2, P3. reflexivity.
Qed.

(** ** Monitors *)
Section Monitors.
  Context {V : Type}.
  Variables (fmt : V -> option str).
  Hypothesis Hfmt : forall v t, fmt v = Some t -> is_number t = true.
  Lemma numbers_good : forall l ts, json_numbers fmt l = Some ts -> Forall2 (fun v t => fmt v = Some t) l ts.
  Proof.
    induction l as [|v l IH]; intros ts H; cbn in H; [injection H as <-; constructor|]. destruct (fmt v) eqn:E; [|discriminate]. destruct (json_numbers fmt l) eqn:E2; [|discriminate]. injection H as <-. constructor; auto.
  Qed.
  Definition data_value (d : option (list V)) (v : jvalue) : Prop :=
    match d with None => v = JNull | Some l => exists ts, v = JArray (map JNumber ts) /\ Forall2 (fun x t => fmt x = Some t) l ts end.
  Definition data_size (d : option (list V)) : nat := match d with None => 0 | Some l => List.length l end.
  Lemma join_length c : forall l, List.length l <= S (List.length (join_char c l)).
  Proof. induction l as [|x [|y l] IH]; [cbn; lia|cbn; lia|]. change (join_char c (x :: y :: l)) with (x ++ c :: join_char c (y :: l)). rewrite app_length. cbn [List.length] in *. lia. Qed.
  Lemma array_length l : List.length l < List.length (json_array l).
  Proof. unfold json_array. rewrite !app_length. pose proof (join_length "," l). cbn [lit list_ascii_of_string List.length]. lia. Qed.
  Lemma data_good d t : json_data fmt d = Some t -> exists v, data_value d v /\ good (2 + data_size d) t v /\ data_size d <= List.length t.
  Proof.
    destruct d as [l|]; cbn [json_data data_value data_size].
    - destruct (json_numbers fmt l) as [ts|] eqn:E; [|discriminate]. intros H. injection H as <-. apply numbers_good in E. exists (JArray (map JNumber ts)). split; [eauto|].
      assert (Ll : List.length l = List.length ts) by (clear - E; induction E; cbn; congruence). split; [|pose proof (array_length ts); lia].
      assert (G : Forall (fun tv => good 1 (fst tv) (snd tv)) (map (fun x => (x, JNumber x)) ts)).
      { clear Ll. induction E as [|v x l ts Hv E IH]; [constructor|]. cbn [map]. constructor; [|exact IH]. exact (good_number x (Hfmt v x Hv)). }
      destruct (good_array 1 _ G) as (G1 & G2). rewrite !map_map in *. cbn [fst snd] in *. rewrite map_id in *. split; [exact G1|]. intros f rest Hf _. apply G2. rewrite map_length. lia.
    - intros H. injection H as <-. exists JNull. split; [reflexivity|]. split; [|lia]. exact (good_more 1 2 _ _ good_null ltac:(lia)).
  Qed.
  Definition monitor_value (m : jmonitor V) (v : jvalue) : Prop :=
    exists d, v = JObject [(lit "Data", d); (lit "Site", JNumber (dec (jm_site m))); (lit "Field", JString (jm_field m)); (lit "Name", JString (jm_name m))] /\ data_value (jm_data m) d.
  Lemma key_text k : In k ["Data"; "Site"; "Field"; "Name"]%string -> ascii_text (lit k).
  Proof. intros H. cbn in H. destruct H as [<-|[<-|[<-|[<-|[]]]]]; repeat constructor. Qed.
  Lemma monitor_good m t : ascii_text (jm_field m) -> ascii_text (jm_name m) -> json_monitor fmt m = Some t ->
    exists v, monitor_value m v /\ good (10 + data_size (jm_data m)) t v /\ data_size (jm_data m) <= List.length t.
  Proof.
    intros H1 H2 E. unfold json_monitor in E. destruct (json_data fmt (jm_data m)) as [t0|] eqn:Ed; [|discriminate]. assert (X := f_equal (fun o : option str => match o with Some x => x | None => [] end) E). cbv beta iota in X. subst t. clear E.
    destruct (data_good _ _ Ed) as (d & D1 & D2 & D3).
    exists (JObject [(lit "Data", d); (lit "Site", JNumber (dec (jm_site m))); (lit "Field", JString (jm_field m)); (lit "Name", JString (jm_name m))]).
    split; [exists d; auto|]. split; [|rewrite !app_length; lia]. split; [split; reflexivity|]. intros f rest Hf _.
    destruct f as [|[|[|[|[|f]]]]]; try lia.
    rewrite <- !app_assoc. change (read_value (S (S (S (S (S f))))) (lit "{" ++ json_key "Data" ++ ?x)) with (match read_members (S (S (S (S f)))) (json_key "Data" ++ x) with Some (l, s3) => Some (JObject l, s3) | None => None end).
    rewrite (member_more "Data" _ t0 d _ _ (key_text "Data" ltac:(cbn; tauto)) D2) by lia.
    rewrite (member_more "Site" 1 _ _ _ _ (key_text "Site" ltac:(cbn; tauto)) (good_number _ (dec_number (jm_site m)))) by lia.
    rewrite (member_more "Field" 1 _ _ _ _ (key_text "Field" ltac:(cbn; tauto)) (good_string _ H1)) by lia.
    rewrite (member_last "Name" 1 _ _ _ _ (key_text "Name" ltac:(cbn; tauto)) (good_string _ H2)) by lia. reflexivity.
  Qed.
  Lemma element_length : forall l x, In x l -> List.length x < List.length (json_array l).
  Proof.
    intros l x H. unfold json_array. rewrite !app_length. cbn [lit list_ascii_of_string List.length]. enough (List.length x <= List.length (join_char "," l)) by lia.
    induction l as [|y [|z l] IH]; [contradiction| |].
    - destruct H as [<-|[]]. reflexivity.
    - change (join_char "," (y :: z :: l)) with (y ++ ","%char :: join_char "," (z :: l)). rewrite app_length. cbn [List.length]. destruct H as [<-|H]; [lia|]. specialize (IH H). lia.
  Qed.
  Lemma monitors_good : forall ms ts B, Forall (fun m => ascii_text (jm_field m) /\ ascii_text (jm_name m)) ms -> json_monitors fmt ms = Some ts -> (forall t, In t ts -> List.length t <= B) ->
    exists vs, Forall2 monitor_value ms vs /\ List.length vs = List.length ts /\ Forall (fun tv => good (10 + B) (fst tv) (snd tv)) (combine ts vs).
  Proof.
    induction ms as [|m ms IH]; intros ts B HA E HB; cbn in E; [injection E as <-; exists []; repeat constructor|].
    destruct (json_monitor fmt m) as [t|] eqn:E1; [|discriminate]. destruct (json_monitors fmt ms) as [ts'|] eqn:E2; [|discriminate]. injection E as <-. inversion HA as [|? ? (A1 & A2) A3]. subst.
    destruct (monitor_good m t A1 A2 E1) as (v & Q1 & Q2 & Q3). destruct (IH ts' B A3 eq_refl (fun x Hx => HB x (or_intror Hx))) as (vs & P1 & P2 & P3).
    exists (v :: vs). split; [constructor; assumption|]. split; [cbn; lia|]. cbn [combine]. constructor; [|exact P3]. cbn [fst snd]. apply (good_more _ _ _ _ Q2). specialize (HB t (or_introl eq_refl)). lia.
  Qed.
  Theorem json_reads ms text : Forall (fun m => ascii_text (jm_field m) /\ ascii_text (jm_name m)) ms -> jsonify_monitors fmt ms = Some text ->
    exists vs, read_json text = Some (JArray vs) /\ Forall2 monitor_value ms vs.
  Proof.
    intros HA E. unfold jsonify_monitors in E. destruct (json_monitors fmt ms) as [ts|] eqn:E1; [|discriminate]. injection E as <-.
    destruct (monitors_good ms ts (List.length (json_array ts)) HA E1) as (vs & P1 & P2 & P3); [intros t Ht; pose proof (element_length ts t Ht); lia|].
    exists vs. split; [|exact P1]. destruct (good_array _ _ P3) as (_ & G). assert (F : map fst (combine ts vs) = ts /\ map snd (combine ts vs) = vs).
    { clear - P2. revert vs P2. induction ts as [|t ts IH]; intros [|v vs] H; try discriminate; [split; reflexivity|]. cbn in *. destruct (IH vs ltac:(lia)) as (-> & ->). split; reflexivity. }
    destruct F as (F1 & F2). rewrite F1, F2 in G. unfold read_json. specialize (G (20 + 2 * List.length (json_array ts)) []). rewrite app_nil_r in G. rewrite G; [reflexivity|].
    rewrite combine_length. pose proof (array_length ts). lia.
  Qed.
End Monitors.
