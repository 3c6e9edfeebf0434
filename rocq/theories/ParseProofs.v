From Verif Require Import ListAux ParseModel ParseSpec.

(** ** Splitting *)

Definition body (t0 : str) (rest : list (ascii * str)) : str :=
  t0 ++ flat_map (fun st => fst st :: snd st) rest.

Record item := { i_lead : bool; i_d : option ascii; i_t0 : str; i_rest : list (ascii * str) }.

Definition lead_str (it : item) : str := if i_lead it then sign_text (i_d it) else [].
Definition str_of (it : item) : str := lead_str it ++ body (i_t0 it) (i_rest it).
Definition to_piece (it : item) : piece := (str_of it, i_d it).
Definition swap_st (st : ascii * str) : piece := (snd st, Some (fst st)).
Definition den (it : item) : list piece := (i_t0 it, i_d it) :: map swap_st (i_rest it).
Definition weight (it : item) : nat := (2 * (length (i_rest it) + length (lead_str it)) + 1)%nat.

Definition wf (ds : list ascii) (it : item) : Prop :=
  (forall c, In c (lead_str it) -> In c ds) /\ plain ds (i_t0 it) /\
  Forall (fun st => In (fst st) ds /\ plain ds (snd st)) (i_rest it).

Fixpoint chunks (c : ascii) (t0 : str) (rest : list (ascii * str)) : (str * list (ascii * str)) * list (str * list (ascii * str)) :=
  match rest with
  | [] => ((t0, []), [])
  | (s, t) :: rest' =>
      let '(h, hs) := chunks c t rest' in
      if Ascii.eqb c s then ((t0, []), h :: hs)
      else ((t0, (s, fst h) :: snd h), hs)
  end.

Lemma split_char_nil c s : split_char c s <> [].
Proof. destruct s as [|x s]; cbn; [discriminate|]. destruct (Ascii.eqb c x); [discriminate|]. destruct (split_char c s); discriminate. Qed.

Lemma split_char_app_free c t s : ~ In c t ->
  split_char c (t ++ s) = match split_char c s with h :: r => (t ++ h) :: r | [] => [t] end.
Proof.
  induction t as [|x t IH]; cbn [app split_char]; intros Hn.
  - destruct (split_char c s) eqn:E; [destruct (split_char_nil _ _ E)|reflexivity].
  - destruct (Ascii.eqb_spec c x); [subst; exfalso; apply Hn; left; reflexivity|].
    rewrite IH by (intros K; apply Hn; right; exact K).
    destruct (split_char c s) eqn:E; [destruct (split_char_nil _ _ E)|reflexivity].
Qed.

Lemma split_char_free c t : ~ In c t -> split_char c t = [t].
Proof. intros H. rewrite <- (app_nil_r t) at 1. rewrite split_char_app_free by assumption. cbn. rewrite app_nil_r. reflexivity. Qed.

Lemma split_body ds c : In c ds -> forall rest t0, plain ds t0 ->
  Forall (fun st => In (fst st) ds /\ plain ds (snd st)) rest ->
  split_char c (body t0 rest) =
  body (fst (fst (chunks c t0 rest))) (snd (fst (chunks c t0 rest)))
    :: map (fun h => body (fst h) (snd h)) (snd (chunks c t0 rest)).
Proof.
  intros Hc. induction rest as [|(s, t) rest IH]; intros t0 [Hne Ht0] Hr.
  - cbn. unfold body. cbn. rewrite app_nil_r. apply split_char_free. apply Ht0. assumption.
  - inversion Hr as [|? ? [Hs Ht] Hr']; subst. cbn [fst snd] in *.
    change (body t0 ((s, t) :: rest)) with (t0 ++ s :: body t rest).
    rewrite split_char_app_free by (apply Ht0; assumption).
    cbn [split_char chunks].
    rewrite (IH t Ht Hr'). destruct (chunks c t rest) as [h hs] eqn:E. cbn [fst snd] in *.
    destruct (Ascii.eqb c s).
    + reflexivity.
    + cbn. reflexivity.
Qed.

Lemma remove_empty_id l : Forall (fun s => s <> []) l -> remove_empty l = l.
Proof.
  induction 1 as [|x l Hx Hl IH]; cbn; [reflexivity|]. destruct x; [congruence|]. f_equal. exact IH.
Qed.

Lemma body_nonempty t0 rest : t0 <> [] -> body t0 rest <> [].
Proof. destruct t0; [congruence|discriminate]. Qed.

Lemma chunks_plain ds c : forall rest t0, plain ds t0 ->
  Forall (fun st => In (fst st) ds /\ plain ds (snd st)) rest ->
  Forall (fun h => plain ds (fst h) /\ Forall (fun st => In (fst st) ds /\ plain ds (snd st)) (snd h))
    (fst (chunks c t0 rest) :: snd (chunks c t0 rest)).
Proof.
  induction rest as [|(s, t) rest IH]; intros t0 Ht0 Hr.
  - cbn. constructor; [cbn; auto|constructor].
  - inversion Hr as [|? ? [Hs Ht] Hr']; subst. cbn [fst snd] in *. cbn [chunks].
    specialize (IH t Ht Hr'). destruct (chunks c t rest) as [h hs]. cbn [fst snd] in *.
    inversion IH as [|? ? [Hh1 Hh2] Hhs]; subst.
    destruct (Ascii.eqb c s); cbn [fst snd].
    + constructor; [cbn; auto|assumption].
    + constructor; [|assumption]. cbn [fst snd]. split; [assumption|]. constructor; [cbn; auto|assumption].
Qed.

Lemma chunks_den c d : forall rest t0,
  (t0, d) :: map swap_st rest =
  ((fst (fst (chunks c t0 rest)), d) :: map swap_st (snd (fst (chunks c t0 rest)))) ++
  flat_map (fun h => (fst h, Some c) :: map swap_st (snd h)) (snd (chunks c t0 rest)).
Proof.
  intros rest. revert d. induction rest as [|(s, t) rest IH]; intros d t0; [reflexivity|].
  cbn [chunks map]. specialize (IH (Some s) t). change (swap_st (s, t)) with (t, Some s).
  etransitivity; [apply (f_equal (cons (t0, d))); exact IH|]. clear IH.
  destruct (chunks c t rest) as [h hs]. cbn [fst snd].
  destruct (Ascii.eqb_spec c s); subst; cbn; reflexivity.
Qed.

(** Number of separators equal to [c] and the sizes of the chunks. *)
Lemma chunks_size c : forall rest t0,
  (length (snd (fst (chunks c t0 rest))) + fold_right (fun h n => length (snd h) + n) 0 (snd (chunks c t0 rest))
   + length (snd (chunks c t0 rest)) = length rest)%nat.
Proof.
  induction rest as [|(s, t) rest IH]; intros t0; [reflexivity|]. cbn [chunks]. specialize (IH t).
  destruct (chunks c t rest) as [h hs]. cbn [fst snd] in *.
  destruct (Ascii.eqb c s); cbn [fst snd length fold_right] in *; lia.
Qed.

Lemma chunks_pos c : forall rest t0, In c (map fst rest) -> (0 < length (snd (chunks c t0 rest)))%nat.
Proof.
  induction rest as [|(s, t) rest IH]; intros t0 H; [destruct H|]. cbn [chunks]. specialize (IH t).
  destruct (chunks c t rest) as [h hs]. cbn [fst snd] in *.
  destruct (Ascii.eqb_spec c s); cbn [fst snd length]; [lia|]. apply IH.
  destruct H as [H|H]; [cbn in H; congruence|exact H].
Qed.

Lemma contains_char_In s c : contains_char s c = true <-> In c s.
Proof.
  unfold contains_char. rewrite existsb_exists. split.
  - intros (x & Hx & E). apply Ascii.eqb_eq in E. congruence.
  - intros H. exists c. split; [assumption|apply Ascii.eqb_refl].
Qed.

Lemma contains_any_true s ds : contains_any s ds = true <-> exists c, In c ds /\ In c s.
Proof.
  unfold contains_any. rewrite existsb_exists. split; intros (c & H1 & H2); exists c;
    (split; [assumption|]); apply contains_char_In; assumption.
Qed.

Lemma In_str_of ds it c : wf ds it -> In c ds ->
  (In c (str_of it) <-> In c (lead_str it) \/ In c (map fst (i_rest it))).
Proof.
  intros (Hl & Ht & Hr) Hc. unfold str_of, body. rewrite !in_app_iff.
  assert (H0 : ~ In c (i_t0 it)) by (apply Ht; assumption).
  assert (HR : In c (flat_map (fun st => fst st :: snd st) (i_rest it)) <-> In c (map fst (i_rest it))).
  { revert Hr. generalize (i_rest it). intros l Hr.
    induction Hr as [|(s, t) l [Hs Hst] Hr IH]; cbn; [tauto|]. rewrite in_app_iff, IH.
    assert (~ In c t) by (apply Hst; assumption). tauto. }
  rewrite HR. tauto.
Qed.

Definition item_of (lead : bool) (d : option ascii) (h : str * list (ascii * str)) : item :=
  {| i_lead := lead; i_d := d; i_t0 := fst h; i_rest := snd h |}.

Fixpoint sumw (l : list item) : nat :=
  match l with [] => 0%nat | it :: l' => (weight it + sumw l')%nat end.

Lemma sumw_app a b : sumw (a ++ b) = (sumw a + sumw b)%nat.
Proof. induction a as [|x a IH]; cbn [app sumw]; [reflexivity|]. rewrite IH. lia. Qed.

(** One splitting step on an item. *)
Lemma split_item ds it delim : wf ds it -> In delim ds -> In delim (str_of it) ->
  exists its, its <> [] /\
    (exists s0 ss, remove_empty (split_char delim (str_of it)) = s0 :: ss /\
       map to_piece its = (s0, i_d it) :: map (fun x => (x, Some delim)) ss) /\
    Forall (wf ds) its /\ flat_map den its = den it /\ (sumw its < weight it)%nat.
Proof.
  intros Hwf Hd Hin. pose proof (proj1 (In_str_of ds it delim Hwf Hd) Hin) as Hin'.
  destruct Hwf as (Hl & Ht & Hr). destruct it as [ld d t0 rest]. cbn [i_lead i_d i_t0 i_rest] in *.
  unfold str_of, lead_str in *. cbn [i_lead i_d i_t0 i_rest] in *.
  pose proof (split_body ds delim Hd rest t0 Ht Hr) as Hsplit.
  pose proof (chunks_plain ds delim rest t0 Ht Hr) as Hplain.
  pose proof (chunks_den delim d rest t0) as Hden.
  pose proof (chunks_size delim rest t0) as Hsize.
  pose proof (chunks_pos delim rest t0) as Hpos.
  destruct (chunks delim t0 rest) as [h hs]. cbn [fst snd] in *.
  inversion Hplain as [|? ? [Hh1 Hh2] Hhs]; subst.
  assert (Hne : Forall (fun s => s <> []) (body (fst h) (snd h) :: map (fun h => body (fst h) (snd h)) hs)).
  { constructor; [apply body_nonempty; apply Hh1|]. apply Forall_forall. intros s Hs.
    apply in_map_iff in Hs. destruct Hs as (h' & <- & Hh'). rewrite Forall_forall in Hhs.
    apply body_nonempty. apply (Hhs _ Hh'). }
  assert (Hsum : sumw (map (item_of false (Some delim)) hs) =
                 (2 * fold_right (fun h n => length (snd h) + n) 0 hs + length hs)%nat).
  { clear. induction hs as [|h hs IH]; [reflexivity|]. cbn [map sumw fold_right length]. rewrite IH.
    unfold weight, lead_str. cbn [item_of i_lead i_rest length]. lia. }
  assert (Hwfs : Forall (wf ds) (map (item_of false (Some delim)) hs)).
  { apply Forall_forall. intros x Hx. apply in_map_iff in Hx. destruct Hx as (h' & <- & Hh').
    rewrite Forall_forall in Hhs. destruct (Hhs _ Hh') as [A B].
    split; [cbn; tauto|]. split; assumption. }
  assert (Hpcs : map to_piece (map (item_of false (Some delim)) hs) =
                 map (fun x => (x, Some delim)) (map (fun h => body (fst h) (snd h)) hs)).
  { rewrite !map_map. reflexivity. }
  assert (Hdens : flat_map den (map (item_of false (Some delim)) hs) =
                  flat_map (fun h => (fst h, Some delim) :: map swap_st (snd h)) hs).
  { clear. induction hs as [|x hs IH]; cbn; [reflexivity|]. rewrite IH. reflexivity. }
  (* the leading separator, if any *)
  destruct (if ld then sign_text d else []) as [|lc ls] eqn:El.
  - exists (item_of false d h :: map (item_of false (Some delim)) hs).
    split; [discriminate|]. split; [|split; [|split]].
    + cbn [app]. rewrite Hsplit. rewrite remove_empty_id by assumption.
      eexists _, _. split; [reflexivity|]. cbn [map]. rewrite Hpcs. reflexivity.
    + constructor; [|assumption]. split; [cbn; tauto|]. split; assumption.
    + cbn [flat_map]. rewrite Hdens. unfold den at 2. cbn [i_t0 i_d i_rest]. rewrite Hden. reflexivity.
    + cbn [sumw fold_right]. fold (sumw (map (item_of false (Some delim)) hs)). rewrite Hsum.
      unfold weight, lead_str, item_of. cbn [i_lead i_rest i_d]. rewrite El. cbn [length].
      destruct Hin' as [[]|Hin']. specialize (Hpos Hin'). lia.
  - assert (Els : ls = [] /\ ld = true /\ d = Some lc).
    { destruct ld; [|discriminate]. destruct d as [c|]; cbn in El; [|discriminate].
      injection El as -> <-. auto. }
    destruct Els as (-> & -> & ->). cbn [app] in *.
    destruct (Ascii.eqb_spec delim lc) as [E|E].
    + subst lc.
      exists (item_of false (Some delim) h :: map (item_of false (Some delim)) hs).
      split; [discriminate|]. split; [|split; [|split]].
      * cbn [split_char]. rewrite Ascii.eqb_refl. rewrite Hsplit.
        change (remove_empty ([] :: ?l)) with (remove_empty l). cbn [remove_empty filter].
        match goal with |- context [filter ?f ?l] => change (filter f l) with (remove_empty l) end.
        fold (remove_empty (map (fun h0 => body (fst h0) (snd h0)) hs)).
        change (match body (fst h) (snd h) with [] => false | _ :: _ => true end) with
               (match body (fst h) (snd h) with [] => false | _ => true end).
        inversion Hne as [|? ? Hb0 Hbs]; subst.
        rewrite (remove_empty_id _ Hbs).
        destruct (body (fst h) (snd h)) as [|b0 bs] eqn:Eb; [congruence|].
        eexists _, _. split; [reflexivity|]. cbn [map]. rewrite Hpcs. unfold to_piece at 1.
        unfold str_of, lead_str, item_of. cbn [i_lead i_t0 i_rest i_d app]. rewrite Eb. reflexivity.
      * constructor; [|assumption]. split; [cbn; tauto|]. split; assumption.
      * cbn [flat_map]. rewrite Hdens. unfold den at 2. cbn [i_t0 i_d i_rest]. rewrite Hden. reflexivity.
      * cbn [sumw fold_right]. fold (sumw (map (item_of false (Some delim)) hs)). rewrite Hsum.
        unfold weight, lead_str, item_of. cbn [i_lead i_rest i_d sign_text length]. lia.
    + exists (item_of true (Some lc) h :: map (item_of false (Some delim)) hs).
      split; [discriminate|]. split; [|split; [|split]].
      * cbn [split_char]. destruct (Ascii.eqb_spec delim lc); [congruence|]. rewrite Hsplit.
        inversion Hne as [|? ? Hb0 Hbs]; subst.
        rewrite remove_empty_id by (constructor; [discriminate|assumption]).
        eexists _, _. split; [reflexivity|]. cbn [map]. rewrite Hpcs. reflexivity.
      * constructor; [|assumption]. split; [exact Hl|]. split; assumption.
      * cbn [flat_map]. rewrite Hdens. unfold den at 2. cbn [i_t0 i_d i_rest]. rewrite Hden. reflexivity.
      * cbn [sumw fold_right]. fold (sumw (map (item_of false (Some delim)) hs)). rewrite Hsum.
        unfold weight, lead_str, item_of. cbn [i_lead i_rest i_d sign_text length].
        destruct Hin' as [[Hin'|[]]|Hin']; [congruence|]. specialize (Hpos Hin'). lia.
Qed.

Lemma choose_delim_spec s ds : contains_any s ds = true ->
  exists d, choose_delim s ds = Some d /\ In d ds /\ In d s.
Proof.
  intros H. apply contains_any_true in H. destruct H as (c & Hc & Hs).
  unfold choose_delim. destruct (find (contains_char s) ds) as [d|] eqn:E.
  - apply find_some in E. destruct E as [E1 E2]. exists d. rewrite contains_char_In in E2. auto.
  - exfalso. apply (find_none _ _ E) in Hc. apply contains_char_In in Hs. congruence.
Qed.

Lemma split_loop_spec ds : forall fuel its acc, Forall (wf ds) its -> (sumw its < fuel)%nat ->
  exists out, split_loop fuel ds (map to_piece its) acc = Ok out /\
              Permutation out (acc ++ flat_map den its).
Proof.
  induction fuel as [|fuel IH]; intros its acc Hwf Hf; [lia|].
  destruct its as [|it its].
  - cbn. eexists. split; [reflexivity|]. rewrite app_nil_r. reflexivity.
  - inversion Hwf as [|? ? Hit Hits]; subst.
    cbn [map split_loop]. unfold to_piece at 1.
    destruct (contains_any (str_of it) ds) eqn:E.
    + destruct (choose_delim_spec _ _ E) as (delim & Ed & Hd1 & Hd2). rewrite Ed.
      destruct (split_item ds it delim Hit Hd1 Hd2) as (new & Hne & (s0 & ss & Es & Ep) & Hw & Hden & Hsum).
      rewrite Es. rewrite <- Ep, <- map_app.
      destruct (IH (its ++ new) acc) as (out & Eo & Po).
      * apply Forall_app. auto.
      * rewrite sumw_app. cbn [sumw fold_right] in Hf. fold (sumw its) in Hf. lia.
      * exists out. split; [exact Eo|]. rewrite Po. cbn [flat_map]. rewrite flat_map_app, Hden.
        apply Permutation_app_head. apply Permutation_app_comm.
    + destruct (IH its (acc ++ [(str_of it, i_d it)])) as (out & Eo & Po).
      * assumption.
      * cbn [sumw fold_right] in Hf. fold (sumw its) in Hf. unfold weight in Hf. lia.
      * exists out. split; [exact Eo|]. rewrite Po. cbn [flat_map]. rewrite <- app_assoc.
        apply Permutation_app_head. cbn [app].
        (* no separator: the item is a single term *)
        assert (Hr : i_rest it = []).
        { destruct (i_rest it) as [|(s, t) r] eqn:Er; [reflexivity|]. exfalso.
          destruct Hit as (Hl & Ht & Hr). pose proof Hr as Hr0. rewrite Er in Hr0. inversion Hr0 as [|? ? [Hs _] _]; subst.
          assert (C : contains_any (str_of it) ds = true); [|congruence].
          apply contains_any_true. exists s. split; [exact Hs|].
          apply (In_str_of ds it s); [split; [assumption|split; assumption]|exact Hs|].
          right. rewrite Er. left. reflexivity. }
        assert (Hl0 : lead_str it = []).
        { destruct (lead_str it) as [|c l] eqn:El; [reflexivity|]. exfalso.
          destruct Hit as (Hl & Ht & Hr'). assert (Hc : In c ds) by (apply Hl; rewrite El; left; reflexivity).
          assert (C : contains_any (str_of it) ds = true); [|congruence].
          apply contains_any_true. exists c. split; [exact Hc|].
          apply (In_str_of ds it c); [split; [assumption|split; assumption]|exact Hc|].
          left. rewrite El. left. reflexivity. }
        unfold den. rewrite Hr. cbn [map app]. unfold str_of, body. rewrite Hl0, Hr. cbn. rewrite app_nil_r.
        reflexivity.
Qed.

Lemma find_eqb_some c ds : In c ds -> find (Ascii.eqb c) ds = Some c.
Proof.
  induction ds as [|x ds IH]; [intros []|]. cbn. destruct (Ascii.eqb_spec c x); [congruence|].
  intros [H|H]; [congruence|auto].
Qed.
Lemma find_eqb_none c ds : ~ In c ds -> find (Ascii.eqb c) ds = None.
Proof.
  induction ds as [|x ds IH]; [reflexivity|]. cbn. intros H. destruct (Ascii.eqb_spec c x); [subst; tauto|].
  apply IH. tauto.
Qed.

Lemma split_on_many_terms ds s : well_formed ds s ->
  exists ps, split_on_many (render s) ds = Ok ps /\ Permutation ps (signed_terms s).
Proof.
  intros (Hl & Ht & Hr). destruct s as [ld t0 rest]. cbn [lead term0 more] in *.
  set (it := {| i_lead := match ld with Some _ => true | None => false end; i_d := ld; i_t0 := t0; i_rest := rest |}).
  assert (Es : render {| lead := ld; term0 := t0; more := rest |} = str_of it).
  { unfold render, str_of, lead_str, body. cbn. destruct ld; reflexivity. }
  assert (Hwf : wf ds it).
  { split; [|split; assumption]. unfold lead_str. cbn. destruct ld as [c|]; cbn; [|tauto].
    intros c' [<-|[]]. apply Hl. reflexivity. }
  unfold split_on_many. rewrite Es.
  assert (Ef : first_delim (str_of it) ds = Ok ld).
  { unfold str_of, lead_str. cbn. destruct ld as [c|]; cbn.
    - f_equal. apply find_eqb_some. apply Hl. reflexivity.
    - unfold body. destruct Ht as [Hne Hnd]. destruct t0 as [|x t0]; [congruence|]. cbn. f_equal.
      apply find_eqb_none. intros C. apply (Hnd _ C). left. reflexivity. }
  rewrite Ef.
  assert (Hlen : (length rest + length (lead_str it) <= length (str_of it))%nat).
  { unfold str_of, body. cbn [i_t0 i_rest it]. rewrite !app_length.
    assert (length rest <= length (flat_map (fun st => fst st :: snd st) rest))%nat; [|lia].
    clear. induction rest as [|st rest IH]; cbn; [lia|]. rewrite app_length. lia. }
  destruct (split_loop_spec ds (2 * length (str_of it) + 3) [it] []) as (out & Eo & Po).
  - constructor; [assumption|constructor].
  - cbn [sumw fold_right]. unfold weight. cbn [i_rest it] in *. lia.
  - cbn [map] in Eo. unfold to_piece in Eo. cbn [i_d it] in Eo. exists out. split; [exact Eo|].
    rewrite Po. cbn. rewrite app_nil_r. unfold signed_terms. cbn. reflexivity.
Qed.

(** ** SortFactors *)

Lemma str_le_refl a : str_le a a = true.
Proof. induction a as [|x a IH]; cbn; [reflexivity|]. rewrite N.ltb_irrefl. exact IH. Qed.

Lemma str_le_total a : forall b, str_le a b = true \/ str_le b a = true.
Proof.
  induction a as [|x a IH]; intros [|y b]; cbn; auto.
  destruct (N.ltb_spec (N_of_ascii x) (N_of_ascii y)), (N.ltb_spec (N_of_ascii y) (N_of_ascii x)); auto.
Qed.

Lemma N_of_ascii_inj x y : N_of_ascii x = N_of_ascii y -> x = y.
Proof. intros H. rewrite <- (ascii_N_embedding x), <- (ascii_N_embedding y), H. reflexivity. Qed.

Lemma str_le_antisym a : forall b, str_le a b = true -> str_le b a = true -> a = b.
Proof.
  induction a as [|x a IH]; intros [|y b]; cbn; try discriminate; auto.
  destruct (N.ltb_spec (N_of_ascii x) (N_of_ascii y)), (N.ltb_spec (N_of_ascii y) (N_of_ascii x));
    try discriminate; try lia.
  intros H1 H2. f_equal; [apply N_of_ascii_inj; lia|auto].
Qed.

Lemma str_le_trans a : forall b c, str_le a b = true -> str_le b c = true -> str_le a c = true.
Proof.
  induction a as [|x a IH]; intros [|y b] [|z c]; cbn; try discriminate; auto.
  destruct (N.ltb_spec (N_of_ascii x) (N_of_ascii y)), (N.ltb_spec (N_of_ascii y) (N_of_ascii x));
    try discriminate;
  destruct (N.ltb_spec (N_of_ascii y) (N_of_ascii z)), (N.ltb_spec (N_of_ascii z) (N_of_ascii y));
    try discriminate; try lia; intros;
  destruct (N.ltb_spec (N_of_ascii x) (N_of_ascii z)); auto;
  destruct (N.ltb_spec (N_of_ascii z) (N_of_ascii x)); try lia. eauto.
Qed.

Fixpoint sorted_s (l : list str) : Prop :=
  match l with [] => True | x :: l' => Forall (fun y => str_le x y = true) l' /\ sorted_s l' end.

Lemma insert_perm x l : Permutation (insert_str x l) (x :: l).
Proof.
  induction l as [|y l IH]; cbn; [reflexivity|]. destruct (str_le x y); [reflexivity|].
  rewrite IH. apply perm_swap.
Qed.

Lemma sort_perm l : Permutation (sort_str l) l.
Proof. induction l as [|x l IH]; cbn; [reflexivity|]. rewrite insert_perm, IH. reflexivity. Qed.

Lemma insert_sorted x l : sorted_s l -> sorted_s (insert_str x l).
Proof.
  induction l as [|y l IH]; cbn; [auto|]. intros [H1 H2]. destruct (str_le x y) eqn:E.
  - cbn. repeat split; auto. constructor; [assumption|]. rewrite Forall_forall in *. intros z Hz.
    eapply str_le_trans; [exact E|]. auto.
  - cbn. split; [|auto]. rewrite Forall_forall in *. intros z Hz.
    apply (Permutation_in _ (insert_perm x l)) in Hz. destruct Hz as [<-|Hz]; [|auto].
    destruct (str_le_total x y); [congruence|assumption].
Qed.

Lemma sort_sorted l : sorted_s (sort_str l).
Proof. induction l as [|x l IH]; cbn; [auto|]. apply insert_sorted. exact IH. Qed.

Lemma sorted_unique l : forall l', sorted_s l -> sorted_s l' -> Permutation l l' -> l = l'.
Proof.
  induction l as [|x l IH]; intros l' H1 H2 P.
  - apply Permutation_nil in P. congruence.
  - destruct l' as [|y l']; [apply Permutation_sym, Permutation_nil in P; discriminate|].
    cbn in H1, H2. destruct H1 as [A1 A2], H2 as [B1 B2].
    assert (E : x = y).
    { assert (Hx : In x (y :: l')) by (apply (Permutation_in _ P); left; reflexivity).
      assert (Hy : In y (x :: l)) by (apply (Permutation_in _ (Permutation_sym P)); left; reflexivity).
      rewrite Forall_forall in *. destruct Hx as [Hx|Hx]; [congruence|].
      destruct Hy as [Hy|Hy]; [congruence|]. apply str_le_antisym; auto. }
    subst y. f_equal. apply IH; auto. eapply Permutation_cons_inv. exact P.
Qed.

Lemma split_join c l : l <> [] -> Forall (fun t => ~ In c t) l -> split_char c (join_char c l) = l.
Proof.
  induction l as [|x l IH]; [congruence|]. intros _ H. inversion H as [|? ? Hx Hl]; subst.
  destruct l as [|y l].
  - cbn. apply split_char_free. assumption.
  - change (join_char c (x :: y :: l)) with (x ++ c :: join_char c (y :: l)).
    rewrite split_char_app_free by assumption. cbn [split_char]. rewrite Ascii.eqb_refl.
    rewrite IH by (try discriminate; assumption). rewrite app_nil_r. reflexivity.
Qed.

Lemma sort_str_nonempty l : l <> [] -> sort_str l <> [].
Proof. intros H E. pose proof (sort_perm l) as P. rewrite E in P. apply Permutation_nil in P. congruence. Qed.

Lemma sort_factors_canonical l l' : l <> [] -> l' <> [] ->
  Forall (fun t => ~ In star_c t) l -> Forall (fun t => ~ In star_c t) l' ->
  (sort_factors (join_char star_c l) = sort_factors (join_char star_c l') <-> Permutation l l').
Proof.
  intros Hne Hne' H H'. unfold sort_factors. rewrite !split_join by assumption. split.
  - intros E. apply (f_equal (split_char star_c)) in E.
    assert (F : forall m, Forall (fun t => ~ In star_c t) m -> Forall (fun t => ~ In star_c t) (sort_str m)).
    { intros m Hm. rewrite Forall_forall in *. intros x Hx. apply Hm. apply (Permutation_in _ (sort_perm m)). exact Hx. }
    rewrite !split_join in E by (auto using sort_str_nonempty).
    rewrite <- (sort_perm l), <- (sort_perm l'), E. reflexivity.
  - intros P. f_equal. apply sorted_unique; try apply sort_sorted. rewrite (sort_perm l), (sort_perm l'). exact P.
Qed.

Lemma sort_factors_same_factors l : l <> [] -> Forall (fun t => ~ In star_c t) l ->
  exists l', sort_factors (join_char star_c l) = join_char star_c l' /\ Permutation l' l /\ sorted_s l'.
Proof.
  intros Hne H. exists (sort_str l). unfold sort_factors. rewrite split_join by assumption.
  repeat split; [apply sort_perm|apply sort_sorted].
Qed.

(** ** Prefixes *)

Lemma has_prefix_app p s : has_prefix (p ++ s) p = true.
Proof. induction p as [|c p IH]; cbn; [destruct s; reflexivity|]. rewrite Ascii.eqb_refl. exact IH. Qed.

Lemma has_prefix_iff s : forall p, has_prefix s p = true <-> exists r, s = p ++ r.
Proof.
  intros p. revert s. induction p as [|c p IH]; intros s; cbn [has_prefix app].
  - destruct s; split; eauto.
  - destruct s as [|x s]; [split; [discriminate|intros (r & E); discriminate]|].
    cbn [has_prefix]. rewrite andb_true_iff, IH. split.
    + intros [E (r & ->)]. apply Ascii.eqb_eq in E. subst. exists r. reflexivity.
    + intros (r & E). injection E as -> ->. split; [apply Ascii.eqb_refl|eauto].
Qed.

Definition no_prefix (s : str) : Prop := Forall (fun p => has_prefix s p = false) known_prefixes.

Lemma strip_none fuel s : no_prefix s -> strip_prefixes fuel s = ([], s).
Proof.
  intros H. destruct fuel; [reflexivity|]. cbn [strip_prefixes].
  destruct (find (has_prefix s) known_prefixes) as [p|] eqn:E; [|reflexivity].
  apply find_some in E. unfold no_prefix in H. rewrite Forall_forall in H. rewrite H in E by tauto. destruct E; discriminate.
Qed.

(** What the text after a prefix may be so that the prefix is recognised:
    it does not start with '^'. *)
Definition no_hat (s : str) : Prop := has_prefix s ("^"%string : str) = false.

Lemma find_prefix p s : In p known_prefixes -> no_hat s -> find (has_prefix (p ++ s)) known_prefixes = Some p.
Proof.
  intros Hp Hs. unfold no_hat in Hs.
  assert (Hc : forall q, has_prefix s (hat_c :: q) = false).
  { intros q. destruct s as [|x s]; [reflexivity|]. unfold hat_c in *. cbn [lit list_ascii_of_string has_prefix] in *.
    rewrite andb_true_r in Hs. rewrite Hs. reflexivity. }
  unfold known_prefixes in Hp.
  destruct Hp as [<-|[<-|[<-|[<-|[<-|[]]]]]]; try reflexivity.
  pose proof (Hc ["4"%char]) as H4. pose proof (Hc ["2"%char]) as H2. unfold hat_c in *.
  unfold known_prefixes. cbn [lit list_ascii_of_string app find].
  change (has_prefix ("L"%char :: "A"%char :: "P"%char :: s) ["L"; "A"; "P"; "^"; "4"]%char) with (has_prefix s ["^"; "4"]%char).
  change (has_prefix ("L"%char :: "A"%char :: "P"%char :: s) ["L"; "A"; "P"; "^"; "2"]%char) with (has_prefix s ["^"; "2"]%char).
  rewrite H4, H2. reflexivity.
Qed.

Lemma skipn_app_exact {A} (p s : list A) : skipn (length p) (p ++ s) = s.
Proof. induction p; cbn; auto. Qed.

Lemma prefix_nonempty p : In p known_prefixes -> (0 < length p)%nat.
Proof. unfold known_prefixes. intros [<-|[<-|[<-|[<-|[<-|[]]]]]]; cbn; lia. Qed.

Lemma prefix_no_hat p s : In p known_prefixes -> no_hat (p ++ s).
Proof. unfold known_prefixes. intros [<-|[<-|[<-|[<-|[<-|[]]]]]]; reflexivity. Qed.

Lemma strip_many ps : forall fuel name, Forall (fun p => In p known_prefixes) ps ->
  no_prefix name -> no_hat name -> (length (concat ps ++ name) < fuel)%nat ->
  strip_prefixes fuel (concat ps ++ name) = (ps, name).
Proof.
  induction ps as [|p ps IH]; intros fuel name Hps Hn Hh Hf.
  - apply strip_none. assumption.
  - inversion Hps as [|? ? Hp Hps']; subst. destruct fuel as [|fuel]; [lia|].
    cbn [concat strip_prefixes]. rewrite <- app_assoc.
    assert (Hnh : no_hat (concat ps ++ name)).
    { destruct ps as [|q ps]; [exact Hh|]. cbn. rewrite <- app_assoc. apply prefix_no_hat.
      inversion Hps'; assumption. }
    rewrite find_prefix by assumption. rewrite skipn_app_exact.
    rewrite IH; try assumption; [reflexivity|].
    cbn [concat] in Hf. rewrite <- app_assoc, app_length in Hf. pose proof (prefix_nonempty p Hp). lia.
Qed.

Lemma known_prefixes_recovered ps name : Forall (fun p => In p known_prefixes) ps ->
  no_prefix name -> no_hat name ->
  get_known_prefixes (concat ps ++ name) = ps /\ remove_known_prefixes (concat ps ++ name) = name.
Proof.
  intros. unfold get_known_prefixes, remove_known_prefixes. rewrite strip_many by (auto; lia). auto.
Qed.

Lemma name_ok_iff name : name_ok name = true <-> no_prefix name.
Proof.
  unfold name_ok, get_known_prefixes, no_prefix. cbn [strip_prefixes].
  destruct (find (has_prefix name) known_prefixes) as [p|] eqn:E.
  - destruct (strip_prefixes (length name) (skipn (length p) name)) as [ps r]. cbn. split; [discriminate|].
    intros H. apply find_some in E. rewrite Forall_forall in H. rewrite H in E by tauto. destruct E; discriminate.
  - split; [|reflexivity]. intros _. apply Forall_forall. intros p Hp. exact (find_none _ _ E p Hp).
Qed.

(** ** Leibniz notation *)

Lemma str_eqb_eq a b : str_eqb a b = true <-> a = b.
Proof. unfold str_eqb. destruct (list_eq_dec ascii_dec a b); split; congruence. Qed.

Lemma str_eqb_refl a : str_eqb a a = true.
Proof. apply str_eqb_eq. reflexivity. Qed.

Definition dt : str := ("/dt"%string : str).
Definition lhs_of (name : str) : str := "d"%char :: name ++ dt.

Lemma leibniz_roundtrip name : field_name_from_leibniz (lhs_of name) = Ok name.
Proof.
  unfold field_name_from_leibniz, lhs_of.
  assert (L : length ("d"%char :: name ++ dt) = (length name + 4)%nat) by (cbn; rewrite app_length; cbn; lia).
  rewrite L. destruct (Nat.leb_spec (length name + 4) 3); [lia|].
  assert (P : has_prefix ("d"%char :: name ++ dt) ("d"%string : str) = true) by (cbn; destruct (name ++ dt); reflexivity).
  rewrite P.
  replace (length name + 4 - 3)%nat with (S (length name)) by lia. cbn [skipn].
  rewrite skipn_app_exact. cbn [andb]. rewrite str_eqb_refl.
  replace (length name + 4 - 4)%nat with (length name) by lia.
  f_equal. rewrite firstn_app, Nat.sub_diag, firstn_all. cbn. apply app_nil_r.
Qed.

Lemma leibniz_only lhs name : field_name_from_leibniz lhs = Ok name -> lhs = lhs_of name.
Proof.
  unfold field_name_from_leibniz. destruct (Nat.leb_spec (length lhs) 3); [discriminate|].
  destruct (has_prefix lhs ("d"%string : str)) eqn:E1; [|discriminate].
  destruct (str_eqb (skipn (length lhs - 3) lhs) ("/dt"%string : str)) eqn:E2; [|discriminate].
  cbn [andb]. intros [= <-]. apply str_eqb_eq in E2.
  apply has_prefix_iff in E1. destruct E1 as (r & E1). cbn in E1. subst lhs. cbn [skipn].
  unfold lhs_of. f_equal.
  cbn [length] in *. replace (S (length r) - 3)%nat with (S (length r - 3)) in E2 by lia. cbn [skipn] in E2.
  replace (S (length r) - 4)%nat with (length r - 3)%nat by lia.
  rewrite <- (firstn_skipn (length r - 3) r) at 1. f_equal. exact E2.
Qed.

(** [free_of s]: "/dt" does not occur in s ++ "/d" *)
Lemma lazy_upto_first name rest :
  contains (name ++ ("/d"%string : str)) dt = false ->
  lazy_upto (name ++ dt ++ rest) = Some name.
Proof.
  induction name as [|x name IH]; cbn [app]; intros H.
  - cbn. destruct rest; reflexivity.
  - cbn [lazy_upto]. cbn [contains] in H. apply orb_false_iff in H. destruct H as [H1 H2].
    assert (P : has_prefix (x :: name ++ dt ++ rest) dt = false).
    { destruct (has_prefix (x :: name ++ dt ++ rest) dt) eqn:E; [|reflexivity].
      rewrite <- H1. clear -E. destruct name as [|y [|z name]];
        unfold dt in *; cbn [app lit list_ascii_of_string has_prefix] in *.
      - destruct (Ascii.eqb "/" x); discriminate.
      - destruct (Ascii.eqb "/" x), (Ascii.eqb "d" y); discriminate.
      - destruct (Ascii.eqb "/" x), (Ascii.eqb "d" y), (Ascii.eqb "t" z); try discriminate. reflexivity. }
    fold dt. rewrite P. rewrite IH by exact H2. reflexivity.
Qed.

Lemma leibniz_match_lhs name rest : contains (name ++ ("/d"%string : str)) dt = false ->
  leibniz_match (lhs_of name ++ rest) = Some name.
Proof.
  intros H. unfold lhs_of. cbn [app leibniz_match]. rewrite Ascii.eqb_refl. rewrite <- app_assoc.
  rewrite lazy_upto_first by assumption. reflexivity.
Qed.

Definition dt_free' (name : str) : Prop := contains (name ++ ("/d"%string : str)) dt = false.

Definition equation_for (name rhs : str) : str := lhs_of name ++ "="%char :: rhs.

Lemma eq_number_spec (eqs : list (str * str)) name :
  Forall (fun e : str * str => dt_free' (fst e)) eqs ->
  match eq_number (map (fun e => equation_for (fst e) (snd e)) eqs) name with
  | Ok i => exists k, i = Z.of_nat k /\ option_map fst (nth_error eqs k) = Some name /\
            forall j e, (j < k)%nat -> nth_error eqs j = Some e -> fst e <> name
  | Panic => ~ In name (map fst eqs)
  | OutOfFuel => False
  end.
Proof.
  unfold eq_number. intros H.
  enough (G : forall i0, match eq_number_from i0 (map (fun e => equation_for (fst e) (snd e)) eqs) name with
    | Ok i => exists k, i = i0 + Z.of_nat k /\ option_map fst (nth_error eqs k) = Some name /\
            forall j e, (j < k)%nat -> nth_error eqs j = Some e -> fst e <> name
    | Panic => ~ In name (map fst eqs)
    | OutOfFuel => False
    end).
  { specialize (G 0). destruct (eq_number_from 0 _ name); auto. }
  induction H as [|e eqs He H IH]; intros i0; cbn [map eq_number_from]; [cbn; tauto|].
  unfold equation_for at 1. rewrite leibniz_match_lhs by assumption.
  destruct (str_eqb (fst e) name) eqn:E.
  - apply str_eqb_eq in E. exists 0%nat. split; [lia|]. split; [cbn; congruence|]. intros; lia.
  - assert (Hne : fst e <> name) by (intros C; apply str_eqb_eq in C; congruence).
    specialize (IH (i0 + 1)). destruct (eq_number_from (i0 + 1) _ name) as [i| |].
    + destruct IH as (k & Hk & Hn & Hj). exists (S k). split; [lia|]. split; [exact Hn|].
      intros [|j] e' Hlt Hnth; [cbn in Hnth; injection Hnth as <-; exact Hne|].
      apply (Hj j e'); [lia|exact Hnth].
    + cbn. intros [C|C]; [congruence|exact (IH C)].
    + exact IH.
Qed.

(** ** Bridging to the specification's words *)

Lemma product_text_join l : product_text l = join_char star_c l.
Proof. induction l as [|x l IH]; [reflexivity|]. destruct l as [|y l]; [reflexivity|].
  change (x ++ star_c :: product_text (y :: l) = x ++ star_c :: join_char star_c (y :: l)). rewrite IH. reflexivity. Qed.

Lemma contains_iff s sub : contains s sub = true <-> exists a b, s = a ++ sub ++ b.
Proof.
  induction s as [|x s IH]; cbn [contains]; rewrite orb_true_iff, has_prefix_iff.
  - split.
    + intros [(r & E)|E]; [|discriminate]. exists [], r. exact E.
    + intros (a & b & E). left. destruct a; [|discriminate]. exists b. exact E.
  - split.
    + intros [(r & E)|E]; [exists [], r; exact E|]. apply IH in E. destruct E as (a & b & ->).
      exists (x :: a), b. reflexivity.
    + intros (a & b & E). destruct a as [|y a]; [left; exists b; exact E|]. right.
      injection E as -> E. apply IH. exists a, b. exact E.
Qed.

Lemma dt_free_iff name : dt_free name -> dt_free' name.
Proof.
  unfold dt_free, dt_free'. intros H. destruct (contains _ dt) eqn:E; [|reflexivity].
  apply contains_iff in E. destruct E as (a & b & E). exfalso. exact (H a b E).
Qed.

Lemma equation_equation_for name rhs : equation name rhs = equation_for name rhs.
Proof. unfold equation, equation_for, derivative_of, lhs_of, dt. cbn. rewrite <- ?app_assoc. reflexivity. Qed.

Lemma spelling_known p : In p known_prefixes <-> exists o, spelling o = Some p.
Proof.
  split.
  - unfold known_prefixes. intros [<-|[<-|[<-|[<-|[<-|[]]]]]];
    [exists Neg|exists (Lap 4)|exists (Lap 2)|exists (Lap 1)|exists Times]; reflexivity.
  - intros (o & Ho). unfold known_prefixes. destruct o as [|k|]; cbn in Ho.
    + injection Ho as <-. left. reflexivity.
    + destruct k as [|[|[|[|[|k]]]]]; try discriminate; injection Ho as <-; cbn; tauto.
    + injection Ho as <-. cbn. tauto.
Qed.

Lemma bare_name_ok name : bare_name name -> no_prefix name /\ no_hat name.
Proof.
  intros [H1 H2]. split.
  - apply Forall_forall. intros p Hp. destruct (has_prefix name p) eqn:E; [|reflexivity].
    apply spelling_known in Hp. destruct Hp as (o & Ho). apply has_prefix_iff in E. exfalso. exact (H1 o p Ho E).
  - unfold no_hat. destruct (has_prefix name _) eqn:E; [|reflexivity]. apply has_prefix_iff in E. contradiction.
Qed.

Lemma spelled_known os text : spelled os text -> Forall (fun p => In p known_prefixes) text.
Proof.
  revert text. induction os as [|o os IH]; intros [|p text]; cbn; try tauto; [constructor|].
  intros [Ho H]. constructor; [|auto]. apply spelling_known. eauto.
Qed.

Lemma operators_recovered os text name : spelled os text -> bare_name name ->
  get_known_prefixes (concat text ++ name) = text /\ remove_known_prefixes (concat text ++ name) = name.
Proof.
  intros H Hn. destruct (bare_name_ok _ Hn). apply known_prefixes_recovered; auto. eapply spelled_known; eauto.
Qed.

Lemma name_ok_spec name : name_ok name = true <-> forall o p, spelling o = Some p -> ~ starts_with name p.
Proof.
  rewrite name_ok_iff. unfold no_prefix. rewrite Forall_forall. split.
  - intros H o p Ho (r & E). assert (Hp : In p known_prefixes) by (apply spelling_known; eauto).
    specialize (H p Hp). assert (has_prefix name p = true) by (apply has_prefix_iff; eauto). congruence.
  - intros H p Hp. destruct (has_prefix name p) eqn:E; [|reflexivity]. apply spelling_known in Hp.
    destruct Hp as (o & Ho). apply has_prefix_iff in E. exfalso. exact (H o p Ho E).
Qed.

Lemma eq_number_first (eqs : list (str * str)) name :
  Forall (fun e => dt_free (fst e)) eqs ->
  match eq_number (map (fun e => equation (fst e) (snd e)) eqs) name with
  | Ok i => exists k, i = Z.of_nat k /\ option_map fst (nth_error eqs k) = Some name /\
            forall j e, (j < k)%nat -> nth_error eqs j = Some e -> fst e <> name
  | Panic => ~ In name (map fst eqs)
  | OutOfFuel => False
  end.
Proof.
  intros H. rewrite (map_ext _ (fun e => equation_for (fst e) (snd e))) by (intros; apply equation_equation_for).
  apply eq_number_spec. rewrite Forall_forall in *. intros e He. apply dt_free_iff. auto.
Qed.

Lemma derivative_roundtrip lhs name : field_name_from_leibniz lhs = Ok name <-> lhs = derivative_of name.
Proof.
  change (derivative_of name) with (lhs_of name). split; [apply leibniz_only|].
  intros ->. apply leibniz_roundtrip.
Qed.

Lemma sides_equation name rhs : ~ In "="%char name -> ~ In "="%char rhs ->
  sides (equation name rhs) = Ok (derivative_of name, rhs).
Proof.
  intros Hn Hr. unfold sides, equation.
  assert (Hd : ~ In "="%char (derivative_of name)).
  { unfold derivative_of. rewrite !in_app_iff. cbn. intros [[H|H]|[H|[H|[H|[H|H]]]]]; try discriminate; try contradiction. }
  rewrite split_char_app_free by exact Hd. cbn [app lit list_ascii_of_string split_char]. rewrite Ascii.eqb_refl.
  rewrite split_char_free by exact Hr. rewrite app_nil_r. reflexivity.
Qed.

Lemma sort_factors_iff l l' : l <> [] -> l' <> [] ->
  Forall (fun t => ~ In "*"%char t) l -> Forall (fun t => ~ In "*"%char t) l' ->
  (sort_factors (product_text l) = sort_factors (product_text l') <-> Permutation l l').
Proof. intros. rewrite !product_text_join. apply sort_factors_canonical; assumption. Qed.

Lemma sorted_s_nth l : sorted_s l -> forall i j a b, (i < j)%nat ->
  nth_error l i = Some a -> nth_error l j = Some b -> str_le a b = true.
Proof.
  induction l as [|x l IH]; cbn [sorted_s]; intros H i j a b Hij Hi Hj; [destruct i; discriminate|].
  destruct H as [H1 H2]. destruct j as [|j]; [lia|]. cbn in Hj. destruct i as [|i].
  - cbn in Hi. injection Hi as <-. rewrite Forall_forall in H1. apply H1. eapply nth_error_In; eauto.
  - cbn in Hi. apply (IH H2 i j); [lia|assumption|assumption].
Qed.

Lemma sort_factors_sorted_perm l : l <> [] -> Forall (fun t => ~ In "*"%char t) l ->
  exists l', sort_factors (product_text l) = product_text l' /\ Permutation l' l /\
             forall i j a b, (i < j)%nat -> nth_error l' i = Some a -> nth_error l' j = Some b -> str_le a b = true.
Proof.
  intros Hne H. destruct (sort_factors_same_factors l Hne H) as (l' & E & P & S). exists l'.
  rewrite !product_text_join. split; [exact E|]. split; [exact P|]. apply sorted_s_nth. exact S.
Qed.

Lemma str_le_order a b c :
  (str_le a b = true \/ str_le b a = true) /\
  (str_le a b = true -> str_le b a = true -> a = b) /\
  (str_le a b = true -> str_le b c = true -> str_le a c = true).
Proof. split; [apply str_le_total|]. split; [apply str_le_antisym|apply str_le_trans]. Qed.

Lemma split_only_separators seps :
  split_on_many [] seps = Panic /\ forall c n, In c seps -> split_on_many (repeat c (S n)) seps = Panic.
Proof.
  split; [reflexivity|]. intros c n Hc. unfold split_on_many.
  assert (E : first_delim (repeat c (S n)) seps = Ok (Some c)) by (cbn; rewrite find_eqb_some by assumption; reflexivity).
  rewrite E.
  assert (F : (2 * length (repeat c (S n)) + 3 = S (2 * length (repeat c (S n)) + 2))%nat) by lia. rewrite F.
  cbn [split_loop].
  assert (Ca : contains_any (repeat c (S n)) seps = true).
  { apply contains_any_true. exists c. split; [assumption|left; reflexivity]. }
  rewrite Ca. destruct (choose_delim_spec _ _ Ca) as (d & Ed & _ & Hd). rewrite Ed.
  apply repeat_spec in Hd. subst d.
  assert (R : forall m, remove_empty (split_char c (repeat c m)) = []).
  { induction m as [|m IH]; [reflexivity|]. cbn [repeat split_char]. rewrite Ascii.eqb_refl. exact IH. }
  rewrite R. reflexivity.
Qed.
