(** Proofs about WriteXDMF and the reader of XmlSpec. *)
From Verif Require Import ListAux FileModel FileProofs JsonSpec JsonProofs XmlModel XmlSpec.
From Coq Require Import String Lia Bool.
From Coq Require Import List. Import ListNotations.
Open Scope nat_scope.

(** ** Characters *)
Definition plain_stop (b : bool) (q : ascii) : Prop := (b = true /\ q = quote) \/ (b = false /\ q = "<"%char).
Lemma xml_char_step b q c rest : plain_stop b q -> xml_ok c = true ->
  read_chars b q None (xml_char c ++ rest) = match read_chars b q None rest with Some (r, s) => Some (c :: r, s) | None => None end.
Proof.
  intros [(-> & ->)|(-> & ->)]; destruct c as [[] [] [] [] [] [] [] []]; intros H; try discriminate H; reflexivity.
Qed.
Lemma escape_step b q s rest : plain_stop b q -> xml_text s -> read_chars b q None (xml_escape s ++ q :: rest) = Some (s, q :: rest).
Proof.
  intros Hq. induction s as [|c s IH]; intros H.
  - cbn [xml_escape flat_map app read_chars]. rewrite Ascii.eqb_refl. reflexivity.
  - cbn in H. apply andb_prop in H. destruct H as (H1 & H2). unfold xml_escape. cbn [flat_map]. rewrite <- app_assoc, xml_char_step by assumption. fold (xml_escape s). rewrite IH by exact H2. reflexivity.
Qed.
Lemma raw_step s rest : forallb (fun c => negb (Ascii.eqb c "<") && negb (Ascii.eqb c "&")) s = true -> read_chars false "<" None (s ++ "<"%char :: rest) = Some (s, "<"%char :: rest).
Proof.
  induction s as [|c s IH]; intros H; [reflexivity|]. cbn [forallb] in H. apply andb_prop in H. destruct H as (H1 & H2). apply andb_prop in H1. destruct H1 as (A & B). apply negb_true_iff in A. apply negb_true_iff in B.
  cbn [app read_chars]. rewrite A, B, (IH H2). reflexivity.
Qed.
Lemma line_step d rest : read_chars false "<" None (xml_line d ++ "<"%char :: rest) = Some (xml_line d, "<"%char :: rest).
Proof.
  apply raw_step. unfold xml_line. cbn [forallb]. apply andb_true_intro. split; [reflexivity|]. induction d as [|d IH]; [reflexivity|]. cbn [repeat concat]. rewrite forallb_app, IH. reflexivity.
Qed.

(** ** Attributes *)
Definition tag (n : str) : Prop := n <> [] /\ forallb tag_char n = true.
Lemma tag_head c : tag_char c = true -> white c = false /\ Ascii.eqb c ">" = false /\ Ascii.eqb c "/" = false.
Proof. destruct c as [[] [] [] [] [] [] [] []]; intros H; try discriminate H; repeat split. Qed.
Lemma read_attr_list : forall a f rest, Forall (fun kv => tag (fst kv) /\ xml_text (snd kv)) a -> List.length a < f ->
  read_attrs f (flat_map xml_attr a ++ ">"%char :: rest) = Some (a, false, rest).
Proof.
  induction a as [|(k, v) a IH]; intros f rest Ha Hf; destruct f as [|f]; try (cbn in Hf; lia); [reflexivity|].
  inversion Ha as [|? ? ((K1 & K2) & V) Ha2]. subst. cbn [fst snd] in *. destruct k as [|c k]; [contradiction|]. assert (Kc : tag_char c = true) by (cbn in K2; apply andb_prop in K2; exact (proj1 K2)).
  destruct (tag_head c Kc) as (W & E1 & E2). cbn [flat_map]. unfold xml_attr. cbn [fst snd]. rewrite <- !app_assoc.
  set (tail := flat_map xml_attr a ++ ">"%char :: rest) in *.
  match goal with |- read_attrs (S f) ?x = _ => change x with (" "%char :: ((c :: k) ++ "="%char :: quote :: (xml_escape v ++ quote :: tail))) end.
  destruct (take_all tag_char (c :: k) ("="%char :: quote :: (xml_escape v ++ quote :: tail)) K2 eq_refl) as (T1 & T2). cbn [app] in *.
  assert (D : forall s, drop_while white (" "%char :: c :: s) = c :: s) by (intros s; cbn [drop_while]; change (white " ") with true; cbv iota; rewrite W; reflexivity).
  cbn [read_attrs]. rewrite D, E1, E2. cbv zeta. rewrite T1, T2.
  change (drop_while white ("="%char :: ?s)) with ("="%char :: s). cbv iota. rewrite Ascii.eqb_refl.
  change (drop_while white (quote :: ?s)) with (quote :: s). cbv iota. rewrite Ascii.eqb_refl. cbn [orb].
  rewrite (escape_step true quote v tail (or_introl (conj eq_refl eq_refl)) V). unfold tail. rewrite IH by (assumption || (cbn in Hf; lia)). reflexivity.
Qed.

(** ** Elements *)
Fixpoint good_xml (e : xml) : Prop :=
  match e with
  | XE n a t ch => tag n /\ Forall (fun kv => tag (fst kv) /\ xml_text (snd kv)) a /\ xml_text t /\ (t = [] \/ ch = [])
                   /\ (fix all l := match l with [] => True | c :: l' => good_xml c /\ all l' end) ch
  end.
Lemma good_children ch : (fix all l := match l with [] => True | c :: l' => good_xml c /\ all l' end) ch <-> Forall good_xml ch.
Proof. induction ch as [|c ch IH]; split; intros H; [constructor|exact I| |]. - destruct H. constructor; [assumption|apply IH; assumption]. - inversion H. subst. split; [assumption|apply IH; assumption]. Qed.
Fixpoint need (e : xml) : nat := match e with XE _ a _ ch => 5 + List.length a + list_sum (map (fun c => 3 + need c) ch) end.
(** What the reader makes of an element, with the line breaks as texts. *)
Fixpoint view (d : nat) (e : xml) : node :=
  match e with
  | XE n a t ch => Elem n a (match ch with
                             | [] => match t with [] => [] | _ => [Text t] end
                             | _ => flat_map (fun c => [Text (xml_line (S d)); view (S d) c]) ch ++ [Text (xml_line d)]
                             end)
  end.
Lemma xml_induction (P : xml -> Prop) : (forall n a t ch, Forall P ch -> P (XE n a t ch)) -> forall e, P e.
Proof. intros H. fix F 1. intros [n a t ch]. apply H. induction ch as [|c ch IH]; constructor; [apply F|exact IH]. Qed.
Lemma print_start d e : good_xml e -> exists c s, print_xml d e = "<"%char :: c :: s /\ tag_char c = true.
Proof.
  destruct e as [n a t ch]. intros ((N & T) & _). destruct n as [|c n]; [contradiction|]. cbn [print_xml]. eexists c, _. split; [reflexivity|]. cbn in T. apply andb_prop in T. exact (proj1 T).
Qed.
Lemma escape_start t rest : t <> [] -> xml_text t -> exists c s, xml_escape t ++ rest = c :: s /\ Ascii.eqb c "<" = false.
Proof.
  destruct t as [|c t]; [contradiction|]. intros _ H. cbn in H. apply andb_prop in H. destruct H as (H & _). unfold xml_escape. cbn [flat_map]. rewrite <- app_assoc.
  destruct c as [[] [] [] [] [] [] [] []]; try discriminate H; eexists _, _; (split; [reflexivity|reflexivity]).
Qed.
Definition elem_ok (e : xml) : Prop := good_xml e -> forall d f rest s, need e <= f -> print_xml d e ++ rest = "<"%char :: s -> read_elem f s = Some (view d e, rest).
Lemma content_step d rest : forall ch, Forall elem_ok ch -> Forall good_xml ch -> forall f, list_sum (map (fun c => 3 + need c) ch) + 2 <= f ->
  read_content f (flat_map (fun c => xml_line (S d) ++ print_xml (S d) c) ch ++ xml_line d ++ "<"%char :: "/"%char :: rest)
  = Some (flat_map (fun c => [Text (xml_line (S d)); view (S d) c]) ch ++ [Text (xml_line d)], "<"%char :: "/"%char :: rest).
Proof.
  induction ch as [|c ch IH]; intros HO HG f Hf.
  - cbn [map list_sum fold_right] in Hf. destruct f as [|[|f]]; try (cbn in Hf; lia). cbn [flat_map app].
    change (read_content (S (S f)) (xml_line d ++ ?s)) with (match read_chars false "<" None (xml_line d ++ s) with Some (t, s2) => match read_content (S f) s2 with Some (l, s3) => Some (Text t :: l, s3) | None => None end | None => None end).
    rewrite line_step. reflexivity.
  - inversion HO as [|? ? O1 O2]. inversion HG as [|? ? G1 G2]. subst. change (list_sum (map (fun c => 3 + need c) (c :: ch))) with (3 + need c + list_sum (map (fun c => 3 + need c) ch)) in Hf.
    destruct f as [|[|f]]; try lia. cbn [flat_map]. rewrite <- !app_assoc. set (tail := flat_map _ ch ++ xml_line d ++ "<"%char :: "/"%char :: rest) in *.
    destruct (print_start (S d) c G1) as (x & s & E & Hx). assert (R := O1 G1 (S d) f tail (x :: s ++ tail) ltac:(lia) ltac:(rewrite E; reflexivity)).
    rewrite E. cbn [app].
    change (read_content (S (S f)) (xml_line (S d) ++ ?s)) with (match read_chars false "<" None (xml_line (S d) ++ s) with Some (t, s2) => match read_content (S f) s2 with Some (l, s3) => Some (Text t :: l, s3) | None => None end | None => None end).
    rewrite line_step. cbn [read_content]. change (Ascii.eqb "<" "<") with true. cbv iota. rewrite (proj2 (proj2 (tag_head x Hx))), R. unfold tail. rewrite IH by (assumption || lia). reflexivity.
Qed.
Lemma elements_read e : elem_ok e.
Proof.
  induction e as [n a t ch IH] using xml_induction. intros (N & A & T & TC & CH) d f rest s Hf E. apply good_children in CH.
  cbn [need] in Hf. destruct f as [|f]; [lia|]. cbn [print_xml] in E. rewrite <- !app_assoc in E. change (lit "<" ++ ?s) with ("<"%char :: s) in E. injection E as E. subst s.
  destruct N as (N1 & N2). set (endtag := lit "</" ++ n ++ lit ">" ++ rest).
  assert (EE : endtag = "<"%char :: "/"%char :: (n ++ ">"%char :: rest)) by reflexivity.
  set (inner := xml_escape t ++ flat_map (fun c => xml_line (S d) ++ print_xml (S d) c) ch ++ match ch with [] => [] | _ => xml_line d end ++ endtag).
  assert (T0 : match flat_map xml_attr a ++ lit ">" ++ inner with [] => True | c :: _ => tag_char c = false end) by (destruct a as [|(k, v) a]; reflexivity).
  destruct (take_all tag_char n (flat_map xml_attr a ++ lit ">" ++ inner) N2 T0) as (T1 & T2).
  destruct (take_all tag_char n (">"%char :: rest) N2 eq_refl) as (T3 & T4).
  assert (RC : read_content f inner = Some (match ch with [] => match t with [] => [] | _ => [Text t] end | _ => flat_map (fun c => [Text (xml_line (S d)); view (S d) c]) ch ++ [Text (xml_line d)] end, endtag)).
  { unfold inner. destruct ch as [|c ch].
    - cbn [flat_map app map list_sum fold_right] in *. destruct f as [|[|f]]; try (cbn in Hf; lia). destruct t as [|t0 t].
      + reflexivity.
      + destruct (escape_start (t0 :: t) endtag ltac:(discriminate) T) as (x & s & Ex & Hx). assert (Q : read_chars false "<" None (xml_escape (t0 :: t) ++ endtag) = Some (t0 :: t, endtag)) by (rewrite EE; apply (escape_step false "<"); [right; split; reflexivity|exact T]).
        rewrite Ex in *. change (read_content (S (S f)) (x :: s)) with (if Ascii.eqb x "<" then match s with [] => None | d :: _ => if Ascii.eqb d "/" then Some ([], x :: s) else match read_elem (S f) s with Some (e, s2) => match read_content (S f) s2 with Some (l, s3) => Some (e :: l, s3) | None => None end | None => None end end
          else match read_chars false "<" None (x :: s) with Some (t, s2) => match read_content (S f) s2 with Some (l, s3) => Some (Text t :: l, s3) | None => None end | None => None end).
        rewrite Hx, Q. reflexivity.
    - destruct TC as [->|TC]; [|discriminate]. cbn [xml_escape flat_map app]. rewrite EE. exact (content_step d _ (c :: ch) IH CH f ltac:(lia)). }
  match goal with |- read_elem _ ?x = _ => change x with (n ++ flat_map xml_attr a ++ lit ">" ++ inner) end.
  cbn [read_elem]. rewrite T1, T2. destruct n as [|n0 n]; [contradiction|]. change (lit ">" ++ inner) with (">"%char :: inner). rewrite read_attr_list by (assumption || lia). rewrite RC, EE. cbv zeta. cbn [skipn]. rewrite T3, T4.
  assert (S0 : str_eqb (n0 :: n) (n0 :: n) = true) by (unfold str_eqb; destruct (list_eq_dec ascii_dec (n0 :: n) (n0 :: n)); congruence). rewrite S0. reflexivity.
Qed.
Lemma need_length e : good_xml e -> forall d, need e + 2 <= List.length (print_xml d e).
Proof.
  induction e as [n a t ch IH] using xml_induction. intros (N & A & T & TC & CH) d. apply good_children in CH. cbn [print_xml need]. rewrite !app_length. change (List.length (lit "<")) with 1. change (List.length (lit ">")) with 1. change (List.length (lit "</")) with 2.
  assert (1 <= List.length n) by (destruct n as [|x n]; [destruct N as (N & _); contradiction|cbn; lia]).
  assert (LA : List.length a <= List.length (flat_map xml_attr a)). { clear. induction a as [|(k, v) a IHa]; [reflexivity|]. cbn [flat_map List.length]. rewrite app_length. unfold xml_attr at 1. rewrite !app_length. change (List.length (lit " ")) with 1. lia. }
  assert (LC : list_sum (map (fun c => 3 + need c) ch) <= List.length (flat_map (fun c => xml_line (S d) ++ print_xml (S d) c) ch)).
  { clear - IH CH. induction ch as [|c ch IHc]; [reflexivity|]. inversion IH as [|? ? I1 I2]. inversion CH as [|? ? C1 C2]. subst. specialize (IHc I2 C2).
    change (list_sum (map (fun c => 3 + need c) (c :: ch))) with (3 + need c + list_sum (map (fun c => 3 + need c) ch)). cbn [flat_map]. rewrite !app_length. specialize (I1 C1 (S d)).
    assert (1 <= List.length (xml_line (S d))) by (unfold xml_line; cbn [List.length]; lia). lia. }
  lia.
Qed.
Theorem xml_read_back e : good_xml e -> read_xml (print_xml 0 e) = Some (view 0 e).
Proof.
  intros H. destruct (print_start 0 e H) as (c & s & E & Hc). assert (L := need_length e H 0). unfold read_xml.
  assert (R := elements_read e H 0 (List.length (print_xml 0 e)) [] (c :: s) ltac:(lia) ltac:(rewrite app_nil_r; exact E)). rewrite E in *.
  change (drop_while white ("<"%char :: c :: s)) with ("<"%char :: c :: s). cbv iota. rewrite Ascii.eqb_refl, R. reflexivity.
Qed.

(** ** Questions to the view *)
Definition xml_name (e : xml) : str := match e with XE n _ _ _ => n end.
Lemma view_children k d n a t ch : children k (view d (XE n a t ch)) = map (view (S d)) (filter (fun c => str_eqb (xml_name c) (lit k)) ch).
Proof.
  destruct ch as [|c0 ch0]; [destruct t; reflexivity|]. set (ch := c0 :: ch0). change (view d (XE n a t ch)) with (Elem n a (flat_map (fun c => [Text (xml_line (S d)); view (S d) c]) ch ++ [Text (xml_line d)])).
  unfold children. rewrite filter_app. cbn [filter is_elem]. rewrite app_nil_r. induction ch as [|c ch IH]; [reflexivity|]. cbn [flat_map app filter is_elem]. destruct c as [m b u l].
  change (is_elem (lit k) (view (S d) (XE m b u l))) with (str_eqb m (lit k)). cbn [xml_name]. destruct (str_eqb m (lit k)); [cbn [map]; f_equal; exact IH|exact IH].
Qed.
Lemma view_attr k d n a t ch : attr k (view d (XE n a t ch)) = find_attr (lit k) a.
Proof. reflexivity. Qed.
Lemma view_text d n a t : text_of (view d (XE n a t [])) = t.
Proof. destruct t as [|c t]; [reflexivity|]. cbn [view text_of flat_map]. rewrite app_nil_r. reflexivity. Qed.
