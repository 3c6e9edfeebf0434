(** C120: the index file that WriteXDMF writes. *)
From Verif Require Import ListAux FileModel FileSpec FileProofs FileProps JsonSpec JsonProofs XmlModel XmlSpec XmlProofs.
From Coq Require Import String Lia Bool List. Import ListNotations.

(** What a reader sees: the binary file of an entry with its layout, a field of an
    epoch, an epoch. *)
Definition shown_file (it : node) := (text_of it, attr "Format" it, attr "DataType" it, attr "Precision" it, attr "Endian" it, attr "Dimensions" it).
Definition shown_field (a : node) := (attr "Name" a, attr "Center" a, map shown_file (children "DataItem" a)).
Definition shown_epoch (g : node) := (attr "Name" g, map shown_field (children "Attribute" g)).
(** An attribute that is left out if it is empty. *)
Definition unless_empty (s : str) : option str := match s with [] => None | _ => Some s end.

(** ** The texts that occur *)
Lemma ok_app a b : xml_text a -> xml_text b -> xml_text (a ++ b).
Proof. intros A B. unfold xml_text in *. rewrite forallb_app, A, B. reflexivity. Qed.
Lemma ok_digits s : forallb digit_c s = true -> xml_text s.
Proof.
  intros H. apply forallb_forall. intros c Hc. rewrite forallb_forall in H. specialize (H c Hc). destruct c as [[] [] [] [] [] [] [] []]; try discriminate H; reflexivity.
Qed.
Lemma ok_dec_nat z : (0 <= z)%Z -> xml_text (dec_nat z).
Proof. intros H. apply ok_digits. exact (proj1 (dec_nat_spec z H)). Qed.
Lemma ok_dec z : xml_text (dec z).
Proof. unfold dec. destruct (z <? 0)%Z eqn:E; [apply Z.ltb_lt in E; apply (ok_app [minus_c]); [reflexivity|apply ok_dec_nat; lia]|apply Z.ltb_ge in E; apply ok_dec_nat; lia]. Qed.
Lemma dec_not_empty z : dec z <> [].
Proof. unfold dec. destruct (z <? 0)%Z eqn:E; [discriminate|]. apply Z.ltb_ge in E. exact (proj2 (proj2 (dec_nat_spec z E))). Qed.
Lemma ok_dims dom d : dims_text dom = Some d -> xml_text d /\ d <> [].
Proof.
  unfold dims_text. destruct dom as [|a [|b [|c [|]]]]; try discriminate; intros E; injection E as <-.
  - split; [repeat apply ok_app; try apply ok_dec; reflexivity|]. intros X. apply app_eq_nil in X. exact (dec_not_empty a (proj1 X)).
  - split; [repeat apply ok_app; try apply ok_dec; reflexivity|]. intros X. apply app_eq_nil in X. exact (dec_not_empty a (proj1 X)).
Qed.
Lemma ok_pad k : forall m, (0 <= m)%Z -> xml_text (pad_dec k m).
Proof.
  induction k as [|k IH]; intros m Hm; [reflexivity|]. cbn [pad_dec]. apply ok_app; [apply IH; apply Z.div_pos; lia|].
  assert (B : (0 <= m mod 10 < 10)%Z) by (apply Z.mod_pos_bound; lia). assert (C : (m mod 10 = 0 \/ m mod 10 = 1 \/ m mod 10 = 2 \/ m mod 10 = 3 \/ m mod 10 = 4 \/ m mod 10 = 5 \/ m mod 10 = 6 \/ m mod 10 = 7 \/ m mod 10 = 8 \/ m mod 10 = 9)%Z) by lia.
  destruct C as [->|[->|[->|[->|[->|[->|[->|[->|[->| ->]]]]]]]]]; reflexivity.
Qed.
Lemma ok_fmt q : xml_text (fmt_f q).
Proof.
  unfold fmt_f. set (n := round_even (Qabs q * 1000000)%Q). assert (N : (0 <= n)%Z).
  { unfold n, round_even. assert (0 <= Qfloor (Qabs q * 1000000))%Z. { apply Z.le_trans with (Qfloor 0); [reflexivity|]. apply Qfloor_resp_le. apply Qmult_le_0_compat; [apply Qabs_nonneg|discriminate]. }
    destruct (_ ?= _)%Q; [destruct (Z.even _)| |]; lia. }
  apply ok_app; [destruct (Qltb q 0); reflexivity|]. apply ok_app; [apply ok_dec_nat; apply Z.div_pos; lia|]. apply (ok_app [dot_c]); [reflexivity|]. apply ok_pad. apply Z.mod_pos_bound. lia.
Qed.
Lemma ok_join l : Forall xml_text l -> xml_text (join_char " " l).
Proof.
  induction 1 as [|x l Hx Hl IH]; [reflexivity|]. destruct l as [|y l]; [exact Hx|]. change (join_char " " (x :: y :: l)) with (x ++ [" "%char] ++ join_char " " (y :: l)).
  apply ok_app; [exact Hx|]. apply ok_app; [reflexivity|exact IH].
Qed.
Lemma ok_bin prefix n i : xml_text prefix -> xml_text n -> xml_text (bin_name prefix n i).
Proof. intros A B. unfold bin_name. repeat apply ok_app; try assumption; try apply ok_dec; reflexivity. Qed.

Definition attr_ok (kv : str * str) : Prop := tag (fst kv) /\ xml_text (snd kv).
Lemma ok_opt k v : tag (lit k) -> xml_text v -> Forall attr_ok (opt_attr k v).
Proof. intros A B. unfold opt_attr. destruct v; repeat constructor; assumption || (cbn; apply A) || exact (proj2 A). Qed.
Ltac ok_tag := split; [discriminate|reflexivity].
Ltac ok_attrs := repeat (apply Forall_app; split); apply ok_opt; try ok_tag; try reflexivity; try apply ok_dec; try assumption.
Lemma ok_item format number dims precision dtype endian value : xml_text format -> xml_text number -> xml_text dims -> xml_text precision -> xml_text dtype -> xml_text endian -> xml_text value ->
  good_xml (data_item format number dims precision dtype endian value).
Proof. intros. cbn [good_xml data_item]. split; [ok_tag|]. split; [ok_attrs|]. split; [assumption|]. split; [right; reflexivity|exact I]. Qed.
Lemma ok_topology name type dims ref : xml_text name -> xml_text type -> xml_text dims -> xml_text ref -> good_xml (topology name type dims ref).
Proof. intros. cbn [good_xml topology]. split; [ok_tag|]. split; [ok_attrs|]. split; [reflexivity|]. split; [left; reflexivity|exact I]. Qed.
Lemma ok_geometry name type ref items : xml_text name -> xml_text type -> xml_text ref -> Forall good_xml items -> good_xml (geometry name type ref items).
Proof. intros. cbn [good_xml geometry]. split; [ok_tag|]. split; [ok_attrs|]. split; [reflexivity|]. split; [left; reflexivity|apply good_children; assumption]. Qed.
Lemma ok_grid name type col grids attrs topo geo time : xml_text name -> xml_text type -> xml_text col -> Forall good_xml grids -> Forall good_xml attrs -> good_xml topo -> good_xml geo -> Forall good_xml time ->
  good_xml (grid name type col grids attrs topo geo time).
Proof.
  intros. cbn [good_xml grid]. split; [ok_tag|]. split; [ok_attrs|]. split; [reflexivity|]. split; [left; reflexivity|]. apply good_children. repeat (apply Forall_app; split); try assumption. repeat constructor; assumption.
Qed.
Lemma ok_attribute a : xml_text (xa_name a) -> xml_text (xa_dims a) -> xml_text (xa_file a) -> good_xml (attribute a).
Proof.
  intros. cbn [good_xml attribute]. split; [ok_tag|]. split; [ok_attrs|]. split; [reflexivity|]. split; [left; reflexivity|]. split; [|exact I]. apply ok_item; assumption || reflexivity.
Qed.
Lemma tree_good names prefix num dom x : Forall xml_text names -> xml_text prefix -> create_xdmf names prefix num dom = Some x -> good_xml (xdmf_tree dom x).
Proof.
  intros HN HP E. unfold create_xdmf in E. destruct (dims_text dom) as [d|] eqn:Ed; [|discriminate]. injection E as <-. destruct (ok_dims dom d Ed) as (D1 & _).
  unfold xdmf_tree. cbn [xd_topology xd_dims xd_grids xd_times]. cbv zeta.
  assert (OI : forall v, xml_text v -> good_xml (data_item (lit "XML") [] (dec (Z.of_nat (List.length dom))) [] [] [] v)) by (intros v Hv; apply ok_item; try reflexivity; [apply ok_dec|exact Hv]).
  split; [ok_tag|]. split; [constructor|]. split; [reflexivity|]. split; [left; reflexivity|]. split; [|exact I].
  split; [ok_tag|]. split; [constructor|]. split; [reflexivity|]. split; [left; reflexivity|]. split; [|split; [|split; [|exact I]]].
  - apply ok_topology; try reflexivity; [apply ok_app; [apply ok_dec|reflexivity]|exact D1].
  - apply ok_geometry; try reflexivity; [destruct (Nat.eqb _ 2); reflexivity|]. constructor; [apply OI; reflexivity|constructor; [apply OI; reflexivity|constructor]].
  - apply ok_grid; try reflexivity.
    + apply Forall_forall. intros g Hg. apply in_map_iff in Hg. destruct Hg as (xg & <- & Hx). apply in_map_iff in Hx. destruct Hx as (i & <- & _). unfold epoch_grid. cbn [xg_name xg_attrs].
      apply ok_grid; try reflexivity; try (apply Forall_nil).
      * apply (ok_app (lit "T")); [reflexivity|apply ok_dec].
      * apply Forall_forall. intros y Hy. apply in_map_iff in Hy. destruct Hy as (xa & <- & Hy). apply in_map_iff in Hy. destruct Hy as (n & <- & Hn). rewrite Forall_forall in HN. apply ok_attribute; cbn [xa_name xa_dims xa_file]; [apply HN; exact Hn|exact D1|apply ok_bin; [exact HP|apply HN; exact Hn]].
      * apply ok_topology; reflexivity.
      * apply ok_geometry; try reflexivity. constructor.
    + constructor.
    + apply ok_topology; reflexivity.
    + apply ok_geometry; try reflexivity. constructor.
    + constructor; [|constructor]. split; [ok_tag|]. split; [repeat constructor; discriminate|]. split; [reflexivity|]. split; [left; reflexivity|]. split; [|exact I]. apply ok_item; try reflexivity; [apply ok_dec|].
      apply ok_join. apply Forall_app. split; [|constructor; [apply ok_dec|constructor]]. apply Forall_forall. intros y Hy. apply in_map_iff in Hy. destruct Hy as (i & <- & _). apply ok_fmt.
Qed.

(** ** What is seen *)
Lemma filter_all {A} (p : A -> bool) l : (forall x, In x l -> p x = true) -> filter p l = l.
Proof. induction l as [|x l IH]; intros H; [reflexivity|]. cbn [filter]. rewrite (H x (or_introl eq_refl)), IH by (intros y Hy; apply H; right; exact Hy). reflexivity. Qed.
Lemma filter_none {A} (p : A -> bool) l : (forall x, In x l -> p x = false) -> filter p l = [].
Proof. induction l as [|x l IH]; intros H; [reflexivity|]. cbn [filter]. rewrite (H x (or_introl eq_refl)), IH by (intros y Hy; apply H; right; exact Hy). reflexivity. Qed.
Lemma seen_attribute d a : xa_dims a <> [] -> xa_file a <> [] ->
  shown_field (view d (attribute a)) = (unless_empty (xa_name a), Some (lit "Node"), [(xa_file a, Some (lit "Binary"), Some (lit "Float"), Some (lit "8"), Some (lit "Big"), Some (xa_dims a))]).
Proof.
  intros H1 H2. unfold shown_field, attribute. rewrite view_children, !view_attr. f_equal; [f_equal|].
  - destruct (xa_name a); reflexivity.
  - destruct (xa_name a); reflexivity.
  - cbn [filter xml_name data_item]. change (str_eqb (lit "DataItem") (lit "DataItem")) with true. cbn [map]. unfold shown_file, data_item. rewrite view_text, !view_attr. destruct (xa_dims a); [contradiction|]. reflexivity.
Qed.
Lemma seen_epoch d g : xg_name g <> [] -> Forall (fun a => xa_dims a <> [] /\ xa_file a <> []) (xg_attrs g) ->
  shown_epoch (view d (epoch_grid g)) = (Some (xg_name g), map (fun a => (unless_empty (xa_name a), Some (lit "Node"), [(xa_file a, Some (lit "Binary"), Some (lit "Float"), Some (lit "8"), Some (lit "Big"), Some (xa_dims a))])) (xg_attrs g)).
Proof.
  intros H1 H2. unfold shown_epoch, epoch_grid, grid. rewrite view_children, view_attr. f_equal.
  - destruct (xg_name g); [contradiction|]. reflexivity.
  - cbn [app]. rewrite filter_app. rewrite (filter_all _ (map attribute (xg_attrs g))) by (intros y Hy; apply in_map_iff in Hy; destruct Hy as (a & <- & _); reflexivity).
    change (filter _ (topology _ _ _ _ :: _)) with (@nil xml). rewrite app_nil_r, !map_map. apply map_ext_in. intros a Ha. rewrite Forall_forall in H2. destruct (H2 a Ha). apply seen_attribute; assumption.
Qed.

(** WriteXDMF writes an XML document whose only content is, for a reader of XML,
    the topology with the extents of the domain and a series of num grids T1, T2,
    ...; grid i+1 has one entry per field, in order, that shows the file
    prefix_field_i.bin as big-endian floats of 8 bytes with the extents of the
    domain.  Field names and prefix may contain any printable ASCII characters. *)
Theorem C120_index_file : forall names prefix num dom, (List.length dom = 2 \/ List.length dom = 3)%nat -> Forall xml_text names -> xml_text prefix ->
  exists s doc domain topo series, write_xdmf names prefix num dom = Some s /\ read_xml s = Some doc
  /\ elem_name doc = lit "Xdmf" /\ children "Domain" doc = [domain] /\ children "Topology" domain = [topo] /\ children "Grid" domain = [series]
  /\ attr "TopologyType" topo = Some (dec (Z.of_nat (List.length dom)) ++ lit "DCoRectMesh") /\ attr "Dimensions" topo = dims_text dom
  /\ attr "GridType" series = Some (lit "Collection") /\ attr "CollectionType" series = Some (lit "Temporal")
  /\ map shown_epoch (children "Grid" series)
     = map (fun i => (Some (lit "T" ++ dec (Z.of_nat i + 1)),
                      map (fun n => (unless_empty n, Some (lit "Node"), [(prefix ++ lit "_" ++ n ++ lit "_" ++ dec (Z.of_nat i) ++ lit ".bin", Some (lit "Binary"), Some (lit "Float"), Some (lit "8"), Some (lit "Big"), dims_text dom)])) names)) (seq 0 num).
Proof.
  intros names prefix num dom HL HN HP. assert (ED : exists d, dims_text dom = Some d) by (destruct dom as [|a [|b [|c [|]]]]; cbn in HL; try (exfalso; lia); eexists; reflexivity).
  destruct ED as (d & ED). destruct (ok_dims dom d ED) as (D1 & D2). unfold write_xdmf.
  destruct (create_xdmf names prefix num dom) as [x|] eqn:EX; [|unfold create_xdmf in EX; rewrite ED in EX; discriminate]. assert (G := tree_good names prefix num dom x HN HP EX).
  unfold create_xdmf in EX. rewrite ED in EX. injection EX as EX.
  set (T := xdmf_tree dom x) in *. exists (print_xml 0 T), (view 0 T).
  set (series := grid (lit "TimeSeries") (lit "Collection") (lit "Temporal") (map epoch_grid (xd_grids x)) [] (topology [] [] [] []) (geometry [] [] [] [])
       [XE (lit "Time") [(lit "TimeType", lit "HyperSlab")] [] [data_item (lit "XML") (lit "Float") (dec (Z.of_nat (List.length dom))) [] [] [] (join_char " " (xd_times x))]]).
  set (topo := topology (lit "topo") (xd_topology x) (xd_dims x) []).
  set (geo := geometry (lit "geo") (if Nat.eqb (List.length dom) 2 then lit "ORIGIN_DXDY" else lit "ORIGIN_DXDYDZ") [] [data_item (lit "XML") [] (dec (Z.of_nat (List.length dom))) [] [] [] (lit "0.0 0.0 0.0"); data_item (lit "XML") [] (dec (Z.of_nat (List.length dom))) [] [] [] (lit "1.0 1.0 1.0")]).
  exists (view 1 (XE (lit "Domain") [] [] [topo; geo; series])), (view 2 topo), (view 2 series).
  split; [reflexivity|]. split; [exact (xml_read_back T G)|]. split; [reflexivity|].
  split; [change T with (XE (lit "Xdmf") [] [] [XE (lit "Domain") [] [] [topo; geo; series]]); rewrite view_children; reflexivity|].
  split; [rewrite view_children; reflexivity|]. split; [rewrite view_children; reflexivity|].
  assert (X1 : xd_topology x = dec (Z.of_nat (List.length dom)) ++ lit "DCoRectMesh") by (subst x; reflexivity). assert (X2 : xd_dims x = d) by (subst x; reflexivity).
  split. { unfold topo, topology. rewrite view_attr, X1. destruct (dec (Z.of_nat (List.length dom))) as [|c r] eqn:Ec; [exfalso; exact (dec_not_empty _ Ec)|]. reflexivity. }
  split. { unfold topo, topology. rewrite view_attr, X1, X2, ED. destruct (dec (Z.of_nat (List.length dom))) as [|c r] eqn:Ec; [exfalso; exact (dec_not_empty _ Ec)|]. destruct d; [contradiction|]. reflexivity. }
  split; [reflexivity|]. split; [reflexivity|].
  unfold series, grid. rewrite view_children. cbn [app]. rewrite filter_app. rewrite (filter_all _ (map epoch_grid (xd_grids x))) by (intros y Hy; apply in_map_iff in Hy; destruct Hy as (g & <- & _); reflexivity).
  change (filter _ (topology _ _ _ _ :: _)) with (@nil xml). rewrite app_nil_r, !map_map. subst x. cbn [xd_grids]. rewrite map_map. apply map_ext_in. intros i _. cbv beta. rewrite seen_epoch.
  - cbn [xg_name xg_attrs]. rewrite map_map, ED. reflexivity.
  - discriminate.
  - cbn [xg_attrs]. apply Forall_forall. intros a Ha. apply in_map_iff in Ha. destruct Ha as (n & <- & _). cbn [xa_dims xa_file]. split; [exact D2|]. unfold bin_name. intros X. apply app_eq_nil in X. destruct X as (_ & X). discriminate X.
Qed.
Print Assumptions C120_index_file.

(** Every epoch refers to the first topology and the first geometry of the domain,
    which is the only one and has origin and spacing for the dimensions of the
    domain.  The times are the fractions i / num with the number of epochs after them. *)
Theorem C120_references : forall names prefix num dom, (List.length dom = 2 \/ List.length dom = 3)%nat -> Forall xml_text names -> xml_text prefix ->
  exists s doc domain topo geo series time it, write_xdmf names prefix num dom = Some s /\ read_xml s = Some doc
  /\ children "Domain" doc = [domain] /\ children "Topology" domain = [topo] /\ children "Geometry" domain = [geo] /\ children "Grid" domain = [series] /\ children "Time" series = [time] /\ children "DataItem" time = [it]
  /\ attr "Type" geo = Some (if Nat.eqb (List.length dom) 2 then lit "ORIGIN_DXDY" else lit "ORIGIN_DXDYDZ")
  /\ List.length (children "Grid" series) = num
  /\ Forall (fun g => attr "GridType" g = Some (lit "Uniform")
                     /\ map (attr "Reference") (children "Topology" g) = [Some (lit "/Xdmf/Domain/Topology[1]")]
                     /\ map (attr "Reference") (children "Geometry" g) = [Some (lit "/Xdmf/Domain/Geometry[1]")]) (children "Grid" series)
  /\ text_of it = join_char " " (map (fun i => fmt_f (inject_Z (Z.of_nat i) / inject_Z (Z.of_nat num))) (seq 0 num) ++ [dec (Z.of_nat num)]).
Proof.
  intros names prefix num dom HL HN HP. assert (ED : exists d, dims_text dom = Some d) by (destruct dom as [|a [|b [|c [|]]]]; cbn in HL; try (exfalso; lia); eexists; reflexivity).
  destruct ED as (d & ED). unfold write_xdmf.
  destruct (create_xdmf names prefix num dom) as [x|] eqn:EX; [|unfold create_xdmf in EX; rewrite ED in EX; discriminate]. assert (G := tree_good names prefix num dom x HN HP EX).
  unfold create_xdmf in EX. rewrite ED in EX. injection EX as EX.
  set (T := xdmf_tree dom x) in *. exists (print_xml 0 T), (view 0 T).
  set (titem := data_item (lit "XML") (lit "Float") (dec (Z.of_nat (List.length dom))) [] [] [] (join_char " " (xd_times x))).
  set (time := XE (lit "Time") [(lit "TimeType", lit "HyperSlab")] [] [titem]).
  set (series := grid (lit "TimeSeries") (lit "Collection") (lit "Temporal") (map epoch_grid (xd_grids x)) [] (topology [] [] [] []) (geometry [] [] [] []) [time]).
  set (topo := topology (lit "topo") (xd_topology x) (xd_dims x) []).
  set (geo := geometry (lit "geo") (if Nat.eqb (List.length dom) 2 then lit "ORIGIN_DXDY" else lit "ORIGIN_DXDYDZ") [] [data_item (lit "XML") [] (dec (Z.of_nat (List.length dom))) [] [] [] (lit "0.0 0.0 0.0"); data_item (lit "XML") [] (dec (Z.of_nat (List.length dom))) [] [] [] (lit "1.0 1.0 1.0")]).
  exists (view 1 (XE (lit "Domain") [] [] [topo; geo; series])), (view 2 topo), (view 2 geo), (view 2 series), (view 3 time), (view 4 titem).
  split; [reflexivity|]. split; [exact (xml_read_back T G)|].
  split; [change T with (XE (lit "Xdmf") [] [] [XE (lit "Domain") [] [] [topo; geo; series]]); rewrite view_children; reflexivity|].
  split; [rewrite view_children; reflexivity|]. split; [rewrite view_children; reflexivity|]. split; [rewrite view_children; reflexivity|].
  split. { unfold series, grid. rewrite view_children. cbn [app]. rewrite filter_app. rewrite (filter_none _ (map epoch_grid (xd_grids x))) by (intros y Hy; apply in_map_iff in Hy; destruct Hy as (g & <- & _); reflexivity). reflexivity. }
  split; [unfold time; rewrite view_children; reflexivity|].
  split. { unfold geo, geometry. rewrite view_attr. destruct (Nat.eqb _ 2); reflexivity. }
  assert (CG : children "Grid" (view 2 series) = map (view 3) (map epoch_grid (xd_grids x))).
  { unfold series, grid. rewrite view_children. cbn [app]. rewrite filter_app. rewrite (filter_all _ (map epoch_grid (xd_grids x))) by (intros y Hy; apply in_map_iff in Hy; destruct Hy as (g & <- & _); reflexivity). change (filter _ (topology _ _ _ _ :: _)) with (@nil xml). rewrite app_nil_r. reflexivity. }
  split. { rewrite CG, !map_length. subst x. cbn [xd_grids]. rewrite map_length, seq_length. reflexivity. }
  split. { rewrite CG. apply Forall_forall. intros g Hg. apply in_map_iff in Hg. destruct Hg as (e & <- & He). apply in_map_iff in He. destruct He as (xg & <- & Hx). unfold epoch_grid, grid.
    assert (FN : forall tag, str_eqb (lit "Attribute") tag = false -> filter (fun c => str_eqb (xml_name c) tag) (map attribute (xg_attrs xg)) = []) by (intros tag Ht; apply filter_none; intros y Hy; apply in_map_iff in Hy; destruct Hy as (a & <- & _); exact Ht).
    split; [rewrite view_attr; destruct (xg_name xg); reflexivity|].
    split; rewrite view_children; cbn [app]; rewrite filter_app, FN by reflexivity; reflexivity. }
  unfold titem, data_item. rewrite view_text. subst x. reflexivity.
Qed.
Print Assumptions C120_references.

(** The files the index names, in the order in which a reader finds them. *)
Definition files_shown (doc : node) : list str :=
  flat_map (fun domain => flat_map (fun series => flat_map (fun g => flat_map (fun a => map text_of (children "DataItem" a)) (children "Attribute" g)) (children "Grid" series)) (children "Grid" domain)) (children "Domain" doc).
Lemma files_of_epochs gs : flat_map (fun g => flat_map (fun a => map text_of (children "DataItem" a)) (children "Attribute" g)) gs
  = flat_map (fun e => flat_map (fun a => map (fun f => fst (fst (fst (fst (fst f))))) (snd a)) (snd e)) (map shown_epoch gs).
Proof.
  induction gs as [|g gs IH]; [reflexivity|]. cbn [flat_map map]. rewrite <- IH. f_equal. unfold shown_epoch. cbn [snd]. clear IH. induction (children "Attribute" g) as [|a l IH]; [reflexivity|]. cbn [flat_map map]. rewrite <- IH. f_equal.
  unfold shown_field. cbn [snd]. rewrite map_map. reflexivity.
Qed.
(** If the fields are saved in every epoch with the same prefix, a reader of the
    index finds exactly the files that exist, each of them once. *)
Theorem C120_files_exist : forall names prefix num dom (calls : list (Z * list bfield)), valid_domain dom -> (List.length dom = 2 \/ List.length dom = 3)%nat -> Forall xml_text names -> xml_text prefix ->
  map fst calls = map Z.of_nat (seq 0 num) -> Forall (fun c => map fst (snd c) = names) calls ->
  exists s doc, write_xdmf names prefix num dom = Some s /\ read_xml s = Some doc
  /\ (forall f, In f (files_shown doc) <-> save_epochs prefix calls no_files f <> None)
  /\ (NoDup names -> NoDup (files_shown doc)).
Proof.
  intros names prefix num dom calls HV HL HN HP HC HF. destruct (C120_index_file names prefix num dom HL HN HP) as (s & doc & domain & topo & series & E1 & E2 & _ & E3 & _ & E4 & _ & _ & _ & _ & E5).
  exists s, doc. split; [exact E1|]. split; [exact E2|]. destruct (C38_index_refers_to_files_written names prefix num dom calls HV HC HF) as (x & EX & R1 & R2).
  assert (FS : files_shown doc = refs x).
  { unfold files_shown. rewrite E3. cbn [flat_map]. rewrite E4. cbn [flat_map]. rewrite !app_nil_r, files_of_epochs, E5. unfold create_xdmf in EX. destruct (dims_text dom) as [d|]; [|discriminate]. injection EX as <-. unfold refs. cbn [xd_grids].
    clear. induction (seq 0 num) as [|i l IH]; [reflexivity|]. cbn [map flat_map snd xg_attrs]. rewrite IH. f_equal. rewrite map_map. cbn [xa_file]. clear. induction names as [|n names IH]; [reflexivity|]. cbn [map flat_map snd fst app]. rewrite IH. reflexivity. }
  rewrite FS. split; [exact R1|exact R2].
Qed.
Print Assumptions C120_files_exist.

(** ** Items with values in the index itself *)
(** The number of values of a text with single blanks between them, and the claim
    that an item declares it. *)
Definition blanks (s : str) : nat := List.length (filter (Ascii.eqb " ") s).
Definition declares_its_values (it : node) : Prop := attr "Dimensions" it = Some (dec (Z.of_nat (1 + blanks (text_of it)))).
Definition numeric (c : ascii) : bool := digit_c c || Ascii.eqb c minus_c || Ascii.eqb c dot_c.
Lemma numeric_digits s : forallb digit_c s = true -> forallb numeric s = true.
Proof. intros H. apply forallb_forall. intros c Hc. rewrite forallb_forall in H. unfold numeric. rewrite (H c Hc). reflexivity. Qed.
Lemma numeric_blanks s : forallb numeric s = true -> blanks s = 0%nat.
Proof.
  intros H. unfold blanks. rewrite filter_none; [reflexivity|]. intros c Hc. rewrite forallb_forall in H. specialize (H c Hc). destruct (Ascii.eqb_spec " " c) as [<-|]; [discriminate H|reflexivity].
Qed.
Lemma numeric_dec_nat z : (0 <= z)%Z -> forallb numeric (dec_nat z) = true.
Proof. intros H. apply numeric_digits. exact (proj1 (dec_nat_spec z H)). Qed.
Lemma numeric_fmt q : forallb numeric (fmt_f q) = true.
Proof.
  unfold fmt_f. set (n := round_even (Qabs q * 1000000)%Q). assert (N : (0 <= n)%Z).
  { unfold n, round_even. assert (0 <= Qfloor (Qabs q * 1000000))%Z. { apply Z.le_trans with (Qfloor 0); [reflexivity|]. apply Qfloor_resp_le. apply Qmult_le_0_compat; [apply Qabs_nonneg|discriminate]. }
    destruct (_ ?= _)%Q; [destruct (Z.even _)| |]; lia. }
  rewrite !forallb_app. cbn [forallb]. rewrite numeric_dec_nat by (apply Z.div_pos; lia).
  rewrite (numeric_digits (pad_dec 6 (n mod 1000000))) by (refine (proj1 (pad_dec_spec 6 0 _ _)); apply Z.mod_pos_bound; reflexivity). destruct (Qltb q 0); reflexivity.
Qed.
Lemma blanks_app a b : blanks (a ++ b) = (blanks a + blanks b)%nat.
Proof. unfold blanks. rewrite filter_app, app_length. reflexivity. Qed.
Lemma blanks_join l : Forall (fun x => blanks x = 0%nat) l -> l <> [] -> (1 + blanks (join_char " " l))%nat = List.length l.
Proof.
  induction 1 as [|x l Hx Hl IH]; intros N; [contradiction|]. destruct l as [|y l]; [cbn [join_char List.length]; lia|]. change (join_char " " (x :: y :: l)) with (x ++ [" "%char] ++ join_char " " (y :: l)).
  rewrite !blanks_app, Hx. change (blanks [" "%char]) with 1%nat. specialize (IH ltac:(discriminate)). cbn [List.length] in *. lia.
Qed.
(** The two items of the geometry hold three values each, the item of the time
    num + 1 values.  All of them declare as many values as the domain has
    dimensions. *)
Theorem C120_inline_items : forall names prefix num dom, (List.length dom = 2 \/ List.length dom = 3)%nat -> Forall xml_text names -> xml_text prefix ->
  exists s doc domain geo series time, write_xdmf names prefix num dom = Some s /\ read_xml s = Some doc
  /\ children "Domain" doc = [domain] /\ children "Geometry" domain = [geo] /\ children "Grid" domain = [series] /\ children "Time" series = [time]
  /\ map (fun it => (text_of it, attr "Dimensions" it)) (children "DataItem" geo)
     = [(lit "0.0 0.0 0.0", Some (dec (Z.of_nat (List.length dom)))); (lit "1.0 1.0 1.0", Some (dec (Z.of_nat (List.length dom))))]
  /\ exists it, children "DataItem" time = [it] /\ (1 + blanks (text_of it) = num + 1)%nat /\ attr "Dimensions" it = Some (dec (Z.of_nat (List.length dom))).
Proof.
  intros names prefix num dom HL HN HP. assert (ED : exists d, dims_text dom = Some d) by (destruct dom as [|a [|b [|c [|]]]]; cbn in HL; try (exfalso; lia); eexists; reflexivity).
  destruct ED as (d & ED). unfold write_xdmf.
  destruct (create_xdmf names prefix num dom) as [x|] eqn:EX; [|unfold create_xdmf in EX; rewrite ED in EX; discriminate]. assert (G := tree_good names prefix num dom x HN HP EX).
  unfold create_xdmf in EX. rewrite ED in EX. injection EX as EX.
  set (T := xdmf_tree dom x) in *. exists (print_xml 0 T), (view 0 T).
  set (titem := data_item (lit "XML") (lit "Float") (dec (Z.of_nat (List.length dom))) [] [] [] (join_char " " (xd_times x))).
  set (time := XE (lit "Time") [(lit "TimeType", lit "HyperSlab")] [] [titem]).
  set (series := grid (lit "TimeSeries") (lit "Collection") (lit "Temporal") (map epoch_grid (xd_grids x)) [] (topology [] [] [] []) (geometry [] [] [] []) [time]).
  set (topo := topology (lit "topo") (xd_topology x) (xd_dims x) []).
  set (geo := geometry (lit "geo") (if Nat.eqb (List.length dom) 2 then lit "ORIGIN_DXDY" else lit "ORIGIN_DXDYDZ") [] [data_item (lit "XML") [] (dec (Z.of_nat (List.length dom))) [] [] [] (lit "0.0 0.0 0.0"); data_item (lit "XML") [] (dec (Z.of_nat (List.length dom))) [] [] [] (lit "1.0 1.0 1.0")]).
  exists (view 1 (XE (lit "Domain") [] [] [topo; geo; series])), (view 2 geo), (view 2 series), (view 3 time).
  split; [reflexivity|]. split; [exact (xml_read_back T G)|].
  split; [change T with (XE (lit "Xdmf") [] [] [XE (lit "Domain") [] [] [topo; geo; series]]); rewrite view_children; reflexivity|].
  split; [rewrite view_children; reflexivity|]. split; [rewrite view_children; reflexivity|].
  split. { unfold series, grid. rewrite view_children. cbn [app]. rewrite filter_app. rewrite (filter_none _ (map epoch_grid (xd_grids x))) by (intros y Hy; apply in_map_iff in Hy; destruct Hy as (g & <- & _); reflexivity). reflexivity. }
  assert (ND : opt_attr "Dimensions" (dec (Z.of_nat (List.length dom))) = [(lit "Dimensions", dec (Z.of_nat (List.length dom)))]) by (unfold opt_attr; destruct (dec (Z.of_nat (List.length dom))) eqn:E0; [exfalso; exact (dec_not_empty _ E0)|reflexivity]).
  split. { unfold geo, geometry. rewrite view_children. change (filter _ _) with [data_item (lit "XML") [] (dec (Z.of_nat (List.length dom))) [] [] [] (lit "0.0 0.0 0.0"); data_item (lit "XML") [] (dec (Z.of_nat (List.length dom))) [] [] [] (lit "1.0 1.0 1.0")].
    cbn [map]. unfold data_item. rewrite !view_text, !view_attr, ND. reflexivity. }
  exists (view 4 titem). split; [unfold time; rewrite view_children; reflexivity|]. unfold titem, data_item. rewrite view_text, view_attr, ND. split; [|reflexivity].
  rewrite blanks_join.
  - subst x. cbn [xd_times]. rewrite app_length, map_length, seq_length. reflexivity.
  - subst x. cbn [xd_times]. apply Forall_app. split; [|constructor; [|constructor]].
    + apply Forall_forall. intros y Hy. apply in_map_iff in Hy. destruct Hy as (i & <- & _). apply numeric_blanks, numeric_fmt.
    + apply numeric_blanks. unfold dec. destruct (Z.of_nat num <? 0)%Z eqn:E0; [apply Z.ltb_lt in E0; lia|]. apply numeric_dec_nat. lia.
  - subst x. cbn [xd_times]. intros X. apply app_eq_nil in X. destruct X as (_ & X). discriminate X.
Qed.
Print Assumptions C120_inline_items.
(** So origin and spacing are declared wrongly in two dimensions, and the times in
    all cases but num + 1 = dimension. *)
Theorem C120_declared_values_refuted : forall names prefix num dom, (List.length dom = 2 \/ List.length dom = 3)%nat -> Forall xml_text names -> xml_text prefix ->
  exists s doc domain geo series time it, write_xdmf names prefix num dom = Some s /\ read_xml s = Some doc
  /\ children "Domain" doc = [domain] /\ children "Geometry" domain = [geo] /\ children "Grid" domain = [series] /\ children "Time" series = [time] /\ children "DataItem" time = [it]
  /\ (Forall declares_its_values (children "DataItem" geo) <-> List.length dom = 3%nat)
  /\ (declares_its_values it <-> (num + 1 = List.length dom)%nat).
Proof.
  intros names prefix num dom HL HN HP. destruct (C120_inline_items names prefix num dom HL HN HP) as (s & doc & domain & geo & series & time & E1 & E2 & E3 & E4 & E5 & E6 & E7 & it & E8 & E9 & E10).
  exists s, doc, domain, geo, series, time, it. repeat (split; [assumption|]). split.
  - set (k := List.length dom) in *. assert (LI : forall z t, text_of z = t -> blanks t = 2%nat -> attr "Dimensions" z = Some (dec (Z.of_nat k)) -> declares_its_values z <-> k = 3%nat).
    { intros z t H1 H2 H3. unfold declares_its_values. rewrite H1, H2, H3. split; [intros H; injection H as H; apply dec_inj in H; lia|intros ->; reflexivity]. }
    destruct (children "DataItem" geo) as [|a [|b [|]]]; try discriminate E7. assert (A := f_equal (fun l => nth 0 l ([], None)) E7). assert (B := f_equal (fun l => nth 1 l ([], None)) E7). cbn [map nth] in A, B.
    assert (LA := LI a _ (f_equal fst A) eq_refl (f_equal snd A)). assert (LB := LI b _ (f_equal fst B) eq_refl (f_equal snd B)).
    split; [intros H; inversion H; apply LA; assumption|]. intros H. constructor; [apply LA, H|]. constructor; [apply LB, H|constructor].
  - unfold declares_its_values. rewrite E9, E10. split; [intros H; injection H as H; apply dec_inj in H; lia|intros ->; reflexivity].
Qed.
Print Assumptions C120_declared_values_refuted.

(** A small index, and names that need escapes. *)
Example C120_nonvacuous : write_xdmf [lit "a<b"] (lit "run") 1 [4; 8]%Z = Some (lit "<Xdmf>
    <Domain>
        <Topology name=""topo"" TopologyType=""2DCoRectMesh"" Dimensions=""4 8""></Topology>
        <Geometry name=""geo"" Type=""ORIGIN_DXDY"">
            <DataItem Format=""XML"" Dimensions=""2"">0.0 0.0 0.0</DataItem>
            <DataItem Format=""XML"" Dimensions=""2"">1.0 1.0 1.0</DataItem>
        </Geometry>
        <Grid Name=""TimeSeries"" GridType=""Collection"" CollectionType=""Temporal"">
            <Grid Name=""T1"" GridType=""Uniform"">
                <Attribute Name=""a&lt;b"" Center=""Node"">
                    <DataItem Format=""Binary"" Dimensions=""4 8"" Precision=""8"" DataType=""Float"" Endian=""Big"">run_a&lt;b_0.bin</DataItem>
                </Attribute>
                <Topology Reference=""/Xdmf/Domain/Topology[1]""></Topology>
                <Geometry Reference=""/Xdmf/Domain/Geometry[1]""></Geometry>
            </Grid>
            <Topology></Topology>
            <Geometry></Geometry>
            <Time TimeType=""HyperSlab"">
                <DataItem Format=""XML"" NumberType=""Float"" Dimensions=""2"">0.000000 1</DataItem>
            </Time>
        </Grid>
    </Domain>
</Xdmf>") /\ Forall xml_text [lit "a<b"; lit "conc"] /\ xml_text (lit "run").
Proof. split; [vm_compute; reflexivity|]. split; [repeat constructor|reflexivity]. Qed.
