(** Model of WriteXDMF: the XML text of the index. *)
From Verif Require Export FileModel.
Open Scope Z_scope.

(** An element as encoding/xml sees the structs of pf/xdmf.go:10-80: name,
    attributes, chardata and children. *)
Inductive xml := XE (name : str) (attrs : list (str * str)) (text : str) (children : list xml).

(** xml.EscapeText, character by character (pf/xdmf.go:171).  Characters that XML
    does not allow are replaced by U+FFFD (three bytes).  Simplified: characters
    from 128 on are kept, which is right for UTF-8. *)
Definition xml_char (c : ascii) : str :=
  let n := N_of_ascii c in
  if (n =? 34)%N then lit "&#34;" else if (n =? 39)%N then lit "&#39;" else if (n =? 38)%N then lit "&amp;"
  else if (n =? 60)%N then lit "&lt;" else if (n =? 62)%N then lit "&gt;"
  else if (n =? 9)%N then lit "&#x9;" else if (n =? 10)%N then lit "&#xA;" else if (n =? 13)%N then lit "&#xD;"
  else if (n <? 32)%N then map ascii_of_N [239; 191; 189]%N
  else [c].
(** xml.EscapeText (pf/xdmf.go:171). *)
Definition xml_escape (s : str) : str := flat_map xml_char s.
(** An attribute of a start tag (pf/xdmf.go:171). *)
Definition xml_attr (a : str * str) : str := lit " " ++ fst a ++ lit "=" ++ [ascii_of_N 34] ++ xml_escape (snd a) ++ [ascii_of_N 34].
(** The line break and indentation of enc.Indent (pf/xdmf.go:170). *)
Definition xml_line (depth : nat) : str := ascii_of_N 10 :: concat (repeat (lit "    ") depth).
(** enc.Encode (pf/xdmf.go:171) on an element: children on lines of their own,
    the end tag on a new line exactly if there are children. *)
Fixpoint print_xml (depth : nat) (e : xml) : str :=
  match e with
  | XE n a t ch =>
      lit "<" ++ n ++ flat_map xml_attr a ++ lit ">" ++ xml_escape t
      ++ flat_map (fun c => xml_line (S depth) ++ print_xml (S depth) c) ch
      ++ match ch with [] => [] | _ => xml_line depth end ++ lit "</" ++ n ++ lit ">"
  end.

(** omitempty of the tags in pf/xdmf.go:10-65 for strings. *)
Definition opt_attr (k : string) (v : str) : list (str * str) := match v with [] => [] | _ => [(lit k, v)] end.
(** pf/xdmf.go:28-38, XDMFDataItem; Dim is never set, [precision] is empty for 0. *)
Definition data_item (format number dims precision dtype endian value : str) : xml :=
  XE (lit "DataItem") (opt_attr "Format" format ++ opt_attr "NumberType" number ++ opt_attr "Dimensions" dims ++ opt_attr "Precision" precision
                       ++ opt_attr "DataType" dtype ++ opt_attr "Endian" endian) value [].
(** pf/xdmf.go:10-16, XDMFTopology. *)
Definition topology (name type dims ref : str) : xml :=
  XE (lit "Topology") (opt_attr "name" name ++ opt_attr "TopologyType" type ++ opt_attr "Dimensions" dims ++ opt_attr "Reference" ref) [] [].
(** pf/xdmf.go:19-25, XDMFGeometry. *)
Definition geometry (name type ref : str) (items : list xml) : xml :=
  XE (lit "Geometry") (opt_attr "name" name ++ opt_attr "Type" type ++ opt_attr "Reference" ref) [] items.
(** pf/xdmf.go:41-46, XDMFAttribute, with the values of 143-154. *)
Definition attribute (a : xattr) : xml :=
  XE (lit "Attribute") (opt_attr "Name" (xa_name a) ++ opt_attr "Center" (lit "Node")) []
     [data_item (lit "Binary") [] (xa_dims a) (lit "8") (lit "Float") (lit "Big") (xa_file a)].
(** pf/xdmf.go:56-66, XDMFGrid: the children in the order of the fields of the
    struct; omitempty does not leave out structs, only the nil pointer Time. *)
Definition grid (name type collection : str) (grids attributes : list xml) (topo geo : xml) (time : list xml) : xml :=
  XE (lit "Grid") (opt_attr "Name" name ++ opt_attr "GridType" type ++ opt_attr "CollectionType" collection) [] (grids ++ attributes ++ [topo; geo] ++ time).
(** pf/xdmf.go:134-156, the grid of one epoch. *)
Definition epoch_grid (g : xgrid) : xml :=
  grid (xg_name g) (lit "Uniform") [] [] (map attribute (xg_attrs g)) (topology [] [] [] (lit "/Xdmf/Domain/Topology[1]")) (geometry [] [] (lit "/Xdmf/Domain/Geometry[1]") []) [].
(** pf/xdmf.go:83-161, the whole index as elements. *)
Definition xdmf_tree (dom : list Z) (x : xdmf) : xml :=
  let dim := dec (Z.of_nat (length dom)) in
  let origin v := data_item (lit "XML") [] dim [] [] [] v in
  XE (lit "Xdmf") [] [] [XE (lit "Domain") [] []
    [topology (lit "topo") (xd_topology x) (xd_dims x) [];
     geometry (lit "geo") (if Nat.eqb (length dom) 2 then lit "ORIGIN_DXDY" else lit "ORIGIN_DXDYDZ") [] [origin (lit "0.0 0.0 0.0"); origin (lit "1.0 1.0 1.0")];
     grid (lit "TimeSeries") (lit "Collection") (lit "Temporal") (map epoch_grid (xd_grids x)) [] (topology [] [] [] []) (geometry [] [] [] [])
       [XE (lit "Time") [(lit "TimeType", lit "HyperSlab")] [] [data_item (lit "XML") (lit "Float") dim [] [] [] (join_char " " (xd_times x))]]]].
(** pf/xdmf.go:164-173, WriteXDMF: the contents of the file; None: panic. *)
Definition write_xdmf (names : list str) (prefix : str) (num : nat) (dom : list Z) : option str :=
  option_map (fun x => print_xml 0 (xdmf_tree dom x)) (create_xdmf names prefix num dom).
