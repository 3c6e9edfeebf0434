(** Model of the field database. *)
From Verif Require Export IndexModel ParseModel Complex.
Open Scope nat_scope.

(** ** Tables (pf/database.go:84-141).
    Rows are kept in the order of insertion, which is the order of the row
    identifier; nothing is ever deleted, so the automatic INTEGER PRIMARY KEY of
    row number k (from 0) is k + 1.  The SQL engine is trusted to execute the
    statements as modelled here: transactions are atomic, a table scan follows
    the row identifier. *)
Record frow := { fr_name : str; fr_value : R; fr_pos : nat; fr_ts : Z; fr_sim : Z }.
Record arow := { ar_key : str; ar_value : R; ar_sim : Z }.
Record trow := { tr_key : str; tr_value : str; tr_sim : Z }.
Record srow := { sr_key : str; sr_value : R; sr_ts : Z; sr_sim : Z }.
Record crow := { cr_value : str; cr_sim : Z }.
Record db := {
  t_ids : list Z;                 (* simIDs *)
  t_pos : list (list Z);          (* positions: X, Y, Z *)
  t_fields : list frow;
  t_attr : list arow;             (* simAttributes *)
  t_text : list trow;             (* simTextAttributes *)
  t_comments : list crow;
  t_series : list srow
}.
Definition empty_db : db :=
  {| t_ids := []; t_pos := []; t_fields := []; t_attr := []; t_text := []; t_comments := []; t_series := [] |}.

(** A committed transaction.
    What Begin ... Commit of pf/database.go:175-342 may write. *)
Inductive txn :=
| TxId (sim : Z)
| TxPos (rows : list (list Z))
| TxFields (rows : list frow)
| TxAttr (rows : list arow)
| TxText (rows : list trow)
| TxComment (row : crow)
| TxSeries (rows : list srow).

(** simID is UNIQUE: a second row with the same number is refused, and the
    error is not looked at (pf/database.go:152). *)
Definition apply_txn (d : db) (t : txn) : db :=
  let 'Build_db ids ps fs at_ tx cs ss := d in
  match t with
  | TxId s => Build_db (if existsb (Z.eqb s) ids then ids else ids ++ [s]) ps fs at_ tx cs ss
  | TxPos rows => Build_db ids (ps ++ rows) fs at_ tx cs ss
  | TxFields rows => Build_db ids ps (fs ++ rows) at_ tx cs ss
  | TxAttr rows => Build_db ids ps fs (at_ ++ rows) tx cs ss
  | TxText rows => Build_db ids ps fs at_ (tx ++ rows) cs ss
  | TxComment row => Build_db ids ps fs at_ tx (cs ++ [row]) ss
  | TxSeries rows => Build_db ids ps fs at_ tx cs (ss ++ rows)
  end.
Fixpoint apply_txns (d : db) (ts : list txn) : db :=
  match ts with [] => d | t :: ts' => apply_txns (apply_txn d t) ts' end.

(** ** The FieldDB object (pf/database.go:67-80); DomainSize nil is None. *)
Record handle := { h_dom : option (list Z); h_sim : Z; h_init : bool }.
Definition dom_list (h : handle) : list Z := match h_dom h with Some l => l | None => [] end.

(** pf/database.go:84-156, initialize; [rnd] is the number drawn. *)
Definition initialize (h : handle) (rnd : Z) : handle * list txn :=
  if (h_sim h =? 0)%Z
  then ({| h_dom := h_dom h; h_sim := rnd; h_init := true |}, [TxId rnd])
  else ({| h_dom := h_dom h; h_sim := h_sim h; h_init := true |}, []).
Definition ensure_init (h : handle) (rnd : Z) : handle * list txn :=
  if h_init h then (h, []) else initialize h rnd.

(** pf/database.go:159-169. *)
Definition positions_populated (d : db) : bool := Nat.ltb 1 (length (t_pos d)).

(** pfutil/sliceOperations.go:43-49, ProdInt. *)
Definition prod_int (l : list Z) : Z := fold_left Z.mul l 1%Z.

(** pf/database.go:172-197: the rows inserted; [copy(pos3, pos)] keeps the
    entries of pos3 beyond the length of pos, which stay zero.  None: panic in
    Pos, before the transaction commits. *)
Definition pad3 (p : list Z) : list Z := [nth 0 p 0; nth 1 p 0; nth 2 p 0]%Z.
Fixpoint position_rows (dom : list Z) (n : nat) : option (list (list Z)) :=
  match n with
  | O => Some []
  | S n' => match position_rows dom n', IndexModel.pos dom (Z.of_nat n') with
            | Some rows, Some p => Some (rows ++ [pad3 p])
            | _, _ => None
            end
  end.

(** pf/database.go:347-371, domainSizeOk.  MAX of an empty table leaves 0. *)
Fixpoint list_max (l : list Z) : Z :=
  match l with [] => 0 | [x] => x | x :: l' => Z.max x (list_max l') end%Z.
Definition column_max (i : nat) (d : db) : Z := list_max (map (fun r => nth i r 0%Z) (t_pos d)).
Fixpoint sizes_ok (dom : list Z) (i : nat) (d : db) : option bool :=
  match dom with
  | [] => Some true
  | n :: dom' => if Nat.ltb i 3
                 then if (column_max i d =? n - 1)%Z then sizes_ok dom' (S i) d else Some false
                 else None      (* columns[i]: index out of range *)
  end.
Definition domain_size_ok (h : handle) (d : db) : option bool :=
  match h_dom h with None => Some true | Some dom => sizes_ok dom 0 d end.

(** pf/database.go:200-227, insertRealPart.  None: panic, nothing inserted. *)
Fixpoint field_rows (name : str) (ts sim : Z) (vs : list C) (i : nat) : list frow :=
  match vs with
  | [] => []
  | v :: vs' => {| fr_name := name; fr_value := fst v; fr_pos := i; fr_ts := ts; fr_sim := sim |}
                :: field_rows name ts sim vs' (S i)
  end.
Definition insert_real_part (h : handle) (name : str) (ts : Z) (vs : list C) (d : db) : option txn :=
  match domain_size_ok h d with
  | Some true => if (Z.of_nat (length vs) =? prod_int (dom_list h))%Z
                 then Some (TxFields (field_rows name ts (h_sim h) vs 0)) else None
  | _ => None
  end.

(** pf/database.go:238-242: the loop over the fields; the flag tells that it
    ended without panic. *)
Fixpoint save_loop (h : handle) (ts : Z) (fs : list (str * list C)) (d : db) : list txn * bool :=
  match fs with
  | [] => ([], true)
  | (name, vs) :: fs' =>
      match insert_real_part h name ts vs d with
      | None => ([], false)
      | Some t => let '(txs, ok) := save_loop h ts fs' (apply_txn d t) in (t :: txs, ok)
      end
  end.

(** The operations of the API that write.  Maps are given by the list of their
    entries in the order of the iteration.
    The methods of pf/database.go:172-342 that write. *)
Inductive dbop :=
| OpSave (fields : list (str * list C)) (epoch : Z)       (* SaveFields *)
| OpComment (text : str)
| OpAttr (kv : list (str * R))                            (* SetAttr *)
| OpText (kv : list (str * str))                          (* SetTextAttr *)
| OpSeries (kv : list (str * R)) (ts : Z).                (* TimeSeries *)

(** "\n" of pf/database.go:247. *)
Definition newline_c : ascii := ascii_of_nat 10.
(** pf/database.go:247, strings.ReplaceAll(comment, "\n", " "). *)
Definition one_line (s : str) : str := map (fun c => if Ascii.eqb c newline_c then " "%char else c) s.

(** pf/database.go:231-343: the transactions an operation commits, one after
    the other, the object afterwards, and whether it returned normally. *)
Definition exec (h : handle) (rnd : Z) (o : dbop) (d : db) : handle * list txn * bool :=
  let '(h1, t0) := ensure_init h rnd in
  let d1 := apply_txns d t0 in
  match o with
  | OpSave fields epoch =>
      let pops := if positions_populated d1 then Some []
                  else match position_rows (dom_list h1) (Z.to_nat (prod_int (dom_list h1))) with
                       | Some rows => Some [TxPos rows] | None => None end in
      match pops with
      | None => (h1, t0, false)
      | Some t1 => let '(t2, ok) := save_loop h1 epoch fields (apply_txns d1 t1) in
                   (h1, t0 ++ t1 ++ t2, ok)
      end
  | OpComment text => (h1, t0 ++ [TxComment {| cr_value := one_line text; cr_sim := h_sim h1 |}], true)
  | OpAttr kv => (h1, t0 ++ [TxAttr (map (fun e => {| ar_key := fst e; ar_value := snd e; ar_sim := h_sim h1 |}) kv)], true)
  | OpText kv => (h1, t0 ++ [TxText (map (fun e => {| tr_key := fst e; tr_value := snd e; tr_sim := h_sim h1 |}) kv)], true)
  | OpSeries kv ts => (h1, t0 ++ [TxSeries (map (fun e => {| sr_key := fst e; sr_value := snd e; sr_ts := ts; sr_sim := h_sim h1 |}) kv)], true)
  end.

(** ** Histories: any number of objects, in any order of operations.  A process
    may die in the middle of an operation, after some of its commits. *)
(** Not in the source: one call of a method of pf/database.go by one object. *)
Record event := { ev_who : nat; ev_rnd : Z; ev_op : dbop; ev_crash : option nat }.
(** Not in the source: the database and the objects of type FieldDB (pf/database.go:67). *)
Record world := { w_db : db; w_handles : nat -> handle }.
(** Not in the source: a call, possibly cut off by a crash. *)
Definition step (w : world) (e : event) : world :=
  let '(h, txs, _) := exec (w_handles w (ev_who e)) (ev_rnd e) (ev_op e) (w_db w) in
  {| w_db := apply_txns (w_db w) (match ev_crash e with Some n => firstn n txs | None => txs end);
     w_handles := fun k => if Nat.eqb k (ev_who e) then h else w_handles w k |}.
(** Not in the source: a history of calls. *)
Fixpoint run (w : world) (es : list event) : world :=
  match es with [] => w | e :: es' => run (step w e) es' end.

(** ** Reading *)

(** Rows of one simulation and timestep; auxiliary, SQL "WHERE simID=? AND timestep=?" of pf/database.go:403. *)
Definition rows_at (sim ts : Z) (d : db) : list frow :=
  filter (fun r => (fr_sim r =? sim)%Z && (fr_ts r =? ts)%Z) (t_fields d).
(** SQL "SELECT DISTINCT" of pf/database.go:378. *)
Fixpoint distinct (l : list str) : list str :=
  match l with [] => [] | x :: l' => if existsb (str_eqb x) l' then distinct l' else x :: distinct l' end.
(** pf/database.go:377-388: SELECT DISTINCT name ... ORDER BY name. *)
Definition names_at (sim ts : Z) (d : db) : list str := sort_str (distinct (map fr_name (rows_at sim ts d))).

(** Assignment to an element of a slice in pf/database.go; None: out of range. *)
Fixpoint set_nth {A} (i : nat) (v : A) (l : list A) : option (list A) :=
  match l, i with
  | [], _ => None
  | _ :: l', O => Some (v :: l')
  | x :: l', S i' => match set_nth i' v l' with Some r => Some (x :: r) | None => None end
  end.
(** pf/database.go:403-409: writing the values; None: index out of range. *)
Fixpoint fill (name : str) (rows : list frow) (data : list C) : option (list C) :=
  match rows with
  | [] => Some data
  | r :: rows' => if str_eqb (fr_name r) name
                  then match set_nth (fr_pos r) (RtoC (fr_value r)) data with
                       | Some data' => fill name rows' data'
                       | None => None
                       end
                  else fill name rows' data
  end.
Fixpoint load_names (names : list str) (rows : list frow) (n : nat) : option (list (str * list C)) :=
  match names with
  | [] => Some []
  | name :: names' => match fill name rows (repeat C0 n), load_names names' rows n with
                      | Some data, Some r => Some ((name, data) :: r)
                      | _, _ => None
                      end
  end.
(** pf/database.go:376-416, Load.  NewField without values: zeros
    (pf/model.go:43-57). *)
Definition load (sim ts : Z) (d : db) : option (list (str * list C)) :=
  load_names (names_at sim ts d) (rows_at sim ts d) (length (t_pos d)).

(** pf/database.go:420-430, LoadLast; MAX of no rows leaves 0. *)
Definition last_step (sim : Z) (d : db) : Z :=
  list_max (map fr_ts (filter (fun r => (fr_sim r =? sim)%Z) (t_fields d))).
Definition load_last (sim : Z) (d : db) : option (list (str * list C)) := load sim (last_step sim d) d.
