(** Model of the field files: raw binary, 8-bit images, CSV and the XDMF index. *)
From Verif Require Export IndexModel TermModel.
From Coq Require Export QArith Qround.
Open Scope Z_scope.

(** ** Files.  A file system maps names to contents. *)
(** Contents of a file of pf/fileIO.go. *)
Definition bytes := list N.
(** The directory pf/fileIO.go writes to. *)
Definition files := str -> option bytes.
(** An empty directory. *)
Definition no_files : files := fun _ => None.
(** os.Create of pf/fileIO.go:35,88,185 followed by writing: replaces the contents. *)
Definition write_file (fs : files) (name : str) (b : bytes) : files :=
  fun n => if str_eqb n name then Some b else fs n.

(** ** Decimal numbers: the verb %d of fmt.Sprintf *)
(** fmt "%d" of the file names of pf/fileIO.go. *)
Definition digit_of (d : Z) : ascii := ascii_of_N (Z.to_N (48 + d)).
(** fmt "%d" of the file names of pf/fileIO.go. *)
Fixpoint dec_fuel (f : nat) (n : Z) : str :=
  match f with
  | O => []
  | S f' => if n <? 10 then [digit_of n] else dec_fuel f' (n / 10) ++ [digit_of (n mod 10)]
  end.
(** fmt "%d" of the file names of pf/fileIO.go. *)
Definition dec_nat (n : Z) : str := dec_fuel (S (Z.to_nat (Z.log2 n))) n.
(** fmt "%d" of the file names of pf/fileIO.go. *)
Definition dec (z : Z) : str := if z <? 0 then minus_c :: dec_nat (- z) else dec_nat z.

(** ** Raw binary files.  A float64 is its pattern of 64 bits.
    encoding/binary writes and reads it with the most significant byte first. *)
(** binary.Write with binary.BigEndian in pf/fileIO.go:94. *)
Fixpoint be_bytes (n : nat) (v : N) : bytes :=
  match n with O => [] | S n' => be_bytes n' (v / 256)%N ++ [(v mod 256)%N] end.
(** binary.Read with binary.BigEndian in pf/fileIO.go:81. *)
Fixpoint be_value (acc : N) (b : bytes) : N :=
  match b with [] => acc | x :: b' => be_value (256 * acc + x)%N b' end.

(** pf/fileIO.go:87-95, SaveFloat64. *)
Definition float_bytes (data : list N) : bytes := flat_map (be_bytes 8) data.
(** pf/fileIO.go:66-83, LoadFloat64: as many values as eight bytes fit. *)
Fixpoint read_floats (n : nat) (b : bytes) : list N :=
  match n with O => [] | S n' => be_value 0 (firstn 8 b) :: read_floats n' (skipn 8 b) end.
Definition load_float64 (fs : files) (name : str) : option (list N) :=
  match fs name with Some b => Some (read_floats (Nat.div (length b) 8) b) | None => None end.

(** pf/fileIO.go:31, 59: "%s_%s_%d.bin". *)
Definition bin_name (prefix field : str) (epoch : Z) : str :=
  prefix ++ lit "_" ++ field ++ lit "_" ++ dec epoch ++ lit ".bin".

(** pf/model.go:17-20, Field: name, real and imaginary parts. *)
Definition bfield := (str * list (N * N))%type.
(** pf/model.go:35-41 (SaveReal), pf/fileIO.go:57-62 (Float64IO.SaveFields). *)
Fixpoint save_float64 (prefix : str) (fields : list bfield) (epoch : Z) (fs : files) : files :=
  match fields with
  | [] => fs
  | (name, data) :: fields' =>
      save_float64 prefix fields' epoch (write_file fs (bin_name prefix name epoch) (float_bytes (map fst data)))
  end.
(** Calls of the callback pf/fileIO.go:57-63, one after the other. *)
Fixpoint save_epochs (prefix : str) (calls : list (Z * list bfield)) (fs : files) : files :=
  match calls with [] => fs | (epoch, fields) :: calls' => save_epochs prefix calls' (save_float64 prefix fields epoch fs) end.

(** Comparison of floats, auxiliary. *)
Definition Qltb (a b : Q) : bool := negb (Qle_bool b a).
(** Auxiliary: fails if one of the results fails. *)
Fixpoint all_some {A} (l : list (option A)) : option (list A) :=
  match l with
  | [] => Some []
  | Some x :: l' => match all_some l' with Some r => Some (x :: r) | None => None end
  | None :: _ => None
  end.
(** ** CSV files.  encoding/csv is trusted to give back the records that were
    written; a file is its list of records. *)
(** The records of csv.NewWriter and csv.NewReader in pf/fileIO.go:125,192. *)
Definition records := list (list str).

(** fmt "%f" of pf/fileIO.go:205: rounding to nearest, ties to the even digit. *)
Definition round_even (q : Q) : Z :=
  let n := Qfloor q in
  match (q - inject_Z n ?= 1 # 2)%Q with
  | Lt => n
  | Gt => n + 1
  | Eq => if Z.even n then n else n + 1
  end.
(** fmt "%f" of pf/fileIO.go:205: digits after the point. *)
Fixpoint pad_dec (k : nat) (m : Z) : str :=
  match k with O => [] | S k' => pad_dec k' (m / 10) ++ [digit_of (m mod 10)] end.
(** fmt "%f" of pf/fileIO.go:205: six decimals. *)
Definition fmt_f (q : Q) : str :=
  let n := round_even (Qabs q * 1000000) in
  (if Qltb q 0 then [minus_c] else []) ++ dec_nat (n / 1000000) ++ dot_c :: pad_dec 6 (n mod 1000000).

(** strconv.ParseFloat of such a text; anything else counts as an error, for
    which the loader takes the value zero (pf/fileIO.go:146). *)
Definition parse_f (s : str) : option Q :=
  let neg := match s with m :: _ => Ascii.eqb m minus_c | [] => false end in
  let s2 := if neg then skipn 1 s else s in
  let ip := take_while digit_c s2 in
  match ip, drop_while digit_c s2 with
  | _ :: _, d :: fp => if Ascii.eqb d dot_c && forallb digit_c fp then Some (dec_val neg ip fp) else None
  | _, _ => None
  end.
Definition parse_or_zero (s : str) : Q := match parse_f s with Some q => q | None => 0%Q end.

(** Outcomes of SaveCsv (pf/fileIO.go:163-210). *)
Inductive saved := Panic | Nothing | Written (r : records).

(** pf/fileIO.go:197-208: one record; None: panic. *)
Definition csv_pos3 (p : list Z) : list Z := [nth 0 p 0; nth 1 p 0; nth 2 p 0].
Definition csv_row (dom : list Z) (data : list (str * list Q)) (i : nat) : option (list str) :=
  match IndexModel.pos dom (Z.of_nat i), all_some (map (fun f => nth_error (snd f) i) data) with
  | Some p, Some vs => Some (map dec (csv_pos3 p) ++ map fmt_f vs)
  | _, _ => None
  end.
Definition prod_dims (l : list Z) : Z := fold_left Z.mul l 1.
(** pf/fileIO.go:163-209, SaveCsv. *)
Definition save_csv (data : list (str * list Q)) (dom : option (list Z)) : saved :=
  match dom with
  | None => Panic
  | Some dom =>
      match data with
      | [] => Nothing
      | (_, d0) :: _ =>
          if prod_dims dom =? Z.of_nat (length d0)
          then match all_some (map (csv_row dom data) (seq 0 (length d0))) with
               | Some rows => Written ((map lit ["X"; "Y"; "Z"]%string ++ map fst data) :: rows)
               | None => Panic
               end
          else Panic
      end
  end.
(** pf/fileIO.go:117-151, LoadCSV: column i+3 of every record; None: panic. *)
Definition load_column (rows : records) (i : nat) : option (list Q) :=
  all_some (map (fun r => match nth_error r (i + 3) with Some s => Some (parse_or_zero s) | None => None end) rows).
Definition load_csv (r : records) : option (list (str * list Q)) :=
  match r with
  | [] => None
  | header :: rows =>
      if Nat.ltb (length header) 3 then None
      else all_some (map (fun i => match nth_error header (i + 3), load_column rows i with
                                   | Some n, Some c => Some (n, c)
                                   | _, _ => None
                                   end) (seq 0 (length header - 3)))
  end.

(** ** XDMF index (pf/xdmf.go:83-160).  The attributes of the XML elements that
    are constants are left out. *)
Record xattr := { xa_name : str; xa_dims : str; xa_file : str }.
Record xgrid := { xg_name : str; xg_attrs : list xattr }.
Record xdmf := { xd_topology : str; xd_dims : str; xd_times : list str; xd_grids : list xgrid }.
Definition space : str := lit " ".
Definition dims_text (dom : list Z) : option str :=
  match dom with
  | [a; b] => Some (dec a ++ space ++ dec b)
  | [a; b; c] => Some (dec a ++ space ++ dec b ++ space ++ dec c)
  | _ => None
  end.
Definition create_xdmf (names : list str) (prefix : str) (num : nat) (dom : list Z) : option xdmf :=
  match dims_text dom with
  | None => None
  | Some dims =>
      Some {| xd_topology := dec (Z.of_nat (length dom)) ++ lit "DCoRectMesh";
              xd_dims := dims;
              xd_times := map (fun i => fmt_f (inject_Z (Z.of_nat i) / inject_Z (Z.of_nat num))) (seq 0 num) ++ [dec (Z.of_nat num)];
              xd_grids := map (fun i => {| xg_name := lit "T" ++ dec (Z.of_nat i + 1);
                                           xg_attrs := map (fun n => {| xa_name := n; xa_dims := dims;
                                                                        xa_file := bin_name prefix n (Z.of_nat i) |}) names |})
                              (seq 0 num) |}
  end.
