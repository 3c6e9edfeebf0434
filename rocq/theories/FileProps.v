(** Properties C35-C38 and C53: binary files, images, CSV files and the XDMF index. *)
From Coq Require Import Lia Lra.
From Verif Require Import FileModel FileSpec FileProofs PixelModel PixelSpec PixelProofs IndexSpec.
Open Scope Z_scope.

(** C35. *)
Theorem C35_load_returns_saved : forall fs name data, Forall float_bits data ->
  load_float64 (write_file fs name (float_bytes data)) name = Some data.
Proof. exact load_saved. Qed.
Print Assumptions C35_load_returns_saved.

(** After any calls of the callback, in any order of epochs and with any field
    names, the file of a field and an epoch holds what was last saved for
    them: files of different fields or epochs never collide. *)
Theorem C35_history_of_saves : forall prefix name epoch calls fs, bits_ok calls ->
  load_float64 (save_epochs prefix calls fs) (bin_name prefix name epoch)
  = last_saved calls name epoch (load_float64 fs (bin_name prefix name epoch)).
Proof. intros prefix name epoch. exact (save_epochs_load prefix name epoch). Qed.
Print Assumptions C35_history_of_saves.

(** Two different prefixes are not always kept apart. *)
Theorem C35_prefixes_collide_refuted : ~ (forall prefix prefix' name name' epoch epoch',
  bin_name prefix name epoch = bin_name prefix' name' epoch' -> prefix = prefix').
Proof. intros H. specialize (H (lit "a") (lit "a_b") (lit "b_c") (lit "c") 0 0 eq_refl). discriminate. Qed.
Print Assumptions C35_prefixes_collide_refuted.

Example C35_nonvacuous :
  let calls := [(0, [(lit "conc", [(1%N, 7%N); (4607182418800017408%N, 0%N)]); (lit "eta", [(2%N, 0%N)])]);
                (1, [(lit "conc", [(3%N, 0%N)])])] in
  load_float64 (save_epochs (lit "run") calls no_files) (lit "run_conc_0.bin") = Some [1%N; 4607182418800017408%N]
  /\ load_float64 (save_epochs (lit "run") calls no_files) (lit "run_conc_1.bin") = Some [3%N]
  /\ load_float64 (save_epochs (lit "run") calls no_files) (lit "run_eta_1.bin") = None.
Proof. repeat split; vm_compute; reflexivity. Qed.

(** C36.  In binary64 arithmetic, for fields of finite values: of size at most
    2^51, or at most 2^1000 if the values spread over at least 2^-33. *)
Theorem C36_pixels_partial : forall data, data <> [] ->
  finite_in (b2 51) data \/
  (finite_in (b2 1000) data /\ exists x y, In x data /\ In y data /\ (b2 (-33) <= B2R y - B2R x)%R) ->
  exists px : list Z, uint8_pixels data = Some (map Some px) /\ length px = length data
  /\ (forall i p, nth_error px i = Some p -> (0 <= p <= 255)%Z)
  /\ (forall i j x y p q, nth_error data i = Some x -> nth_error data j = Some y ->
        nth_error px i = Some p -> nth_error px j = Some q -> (B2R x <= B2R y)%R -> (p <= q)%Z)
  /\ (forall i x p, nth_error data i = Some x -> nth_error px i = Some p ->
        (forall y, In y data -> (B2R x <= B2R y)%R) -> p = 0%Z)
  /\ (forall i x p, nth_error data i = Some x -> nth_error px i = Some p ->
        (forall y, In y data -> (B2R y <= B2R x)%R) ->
        (exists y, In y data /\ (b2 (-33) <= B2R x - B2R y)%R) -> p = 254%Z \/ p = 255%Z)
  /\ ((forall x y, In x data -> In y data -> (B2R x - B2R y <= b2 (-34))%R) ->
        forall i p, nth_error px i = Some p -> p = 0%Z).
Proof. exact pixels. Qed.
Print Assumptions C36_pixels_partial.

(** The largest value is not always given 255. *)
Theorem C36_max_is_255_refuted : ~ (forall data px, (exists x y, In x data /\ In y data /\ (1 <= B2R y - B2R x)%R) ->
  uint8_pixels data = Some px -> In (Some 255) px).
Proof.
  intros H. specialize (H [f_of 0 0; f_of 5598616046884250 (-52)] [Some 0; Some 254]).
  cut (In (Some 255) [Some 0; Some 254]); [intros [E|[E|[]]]; discriminate|]. apply H; [|vm_compute; reflexivity].
  exists (f_of 0 0), (f_of 5598616046884250 (-52)). split; [left; reflexivity|]. split; [right; left; reflexivity|].
  destruct (f_of_val 0 0) as [A _]; [lia|lia|]. destruct (f_of_val 5598616046884250 (-52)) as [B _]; [lia|lia|]. rewrite A, B.
  cbn. lra.
Qed.
Print Assumptions C36_max_is_255_refuted.

(** A uniform field of large values gives 0/0, for which the conversion to a
    byte is not defined. *)
Theorem C36_large_uniform_field_refuted : ~ (forall data px, data <> [] -> Forall (fun x : f64 => is_finite x = true) data ->
  uint8_pixels data = Some px -> Forall (fun p => p <> None) px).
Proof.
  intros H. specialize (H [f_of 1 53; f_of 1 53] [None; None]).
  assert (Forall (fun p : option Z => p <> None) [None; None]) as X.
  { apply H; [discriminate|repeat constructor|vm_compute; reflexivity]. }
  inversion X as [|? ? Y _]. congruence.
Qed.
Print Assumptions C36_large_uniform_field_refuted.

Example C36_nonvacuous :
  finite_in (b2 51) [f_of 1 0; f_of 2 0; f_of 3 0]
  /\ uint8_pixels [f_of 1 0; f_of 2 0; f_of 3 0] = Some (map Some [0; 127; 255]).
Proof.
  split; [|vm_compute; reflexivity].
  assert (H : forall m, (1 <= m <= 3)%Z -> is_finite (f_of m 0) = true /\ (Rabs (B2R (f_of m 0)) <= b2 51)%R).
  { intros m Hm. destruct (f_of_val m 0) as [A B]; [lia|lia|]. split; [exact B|]. rewrite A. cbn [bpow].
    change (IZR (Z.pow_pos radix2 51)) with (IZR (2 ^ 51)). rewrite Rmult_1_r, Rabs_pos_eq by (apply IZR_le; lia). apply IZR_le. lia. }
  unfold finite_in. repeat (apply Forall_cons; [apply H; lia|]). apply Forall_nil.
Qed.

(** C37. *)
Theorem C37_one_row_per_node : forall dom data, valid_domain dom -> data <> [] ->
  (forall f, In f data -> Z.of_nat (length (snd f)) = num_nodes dom) ->
  exists rows, save_csv data (Some dom) = Written ((map lit ["X"; "Y"; "Z"]%string ++ map fst data) :: rows)
  /\ Z.of_nat (length rows) = num_nodes dom
  /\ forall i row, nth_error rows i = Some row ->
     exists p cells, IndexModel.pos dom (Z.of_nat i) = Some p /\ row = map dec (three p) ++ cells /\
       Forall2 (fun f s => exists v, nth_error (snd f) i = Some v /\ s = fmt_f v) data cells.
Proof. exact csv_rows. Qed.
Print Assumptions C37_one_row_per_node.

Theorem C37_coordinates_identify_row : forall dom data rows i j ri rj, valid_domain dom -> data <> [] ->
  (forall f, In f data -> Z.of_nat (length (snd f)) = num_nodes dom) ->
  save_csv data (Some dom) = Written rows -> nth_error rows (S i) = Some ri -> nth_error rows (S j) = Some rj ->
  firstn 3 ri = firstn 3 rj -> i = j.
Proof. exact csv_rows_identify. Qed.
Print Assumptions C37_coordinates_identify_row.

Theorem C37_load_returns_saved : forall dom data, valid_domain dom -> data <> [] ->
  (forall f, In f data -> Z.of_nat (length (snd f)) = num_nodes dom) ->
  exists r loaded, save_csv data (Some dom) = Written r /\ load_csv r = Some loaded /\
    Forall2 (fun f g => fst g = fst f /\ Forall2 six_decimals (snd f) (snd g)) data loaded.
Proof. exact csv_round_trip. Qed.
Print Assumptions C37_load_returns_saved.

Theorem C37_six_decimals_survive : forall q r m, (q == inject_Z m / 1000000)%Q -> six_decimals q r -> (r == q)%Q.
Proof. exact six_decimals_exact. Qed.
Print Assumptions C37_six_decimals_survive.

(** Only the length of the first field is checked: values of a longer field
    are dropped without notice. *)
Theorem C37_longer_field_truncated_refuted : ~ (forall dom data r, valid_domain dom -> save_csv data (Some dom) = Written r ->
  forall f, In f data -> Z.of_nat (length (snd f)) = num_nodes dom).
Proof.
  intros H. specialize (H [1; 1] [(lit "a", [0%Q]); (lit "b", [0%Q; 1%Q])]
    [map lit ["X"; "Y"; "Z"; "a"; "b"]%string; map lit ["0"; "0"; "0"; "0.000000"; "0.000000"]%string]).
  cut (Z.of_nat 2 = num_nodes [1; 1]); [cbn; lia|].
  apply (H ltac:(split; [left; reflexivity|repeat constructor]) eq_refl (lit "b", [0%Q; 1%Q])). right. left. reflexivity.
Qed.
Print Assumptions C37_longer_field_truncated_refuted.

Example C37_nonvacuous : valid_domain [2; 1] /\
  save_csv [(lit "a", [-(1 # 3); 5 # 2]%Q); (lit "b", [0; 1 # 2000000]%Q)] (Some [2; 1]) =
  Written [map lit ["X"; "Y"; "Z"; "a"; "b"]%string; map lit ["0"; "0"; "0"; "-0.333333"; "0.000000"]%string;
           map lit ["1"; "0"; "0"; "2.500000"; "0.000000"]%string].
Proof. split; [split; [left; reflexivity|repeat constructor]|vm_compute; reflexivity]. Qed.

(** C38.  After a run that saved epochs 0 .. num-1, the index refers to exactly
    the files written, each once. *)
Theorem C38_index_refers_to_files_written : forall names prefix num dom (calls : list (Z * list bfield)), valid_domain dom ->
  map fst calls = map Z.of_nat (seq 0 num) -> Forall (fun c => map fst (snd c) = names) calls ->
  exists x, create_xdmf names prefix num dom = Some x
  /\ (forall f, In f (refs x) <-> save_epochs prefix calls no_files f <> None)
  /\ (NoDup names -> NoDup (refs x)).
Proof. exact xdmf_index. Qed.
Print Assumptions C38_index_refers_to_files_written.

Theorem C38_entry_shows_field_at_epoch : forall names prefix num dom calls x i g j a n,
  create_xdmf names prefix num dom = Some x ->
  bits_ok calls -> nth_error (xd_grids x) i = Some g -> nth_error (xg_attrs g) j = Some a -> nth_error names j = Some n ->
  xa_name a = n /\ load_float64 (save_epochs prefix calls no_files) (xa_file a) = last_saved calls n (Z.of_nat i) None.
Proof. exact xdmf_shows. Qed.
Print Assumptions C38_entry_shows_field_at_epoch.

Example C38_nonvacuous : exists x, create_xdmf [lit "conc"; lit "eta"] (lit "run") 2 [4; 8] = Some x /\
  refs x = map lit ["run_conc_0.bin"; "run_eta_0.bin"; "run_conc_1.bin"; "run_eta_1.bin"]%string /\
  xd_dims x = lit "4 8" /\ xd_topology x = lit "2DCoRectMesh".
Proof. eexists. split; [reflexivity|]. repeat split; vm_compute; reflexivity. Qed.

(** C53. *)
Theorem C53_two_dimensions_partial : forall a b p n, node_idx [a; b] p = Some n -> n = row_major [a; b] p 0.
Proof. exact layout_2d. Qed.
Print Assumptions C53_two_dimensions_partial.

Theorem C53_three_dimensions_refuted : ~ (forall dom p n, valid_domain dom -> in_box dom p ->
  node_idx dom p = Some n -> n = row_major dom p 0).
Proof.
  intros H. specialize (H [2; 2; 2] [1; 0; 0] 2). cbn in H.
  assert (2 = 4); [|discriminate]. apply H; [split; [right; reflexivity|repeat constructor]| |reflexivity].
  repeat (apply Forall2_cons; [lia|]). apply Forall2_nil.
Qed.
Print Assumptions C53_three_dimensions_refuted.

Example C53_nonvacuous : node_idx [3; 4] [2; 1] = Some 9 /\ row_major [3; 4] [2; 1] 0 = 9.
Proof. split; reflexivity. Qed.
