(** Properties C01-C06: grid indices, frequencies, spectrum iterators. *)
From Verif Require Import IndexModel IndexSpec ProductProofs IndexProofs.

(** C01. Successive calls of Next yield exactly the multi-indices of the box,
    strictly increasing lexicographically (so each once), and then nil. *)
Theorem C01_product_enumerates_box : forall e : list Z,
  e <> [] -> Forall (fun d => 0 < d) e ->
  exists L : list (list Z),
    calls (S (length L)) (new_product e) = Some (map Some L ++ [None])
    /\ lex_sorted L
    /\ (forall x, In x L <-> in_box e x)
    /\ Z.of_nat (length L) = num_nodes e.
Proof. exact product_enumerates. Qed.
Print Assumptions C01_product_enumerates_box.

Theorem C01_lex_sorted_visits_once : forall L, lex_sorted L -> NoDup L.
Proof. exact lex_sorted_NoDup. Qed.
Print Assumptions C01_lex_sorted_visits_once.

(** The guard [e <> []] is needed: the code panics on an empty product. *)
Theorem C01_empty_product_panics : calls 2 (new_product []) = None.
Proof. exact product_empty_panics. Qed.
Print Assumptions C01_empty_product_panics.

Example C01_nonvacuous : [2; 3] <> [] /\ Forall (fun d => 0 < d) [2; 3] /\
  calls 7 (new_product [2; 3]) =
  Some (map Some [[0;0]; [0;1]; [0;2]; [1;0]; [1;1]; [1;2]] ++ [None]).
Proof. split; [discriminate|]. split; [repeat constructor|reflexivity]. Qed.

(** C02. *)
Theorem C02_pos_inverts_node_idx : forall dom p n,
  valid_domain dom -> in_box dom p -> node_idx dom p = Some n ->
  0 <= n < num_nodes dom /\ pos dom n = Some p.
Proof. exact pos_node_idx. Qed.
Print Assumptions C02_pos_inverts_node_idx.

Theorem C02_node_idx_defined_inside : forall dom p,
  valid_domain dom -> in_box dom p -> exists n, node_idx dom p = Some n.
Proof. exact node_idx_defined. Qed.
Print Assumptions C02_node_idx_defined_inside.

Theorem C02_node_idx_inverts_pos : forall dom n,
  valid_domain dom -> 0 <= n < num_nodes dom ->
  exists p, pos dom n = Some p /\ in_box dom p /\ node_idx dom p = Some n.
Proof. exact node_idx_pos. Qed.
Print Assumptions C02_node_idx_inverts_pos.

Theorem C02_other_ranks_rejected : forall dom p,
  ~ (length dom = 2%nat /\ length p = 2%nat) -> ~ (length dom = 3%nat /\ length p = 3%nat) ->
  node_idx dom p = None.
Proof. exact node_idx_rejects. Qed.
Print Assumptions C02_other_ranks_rejected.

Example C02_nonvacuous : valid_domain [2; 3; 5] /\ in_box [2; 3; 5] [1; 2; 4] /\
  node_idx [2; 3; 5] [1; 2; 4] = Some 29 /\ pos [2; 3; 5] 29 = Some [1; 2; 4].
Proof. split; [split; [right; reflexivity|repeat constructor]|].
  split; [|split; reflexivity]. repeat (apply Forall2_cons; [lia|]). apply Forall2_nil. Qed.

(** C03. *)
Theorem C03_wrap_reduces_into_cell : forall xs dom,
  Forall (fun d => 0 < d) dom -> length xs = length dom ->
  exists ys, wrap xs dom = Some ys /\ in_box dom ys /\
    Forall2 (fun d yx => (fst yx - snd yx) mod d = 0) dom (combine ys xs).
Proof. exact wrap_spec. Qed.
Print Assumptions C03_wrap_reduces_into_cell.

(** Shifting every coordinate by any multiple of its extent changes nothing. *)
Theorem C03_wrap_image_independent : forall xs ks dom,
  Forall (fun d => 0 < d) dom -> length xs = length dom -> length ks = length dom ->
  wrap (map (fun t => fst (fst t) + snd (fst t) * snd t) (combine (combine xs ks) dom)) dom = wrap xs dom.
Proof. exact wrap_periodic. Qed.
Print Assumptions C03_wrap_image_independent.

Theorem C03_wrap_identity_inside : forall ys dom, in_box dom ys -> wrap ys dom = Some ys.
Proof. exact in_box_wrap_id. Qed.
Print Assumptions C03_wrap_identity_inside.

Example C03_nonvacuous : wrap [-4; -5; 13] [4; 4; 5] = Some [0; 3; 3].
Proof. reflexivity. Qed.

(** C04. Each frequency component lies in (-1/2, 1/2] and differs from
    coordinate/extent by an integer. *)
Theorem C04_freq_is_principal : forall dom n,
  valid_domain dom -> 0 <= n < num_nodes dom ->
  exists p f, pos dom n = Some p /\ freq dom n = Some f /\ length f = length dom /\
    Forall (fun x => (-(1 # 2) < x <= 1 # 2)%Q) f /\
    Forall (fun t => is_int (fst t - inject_Z (fst (snd t)) / inject_Z (snd (snd t)))%Q)
           (combine f (combine p dom)).
Proof. exact freq_principal. Qed.
Print Assumptions C04_freq_is_principal.

Theorem C04_freq_injective : forall dom n n' f f',
  valid_domain dom -> 0 <= n < num_nodes dom -> 0 <= n' < num_nodes dom ->
  freq dom n = Some f -> freq dom n' = Some f' -> Forall2 Qeq f f' -> n = n'.
Proof. exact freq_injective. Qed.
Print Assumptions C04_freq_injective.

Example C04_nonvacuous : exists f, freq [4; 3; 2] 23 = Some f /\
  Forall2 Qeq f [ -(1 # 4); -(1 # 3); 1 # 2]%Q.
Proof. eexists. split; [reflexivity|]. repeat constructor. Qed.

(** C05. *)
Theorem C05_conjugate_involutive : forall dom n m,
  valid_domain dom -> 0 <= n < num_nodes dom -> conjugate_node dom n = Some m ->
  0 <= m < num_nodes dom /\ conjugate_node dom m = Some n.
Proof. exact conj_involutive. Qed.
Print Assumptions C05_conjugate_involutive.

Theorem C05_conjugate_negates_freq : forall dom n m f g,
  valid_domain dom -> 0 <= n < num_nodes dom ->
  conjugate_node dom n = Some m -> freq dom n = Some f -> freq dom m = Some g ->
  Forall2 (fun x y => (y == - x)%Q \/ ((y == 1 # 2)%Q /\ (x == 1 # 2)%Q)) f g.
Proof. exact conj_freq. Qed.
Print Assumptions C05_conjugate_negates_freq.

Theorem C05_conjugate_exists : forall dom n,
  valid_domain dom -> 0 <= n < num_nodes dom ->
  exists p m, pos dom n = Some p /\ in_box dom p /\ conjugate_node dom n = Some m /\
     0 <= m < num_nodes dom /\
     pos dom m = Some (map (fun t => Z.rem (snd t - fst t) (snd t)) (combine p dom)).
Proof. exact conj_pos. Qed.
Print Assumptions C05_conjugate_exists.

Example C05_nonvacuous : conjugate_node [4; 3; 2] 23 = Some 16 /\ conjugate_node [4; 3; 2] 16 = Some 23
  /\ 0 <= 23 < num_nodes [4; 3; 2].
Proof. repeat split; vm_compute; congruence. Qed.

(** C06. The extents are assumed at most 5*10^9, where the tolerance 1e-10 of
    the code still separates neighbouring frequencies. *)
Theorem C06_unique_freq_one_per_pair : forall dom,
  valid_domain dom -> Forall (fun d => d <= 5000000000) dom ->
  exists L, visit (S (Z.to_nat (num_nodes dom))) (unique_accept dom) (num_nodes dom) 0 = Some L /\
    increasing L /\ (forall i, In i L -> 0 <= i < num_nodes dom) /\
    forall i j, 0 <= i < num_nodes dom -> conjugate_node dom i = Some j ->
      (In i L \/ In j L) /\ (In i L -> In j L -> i = j).
Proof. exact unique_visits. Qed.
Print Assumptions C06_unique_freq_one_per_pair.

Theorem C06_real_amplitude_self_conjugate : forall dom,
  valid_domain dom -> Forall (fun d => d <= 5000000000) dom ->
  exists L, visit (S (Z.to_nat (num_nodes dom))) (real_accept dom) (num_nodes dom) 0 = Some L /\
    increasing L /\
    forall i, In i L <-> (0 <= i < num_nodes dom /\ conjugate_node dom i = Some i).
Proof. exact real_visits. Qed.
Print Assumptions C06_real_amplitude_self_conjugate.

Example C06_nonvacuous :
  visit 17 (unique_accept [4; 4]) 16 0 = Some [0; 1; 2; 4; 5; 6; 8; 9; 10; 13] /\
  visit 17 (real_accept [4; 4]) 16 0 = Some [0; 2; 8; 10].
Proof. split; vm_compute; reflexivity. Qed.
