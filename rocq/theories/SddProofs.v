(** Proofs about the dimer and implicit Euler steppers. *)
From Verif Require Import SddModel SddSpec StepProofs DftProofs.
From Coq Require Import Psatz.
Open Scope R_scope.

(** ** Lists *)
Lemma nth_firstn_lt {A} (l : list A) n i d : (i < n)%nat -> nth i (firstn n l) d = nth i l d.
Proof.
  revert l i. induction n as [|n IH]; intros [|x l] i H; try lia; [reflexivity|]. destruct i; cbn; [reflexivity|]. apply IH. lia.
Qed.
Lemma nth_skipn' {A} (l : list A) n i d : nth i (skipn n l) d = nth (n + i) l d.
Proof. revert l. induction n as [|n IH]; intros [|x l]; try reflexivity; [destruct i; reflexivity|]. cbn [skipn Nat.add nth]. apply IH. Qed.
Lemma chunk_nth {A} n a b (l : list A) d : (b < n)%nat -> nth b (chunk n a l) d = nth (a * n + b) l d.
Proof. intros H. unfold chunk. rewrite nth_firstn_lt by exact H. apply nth_skipn'. Qed.
Lemma chunk_length {A} n a k (l : list A) : length l = (k * n)%nat -> (a < k)%nat -> length (chunk n a l) = n.
Proof. intros H Ha. unfold chunk. rewrite firstn_length, skipn_length, H. nia. Qed.
Lemma concat_length_all {A} n (ls : list (list A)) : Forall (fun l => length l = n) ls -> length (concat ls) = (length ls * n)%nat.
Proof. induction 1 as [|l ls Hl _ IH]; [reflexivity|]. cbn [concat length]. rewrite app_length, IH, Hl. lia. Qed.
Lemma concat_nth {A} n (ls : list (list A)) d : Forall (fun l => length l = n) ls -> forall a b, (b < n)%nat -> (a < length ls)%nat ->
  nth (a * n + b) (concat ls) d = nth b (nth a ls []) d.
Proof.
  induction 1 as [|l ls Hl _ IH]; intros a b Hb Ha; [cbn in Ha; lia|]. cbn [concat]. destruct a.
  - cbn [Nat.mul Nat.add nth]. apply app_nth1. lia.
  - rewrite app_nth2 by (rewrite Hl; cbn; lia). cbn [length] in Ha. rewrite Hl. replace (S a * n + b - n)%nat with (a * n + b)%nat by (cbn; lia).
    cbn [nth]. apply IH; lia.
Qed.
Lemma map3_nth (f : C -> C -> C -> C) x : forall y z i, length x = length y -> length x = length z -> (i < length x)%nat ->
  nth i (map3 f x y z) C0 = f (nth i x C0) (nth i y C0) (nth i z C0).
Proof.
  induction x as [|a x IH]; intros [|b y] [|c z] i Hy Hz Hi; cbn [length] in *; try lia.
  destruct i; cbn [nth map3]; [reflexivity|]. apply IH; lia.
Qed.
Lemma map2_nth' (f : C -> C -> C) x y i n : length x = n -> length y = n -> (i < n)%nat ->
  nth i (map2 f x y) C0 = f (nth i x C0) (nth i y C0).
Proof. intros Hx Hy Hi. apply map2_nth; lia. Qed.
Lemma map3_nth' (f : C -> C -> C -> C) x y z i n : length x = n -> length y = n -> length z = n -> (i < n)%nat ->
  nth i (map3 f x y z) C0 = f (nth i x C0) (nth i y C0) (nth i z C0).
Proof. intros Hx Hy Hz Hi. apply map3_nth; lia. Qed.
Lemma Csum_map2 (f : C -> C -> C) x y n : length x = n -> length y = n ->
  Csum (map2 f x y) = csum n (fun i => f (nth i x C0) (nth i y C0)).
Proof.
  intros Hx Hy. rewrite Csum_seq, (StepProofs.map2_length f x y n Hx Hy). apply csum_ext. intros i Hi. apply (map2_nth' f x y i n Hx Hy Hi).
Qed.
Lemma Csum_map3 (f : C -> C -> C -> C) x y z n : length x = n -> length y = n -> length z = n ->
  Csum (map3 f x y z) = csum n (fun i => f (nth i x C0) (nth i y C0) (nth i z C0)).
Proof.
  intros Hx Hy Hz. rewrite Csum_seq, (map3_length f x y z n Hx Hy Hz). apply csum_ext. intros i Hi. apply (map3_nth' f x y z i n Hx Hy Hz Hi).
Qed.
Lemma map_nth_C (f : C -> C) x i : (i < length x)%nat -> nth i (map f x) C0 = f (nth i x C0).
Proof. intros H. rewrite (nth_indep _ C0 (f C0)) by (rewrite map_length; exact H). apply map_nth. Qed.
Lemma map_RtoC_nth x i : nth i (map RtoC x) C0 = RtoC (nth i x 0).
Proof. change C0 with (RtoC 0). apply map_nth. Qed.

(** ** Sherman-Morrison *)
Theorem sherman_morrison n D u v b : length D = n -> length u = n -> length v = n -> length b = n ->
  (forall i, (i < n)%nat -> nth i D C0 <> C0) ->
  Cadd C1 (csum n (fun j => Cdiv (Cmul (nth j v C0) (nth j u C0)) (nth j D C0))) <> C0 ->
  solves_rank_one n D u v (dsm_dot {| m_inv := map (fun z => Cdiv C1 z) D; m_u := u; m_v := v |} b) b.
Proof.
  intros HD Hu Hv Hb Hnz Hden i Hi. unfold dsm_dot. cbn [m_inv m_u m_v].
  set (inv := map (fun z => Cdiv C1 z) D).
  assert (Hinv : length inv = n) by (unfold inv; rewrite map_length; exact HD).
  assert (Ni : forall j, (j < n)%nat -> nth j inv C0 = Cdiv C1 (nth j D C0)) by (intros j Hj; unfold inv; apply map_nth_C; lia).
  rewrite (Csum_map3 _ u inv v n), (Csum_map3 _ v inv b n) by assumption.
  set (den := Cadd C1 (csum n (fun i0 => Cmul (Cmul (nth i0 u C0) (nth i0 inv C0)) (nth i0 v C0)))).
  assert (Eden : den = Cadd C1 (csum n (fun j => Cdiv (Cmul (nth j v C0) (nth j u C0)) (nth j D C0)))).
  { unfold den. f_equal. apply csum_ext. intros j Hj. rewrite Ni by exact Hj. unfold Cdiv. ring. }
  assert (Nden : den <> C0) by (rewrite Eden; exact Hden).
  set (q := csum n (fun i0 => Cmul (Cmul (nth i0 v C0) (nth i0 inv C0)) (nth i0 b C0))).
  set (x := map3 (fun i0 u0 x0 => Csub (Cmul i0 x0) (Cdiv (Cmul (Cmul i0 u0) q) den)) inv u b).
  assert (Nx : forall j, (j < n)%nat -> nth j x C0 = Csub (Cmul (nth j inv C0) (nth j b C0)) (Cdiv (Cmul (Cmul (nth j inv C0) (nth j u C0)) q) den)).
  { intros j Hj. unfold x. exact (map3_nth' (fun i0 u0 x0 => Csub (Cmul i0 x0) (Cdiv (Cmul (Cmul i0 u0) q) den)) inv u b j n Hinv Hu Hb Hj). }
  assert (Vx : csum n (fun j => Cmul (nth j v C0) (nth j x C0)) = Cdiv q den).
  { rewrite (csum_ext n _ (fun j => Csub (Cmul (Cmul (nth j v C0) (nth j inv C0)) (nth j b C0))
                                  (Cmul (Cmul (Cmul (nth j u C0) (nth j inv C0)) (nth j v C0)) (Cdiv q den)))).
    - rewrite csum_sub, csum_mul_r. fold q. replace (csum n (fun i0 => Cmul (Cmul (nth i0 u C0) (nth i0 inv C0)) (nth i0 v C0))) with (Csub den C1) by (unfold den; ring).
      field. exact Nden.
    - intros j Hj. rewrite Nx by exact Hj. unfold Cdiv. ring. }
  rewrite Vx, Nx, Ni by exact Hi. field. split; [exact Nden|apply Hnz, Hi].
Qed.

Theorem sherman_morrison_unique n D u v b x y : 
  (forall i, (i < n)%nat -> nth i D C0 <> C0) ->
  Cadd C1 (csum n (fun j => Cdiv (Cmul (nth j v C0) (nth j u C0)) (nth j D C0))) <> C0 ->
  solves_rank_one n D u v x b -> solves_rank_one n D u v y b ->
  forall i, (i < n)%nat -> nth i x C0 = nth i y C0.
Proof.
  intros Hnz Hden Hx Hy.
  set (z := fun j => Csub (nth j x C0) (nth j y C0)).
  set (w := csum n (fun j => Cmul (nth j v C0) (z j))).
  assert (Hw : w = Csub (csum n (fun j => Cmul (nth j v C0) (nth j x C0))) (csum n (fun j => Cmul (nth j v C0) (nth j y C0)))).
  { unfold w. rewrite <- csum_sub. apply csum_ext. intros j _. unfold z. ring. }
  assert (Hz : forall i, (i < n)%nat -> z i = Cmul (Copp (Cdiv (nth i u C0) (nth i D C0))) w).
  { intros i Hi. assert (E : Cadd (Cmul (nth i D C0) (z i)) (Cmul (nth i u C0) w) = C0).
    { rewrite Hw. unfold z. specialize (Hx i Hi). specialize (Hy i Hi).
      transitivity (Csub (nth i b C0) (nth i b C0)); [|ring]. rewrite <- Hx at 1. rewrite <- Hy. ring. }
    assert (E' : Cmul (nth i D C0) (z i) = Copp (Cmul (nth i u C0) w)).
    { transitivity (Csub (Cadd (Cmul (nth i D C0) (z i)) (Cmul (nth i u C0) w)) (Cmul (nth i u C0) w)); [ring|]. rewrite E. ring. }
    transitivity (Cdiv (Cmul (nth i D C0) (z i)) (nth i D C0)); [field; apply Hnz, Hi|]. rewrite E'. field. apply Hnz, Hi. }
  assert (W : Cmul (Cadd C1 (csum n (fun j => Cdiv (Cmul (nth j v C0) (nth j u C0)) (nth j D C0)))) w = C0).
  { transitivity (Csub w (csum n (fun j => Cmul (nth j v C0) (Cmul (Copp (Cdiv (nth j u C0) (nth j D C0))) w)))).
    - rewrite (csum_ext n (fun j => Cmul (nth j v C0) (Cmul (Copp (Cdiv (nth j u C0) (nth j D C0))) w))
        (fun j => Cmul (Cdiv (Cmul (nth j v C0) (nth j u C0)) (nth j D C0)) (Copp w))).
      + rewrite csum_mul_r. ring.
      + intros j Hj. unfold Cdiv. ring.
    - rewrite <- (csum_ext n (fun j => Cmul (nth j v C0) (z j)) _ (fun j Hj => f_equal (Cmul (nth j v C0)) (Hz j Hj))). fold w. ring. }
  apply Cmul_eq0 in W. destruct W as [W|W]; [contradiction|].
  intros i Hi. specialize (Hz i Hi). rewrite W in Hz. unfold z in Hz.
  transitivity (Cadd (Csub (nth i x C0) (nth i y C0)) (nth i y C0)); [ring|]. rewrite Hz. ring.
Qed.

(** ** Householder *)
Lemma householder_length d o s n m : length d = m -> length o = m -> length (householder d o s n) = m.
Proof. intros. unfold householder. apply StepProofs.map2_length; assumption. Qed.
Lemma householder_nth d o s n m i : length d = m -> length o = m -> (i < m)%nat ->
  nth i (householder d o s n) C0 = Csub (nth i d C0) (Cmul (Cmul (RtoC s) (nth i o C0)) (Cdiv (inner m d o) (RtoC (INR n)))).
Proof.
  intros Hd Ho Hi. unfold householder. rewrite (Csum_map2 _ d o m Hd Ho).
  exact (map2_nth' (fun z o0 => Csub z (Cmul (Cmul (RtoC s) o0) (Cdiv (csum m (fun i0 => Cmul (nth i0 d C0) (Cconj (nth i0 o C0)))) (RtoC (INR n))))) d o i m Hd Ho Hi).
Qed.
Lemma inner_householder d o s n m y : length d = m -> length o = m ->
  inner m (householder d o s n) y = Csub (inner m d y) (Cmul (Cmul (RtoC s) (inner m o y)) (Cdiv (inner m d o) (RtoC (INR n)))).
Proof.
  intros Hd Ho. unfold inner at 1.
  rewrite (csum_ext m _ (fun i => Csub (Cmul (nth i d C0) (Cconj (nth i y C0)))
     (Cmul (Cmul (nth i o C0) (Cconj (nth i y C0))) (Cmul (RtoC s) (Cdiv (inner m d o) (RtoC (INR n))))))).
  - rewrite csum_sub, csum_mul_r. unfold inner. ring.
  - intros i Hi. rewrite (householder_nth d o s n m i Hd Ho Hi). ring.
Qed.

Theorem householder_reverses n o c : length o = n -> (0 < n)%nat -> inner n o o = RtoC (INR n) ->
  householder (map (Cmul c) o) o 2 n = map (Cmul (Copp c)) o.
Proof.
  intros Ho Hn Hu. assert (Hc : length (map (Cmul c) o) = n) by (rewrite map_length; exact Ho).
  apply (list_eq_nth _ _ n); [apply householder_length; assumption|rewrite map_length; exact Ho|].
  intros i Hi. rewrite (householder_nth _ o 2 n n i Hc Ho Hi), !map_nth_C by lia.
  assert (E : inner n (map (Cmul c) o) o = Cmul c (inner n o o)).
  { unfold inner. rewrite <- csum_mul_l. apply csum_ext. intros j Hj. rewrite map_nth_C by lia. ring. }
  rewrite E, Hu. replace (RtoC 2) with (Cadd C1 C1) by csolve. field. apply RtoC_neq0, not_0_INR. lia.
Qed.
Theorem householder_fixes n o x s : length o = n -> length x = n -> inner n x o = C0 -> householder x o s n = x.
Proof.
  intros Ho Hx H0. apply (list_eq_nth _ _ n); [apply householder_length; assumption|exact Hx|].
  intros i Hi. rewrite (householder_nth x o s n n i Hx Ho Hi), H0. unfold Cdiv. ring.
Qed.
Theorem householder_involutive n o x : length o = n -> length x = n -> (0 < n)%nat -> inner n o o = RtoC (INR n) ->
  householder (householder x o 2 n) o 2 n = x.
Proof.
  intros Ho Hx Hn Hu. pose proof (householder_length x o 2 n n Hx Ho) as Hl.
  apply (list_eq_nth _ _ n); [apply householder_length; assumption|exact Hx|].
  intros i Hi. rewrite (householder_nth _ o 2 n n i Hl Ho Hi), (householder_nth x o 2 n n i Hx Ho Hi).
  rewrite inner_householder by assumption. rewrite Hu. replace (RtoC 2) with (Cadd C1 C1) by csolve. field. apply RtoC_neq0, not_0_INR. lia.
Qed.
Lemma inner_sym n x y : inner n y x = Cconj (inner n x y).
Proof. unfold inner. rewrite csum_conj. apply csum_ext. intros i _. rewrite Cconj_mul, Cconj_involutive. ring. Qed.
Theorem householder_isometry n o x y : length o = n -> length x = n -> length y = n -> (0 < n)%nat -> inner n o o = RtoC (INR n) ->
  inner n (householder x o 2 n) (householder y o 2 n) = inner n x y.
Proof.
  intros Ho Hx Hy Hn Hu. assert (Nn : RtoC (INR n) <> C0) by (apply RtoC_neq0, not_0_INR; lia).
  rewrite inner_householder by assumption.
  rewrite (inner_sym n (householder y o 2 n) x), (inner_sym n (householder y o 2 n) o).
  rewrite !inner_householder by assumption. rewrite Hu.
  rewrite (inner_sym n x y), (inner_sym n x o).
  set (a := inner n x y). set (b := inner n x o). set (c := inner n y o).
  assert (Ed : forall z, Cconj (Cdiv z (RtoC (INR n))) = Cdiv (Cconj z) (RtoC (INR n))).
  { intros z. apply C_eq; unfold Cdiv, Cconj, Cmul, Cinv, RtoC, Cnorm2, Re, Im; cbn [fst snd]; unfold Rdiv; ring. }
  replace (Cconj (Csub (Cconj a) (Cmul (Cmul (RtoC 2) (Cconj b)) (Cdiv c (RtoC (INR n))))))
    with (Csub a (Cmul (Cmul (RtoC 2) b) (Cdiv (Cconj c) (RtoC (INR n))))).
  2:{ rewrite <- Ed. csolve. }
  replace (Cconj (Csub c (Cmul (Cmul (RtoC 2) (RtoC (INR n))) (Cdiv c (RtoC (INR n)))))) with (Copp (Cconj c)).
  2:{ replace (Csub c (Cmul (Cmul (RtoC 2) (RtoC (INR n))) (Cdiv c (RtoC (INR n))))) with (Copp c); [csolve|].
      replace (RtoC 2) with (Cadd C1 C1) by csolve. field. exact Nn. }
  replace (RtoC 2) with (Cadd C1 C1) by csolve.
  change (Csub (Csub a (Cmul (Cmul (Cadd C1 C1) b) (Cdiv (Cconj c) (RtoC (INR n))))) (Cmul (Cmul (Cadd C1 C1) (Copp (Cconj c))) (Cdiv b (RtoC (INR n)))) = a).
  field. exact Nn.
Qed.

(** ** The orientation *)
Lemma fft_inner n ft x y : unitary_transform n ft -> length x = n -> length y = n -> (0 < n)%nat ->
  inner n (to_real ft x) y = Cdiv (inner n x (fft ft y)) (RtoC (INR n)).
Proof.
  intros U Hx Hy Hn. pose proof (ut_good _ _ U) as G. assert (Nn : RtoC (INR n) <> C0) by (apply RtoC_neq0, not_0_INR; lia).
  assert (Hl : length (to_real ft x) = n) by (unfold to_real; rewrite div_real_length; apply (gt_ifft_len _ _ G), Hx).
  pose proof (ut_parseval _ _ U (to_real ft x) y Hl Hy) as P. rewrite (gt_inverse _ _ G x Hx) in P. rewrite P. field. exact Nn.
Qed.

Theorem householder_real_space n ft o x : unitary_transform n ft -> length o = n -> length x = n -> (0 < n)%nat ->
  forall i, (i < n)%nat ->
  nth i (to_real ft (householder (fft ft x) (fft ft o) 2 n)) C0 =
  Csub (nth i x C0) (Cmul (RtoC 2) (Cmul (nth i o C0) (inner n x o))).
Proof.
  intros U Ho Hx Hn i Hi. pose proof (ut_good _ _ U) as G. assert (Nn : INR n <> 0) by (apply not_0_INR; lia).
  assert (Lx : length (fft ft x) = n) by (apply (gt_fft_len _ _ G), Hx). assert (Lo : length (fft ft o) = n) by (apply (gt_fft_len _ _ G), Ho).
  set (c := Cmul (RtoC (-2)) (inner n x o)).
  assert (E : householder (fft ft x) (fft ft o) 2 n = fft ft (map2 (fun u v => Cadd u (Cmul c v)) x o)).
  { rewrite (ut_fft_add _ _ U c x o Hx Ho). apply (list_eq_nth _ _ n).
    - apply householder_length; assumption.
    - apply StepProofs.map2_length; assumption.
    - intros j Hj. rewrite (householder_nth _ _ 2 n n j Lx Lo Hj), (map2_nth' _ _ _ j n Lx Lo Hj).
      rewrite (ut_parseval _ _ U x o Hx Ho). unfold c. replace (RtoC (-2)) with (Copp (RtoC 2)) by csolve. field. apply RtoC_neq0, Nn. }
  rewrite E, (gt_left _ _ G) by (apply StepProofs.map2_length; assumption).
  rewrite (map2_nth' _ _ _ i n Hx Ho Hi). unfold c. replace (RtoC (-2)) with (Copp (RtoC 2)) by csolve. ring.
Qed.

Lemma rdot_rsum a : forall b, length a = length b -> rdot a b = rsum (length a) (fun i => nth i a 0 * nth i b 0).
Proof.
  induction a as [|x a IH] using rev_ind; intros b H; [destruct b; [reflexivity|cbn in H; lia]|].
  destruct b as [|y b _] using rev_ind; [rewrite app_length in H; cbn in H; lia|].
  rewrite !app_length in *. cbn [length] in *. rewrite Nat.add_1_r in *. cbn [rsum].
  assert (Hl : length a = length b) by lia.
  rewrite (rsum_ext _ _ (fun i => nth i a 0 * nth i b 0)).
  - rewrite <- IH by exact Hl. rewrite (app_nth2 a), (app_nth2 b) by lia. rewrite Hl, Nat.sub_diag. cbn [nth].
    assert (S : forall u v w z, length u = length v -> rdot (u ++ [w]) (v ++ [z]) = rdot u v + w * z).
    { clear. induction u as [|p u IH]; intros [|q v] w z H; cbn in *; try lia; [ring|]. rewrite IH by lia. ring. }
    apply S, Hl.
  - intros i Hi. rewrite !app_nth1 by lia. reflexivity.
Qed.
Lemma unit_rdot o : unit_vector o <-> rdot o o = 1.
Proof. unfold unit_vector. rewrite <- rdot_rsum by reflexivity. tauto. Qed.

Lemma rdot_scale a : forall c, rdot (map (fun x => x / c) a) (map (fun x => x / c) a) = rdot a a / (c * c).
Proof.
  induction a as [|x a IH]; intros c; cbn [map rdot]; [unfold Rdiv; ring|]. rewrite IH. unfold Rdiv. rewrite Rinv_mult. ring.
Qed.
Lemma rdot_nonneg a : 0 <= rdot a a.
Proof. induction a as [|x a IH]; cbn [rdot]; [lra|]. pose proof (Rle_0_sqr x). unfold Rsqr in *. lra. Qed.
Lemma normalised o : 0 < rdot o o -> unit_vector (map (fun x => x / sqrt (rdot o o)) o).
Proof.
  intros H. apply unit_rdot. rewrite rdot_scale, sqrt_sqrt by lra. field. lra.
Qed.

Theorem set_orientation_unit s o s' : set_initial_orientation s o = Some s' -> (exists x, In x o /\ x <> 0) ->
  unit_vector (s_orient s') /\ s_init_len s' = sqrt (rdot o o) /\ 0 < s_init_len s' /\ length (s_orient s') = length (s_orient s) /\ s_ready s' = true.
Proof.
  intros H [x [Hx Nx]]. unfold set_initial_orientation in H. destruct (Nat.eqb_spec (length o) (length (s_orient s))) as [E|E]; [|discriminate].
  injection H as <-. cbn [s_orient s_init_len s_ready].
  assert (P : 0 < rdot o o).
  { revert Hx. clear E. induction o as [|y o IH]; [contradiction|]. intros [->|Hx]; cbn [rdot].
    - pose proof (rdot_nonneg o). pose proof (Rsqr_pos_lt x Nx). unfold Rsqr in *. lra.
    - specialize (IH Hx). pose proof (Rle_0_sqr y). unfold Rsqr in *. lra. }
  split; [apply normalised, P|]. split; [reflexivity|]. split; [apply sqrt_lt_R0, P|]. split; [rewrite map_length; exact E|reflexivity].
Qed.

(** Init: the orientation leads from the first state to the second. *)
Lemma shift_data_diff l a b rest : l <> 0 -> length a = length b -> (forall j, Im (nth j a C0) = Im (nth j b C0)) ->
  shift_data l (map (fun x => x / l) (map2 (fun a b => Re (Csub b a)) a b) ++ rest) a = b.
Proof.
  intros Hl. revert b. induction a as [|x a IH]; intros [|y b] E H; try discriminate; [destruct rest; reflexivity|]. cbn [map2 map app shift_data]. f_equal.
  - specialize (H 0%nat). cbn [nth] in H. destruct x as [x1 x2], y as [y1 y2]. unfold Re, Im in *. cbn [fst snd] in *. subst. csolve; field; exact Hl.
  - apply IH; [injection E as E; exact E|]. intros j. exact (H (S j)).
Qed.
Lemma shift_fields_diff l fs gs : l <> 0 -> map (@length C) fs = map (@length C) gs -> (forall i j, Im (nth j (nth i fs []) C0) = Im (nth j (nth i gs []) C0)) ->
  shift_fields l (map (fun x => x / l) (field_diff fs gs)) fs = gs.
Proof.
  intros Hl. revert gs. induction fs as [|a fs IH]; intros [|b gs] E H; try discriminate; [reflexivity|]. injection E as E1 E2.
  unfold field_diff. cbn [map2 concat shift_fields]. rewrite map_app. f_equal; [apply shift_data_diff; [exact Hl|exact E1|exact (H 0%nat)]|].
  assert (L : length (map (fun x => x / l) (map2 (fun a b => Re (Csub b a)) a b)) = length a).
  { rewrite map_length. clear -E1. revert b E1. induction a as [|x a IH]; intros [|y b] E; try discriminate; [reflexivity|]. cbn [map2 length]. f_equal. apply IH. injection E as E. exact E. }
  rewrite skipn_app, <- L, skipn_all, Nat.sub_diag. apply IH; [exact E2|]. intros i j. exact (H (S i) j).
Qed.
Lemma diff_length fs gs : map (@length C) fs = map (@length C) gs -> length (field_diff fs gs) = length (concat fs).
Proof.
  revert gs. induction fs as [|a fs IH]; intros [|b gs] E; try discriminate; [reflexivity|]. injection E as E1 E2. unfold field_diff. cbn [map2 concat]. rewrite !app_length. f_equal; [|apply IH, E2].
  clear -E1. revert b E1. induction a as [|x a IH]; intros [|y b] E; try discriminate; [reflexivity|]. cbn [map2 length]. f_equal. apply IH. injection E as E. exact E.
Qed.
Lemma diff_zero fs gs : map (@length C) fs = map (@length C) gs -> (forall i j, Im (nth j (nth i fs []) C0) = Im (nth j (nth i gs []) C0)) ->
  (forall x, In x (field_diff fs gs) -> x = 0) -> fs = gs.
Proof.
  intros E H Z. rewrite <- (shift_fields_diff 1 fs gs) by (lra || assumption).
  assert (K : forall o a, (forall x, In x o -> x = 0) -> shift_data 1 o a = a).
  { induction o as [|x o IH]; intros [|y a] Ho; try reflexivity. cbn [shift_data]. rewrite IH by (intros; apply Ho; right; assumption). f_equal. rewrite (Ho x) by (left; reflexivity). csolve. }
  assert (K2 : forall fs o, (forall x, In x o -> x = 0) -> shift_fields 1 o fs = fs).
  { induction fs0 as [|a fs' IH]; intros o Ho; [reflexivity|]. cbn [shift_fields]. rewrite K by exact Ho. f_equal. apply IH. intros x Hx. apply Ho. rewrite <- (firstn_skipn (length a) o). apply in_or_app. right. exact Hx. }
  symmetry. apply K2. intros x Hx. apply in_map_iff in Hx. destruct Hx as (y & <- & Hy). rewrite (Z y Hy). field.
Qed.
Theorem init_leads s fs gs : map (@length C) fs = map (@length C) gs -> length (s_orient s) = length (concat fs) ->
  (forall i j, Im (nth j (nth i fs []) C0) = Im (nth j (nth i gs []) C0)) -> fs <> gs ->
  exists s', sdd_init s fs gs = Some s' /\ unit_vector (s_orient s') /\ 0 < s_init_len s' /\ s_ready s' = true /\ shift_fields (s_init_len s') (s_orient s') fs = gs.
Proof.
  intros E L H N. unfold sdd_init. destruct (list_eq_dec _ _ _) as [_|X]; [|contradiction]. 
  assert (NZ : exists x, In x (field_diff fs gs) /\ x <> 0).
  { destruct (Forall_Exists_dec (fun x => x = 0) (fun x => Req_EM_T x 0) (field_diff fs gs)) as [F|X].
    - exfalso. apply N, diff_zero; try assumption. rewrite Forall_forall in F. exact F.
    - apply Exists_exists in X. exact X. }
  unfold set_initial_orientation at 1. rewrite (diff_length fs gs E), L, Nat.eqb_refl. eexists. split; [reflexivity|].
  destruct (set_orientation_unit s (field_diff fs gs) _ ltac:(unfold set_initial_orientation; rewrite (diff_length fs gs E), L, Nat.eqb_refl; reflexivity) NZ) as (U & L1 & L2 & _ & _).
  split; [exact U|]. split; [exact L2|]. split; [reflexivity|]. cbn [s_orient s_init_len] in *. apply shift_fields_diff; [lra|exact E|exact H].
Qed.

(** Flat arrays. *)
Lemma inner_flat n k x y : inner (k * n) x y = csum k (fun a => inner n (chunk n a x) (chunk n a y)).
Proof.
  unfold inner. rewrite csum_split. apply csum_ext. intros a _. apply csum_ext. intros b Hb. rewrite !chunk_nth by exact Hb. reflexivity.
Qed.
Lemma chunks_nth {A} n k (l : list A) a : (a < k)%nat -> nth a (chunks n k l) [] = chunk n a l.
Proof. intros H. unfold chunks. apply (nth_map_seq (fun i => chunk n i l) k a [] H). Qed.
Lemma chunks_all {A} n k (l : list A) : length l = (k * n)%nat -> Forall (fun c => length c = n) (chunks n k l).
Proof.
  intros H. apply Forall_forall. intros c Hc. unfold chunks in Hc. apply in_map_iff in Hc. destruct Hc as (i & <- & Hi).
  apply in_seq in Hi. apply (chunk_length n i k l H). lia.
Qed.
Lemma chunks_length {A} n k (l : list A) : length (chunks n k l) = k.
Proof. unfold chunks. rewrite map_length, seq_length. reflexivity. Qed.

Lemma chunk_concat n (ls : list data) a : Forall (fun l => length l = n) ls -> (a < length ls)%nat -> chunk n a (concat ls) = nth a ls [].
Proof.
  intros H Ha. assert (L : length (nth a ls []) = n) by (rewrite Forall_forall in H; apply H, nth_In, Ha).
  apply (list_eq_nth _ _ n); [|exact L|].
  - apply (chunk_length n a (length ls)); [apply concat_length_all, H|exact Ha].
  - intros i Hi. rewrite chunk_nth by exact Hi. apply concat_nth; assumption.
Qed.

Section Flat.
Variables (n k : nat) (ft : transform).
Hypothesis U : unitary_transform n ft.
Hypothesis Hn : (0 < n)%nat.
Let G := ut_good _ _ U.

Lemma mapped_chunks_all (f : data -> data) (l : data) : (forall x, length x = n -> length (f x) = n) -> length l = (k * n)%nat ->
  Forall (fun c : data => length c = n) (map f (chunks n k l)).
Proof.
  intros Hf H. apply Forall_map. pose proof (chunks_all n k l H) as A. rewrite Forall_forall in *. intros c Hc. apply Hf, A, Hc.
Qed.
Lemma concat_chunks_nth (f : data -> data) (l : data) a : (forall x, length x = n -> length (f x) = n) -> length l = (k * n)%nat -> (a < k)%nat ->
  chunk n a (concat (map f (chunks n k l))) = f (chunk n a l).
Proof.
  intros Hf H Ha. rewrite chunk_concat by (try apply mapped_chunks_all; rewrite ?map_length, ?chunks_length; assumption).
  rewrite (nth_indep _ [] (f [])) by (rewrite map_length, chunks_length; exact Ha). rewrite map_nth, chunks_nth by exact Ha. reflexivity.
Qed.
Lemma concat_chunks_length (f : data -> data) (l : data) : (forall x, length x = n -> length (f x) = n) -> length l = (k * n)%nat ->
  length (concat (map f (chunks n k l))) = (k * n)%nat.
Proof. intros Hf H. rewrite (concat_length_all n) by (apply mapped_chunks_all; assumption). rewrite map_length, chunks_length. reflexivity. Qed.

Lemma fto_length o : length o = (k * n)%nat -> length (ft_orientation ft n k o) = (k * n)%nat.
Proof. intros H. apply concat_chunks_length; [apply (gt_fft_len _ _ G)|rewrite map_length; exact H]. Qed.
Lemma fto_chunk o a : length o = (k * n)%nat -> (a < k)%nat ->
  chunk n a (ft_orientation ft n k o) = fft ft (chunk n a (map RtoC o)).
Proof. intros H Ha. apply concat_chunks_nth; [apply (gt_fft_len _ _ G)|rewrite map_length; exact H|exact Ha]. Qed.

Lemma inner_real o : length o = (k * n)%nat -> inner (k * n) (map RtoC o) (map RtoC o) = RtoC (rdot o o).
Proof.
  intros H. unfold inner. rewrite rdot_rsum by reflexivity. rewrite H, <- csum_RtoC. apply csum_ext. intros i Hi.
  rewrite !map_RtoC_nth. csolve.
Qed.

Lemma fto_norm o : length o = (k * n)%nat -> unit_vector o ->
  inner (k * n) (ft_orientation ft n k o) (ft_orientation ft n k o) = RtoC (INR n).
Proof.
  intros H Hu. rewrite inner_flat.
  rewrite (csum_ext k _ (fun a => Cmul (RtoC (INR n)) (inner n (chunk n a (map RtoC o)) (chunk n a (map RtoC o))))).
  - rewrite csum_mul_l, <- inner_flat, inner_real by exact H. apply unit_rdot in Hu. rewrite Hu. change (RtoC 1) with C1. ring.
  - intros a Ha. rewrite fto_chunk by assumption. 
    assert (L : length (chunk n a (map RtoC o)) = n) by (apply (chunk_length n a k); [rewrite map_length; exact H|exact Ha]).
    apply (ut_parseval _ _ U); exact L.
Qed.

Lemma div_concat (ls : list data) : Forall (fun c : data => length c = n) ls ->
  div_real (concat (map (ifft ft) ls)) (INR n) = concat (map (to_real ft) ls).
Proof.
  induction 1 as [|l ls Hl _ IH]; [reflexivity|]. cbn [map concat]. unfold div_real in *. rewrite map_app, IH. f_equal.
  unfold to_real, div_real. rewrite Hl. reflexivity.
Qed.

(** The torque is orthogonal to the orientation. *)
Lemma torque_orthogonal l o rs re denums : length o = (k * n)%nat -> unit_vector o ->
  length rs = (k * n)%nat -> length re = (k * n)%nat -> length denums = (k * n)%nat ->
  let torque := sdd_torque ft n k l (ft_orientation ft n k o) rs re denums in
  length torque = (k * n)%nat /\ inner (k * n) torque (map RtoC o) = C0.
Proof.
  intros Ho Hu Hs He Hd torque.
  assert (Lo := fto_length o Ho). unfold torque, sdd_torque.
  set (fto := ft_orientation ft n k o) in *.
  set (T1 := map3 (fun t a o0 => Csub t (Cmul (Cmul a o0) (RtoC l))) (map2 Csub rs re) denums fto).
  assert (L1 : length T1 = (k * n)%nat) by (apply map3_length; [apply StepProofs.map2_length; assumption| |]; assumption).
  set (T2 := householder T1 fto 1 n).
  assert (L2 : length T2 = (k * n)%nat) by (apply householder_length; assumption).
  rewrite div_concat by (apply chunks_all, L2).
  assert (Hr : forall x, length x = n -> length (to_real ft x) = n) by (intros x Hx; unfold to_real; rewrite div_real_length; apply (gt_ifft_len _ _ G), Hx).
  split; [apply concat_chunks_length; assumption|].
  rewrite inner_flat.
  rewrite (csum_ext k _ (fun a => Cmul (inner n (chunk n a T2) (chunk n a fto)) (Cdiv C1 (RtoC (INR n))))).
  - rewrite csum_mul_r, <- inner_flat. unfold T2. rewrite inner_householder by assumption. pose proof (fto_norm o Ho Hu) as FN. fold fto in FN.
    rewrite FN. change (RtoC 1) with C1. field. apply RtoC_neq0, not_0_INR. lia.
  - intros a Ha. rewrite concat_chunks_nth by assumption.
    assert (La : length (chunk n a (map RtoC o)) = n) by (apply (chunk_length n a k); [rewrite map_length; exact Ho|exact Ha]).
    rewrite (fft_inner n ft) by (try assumption; apply (chunk_length n a k); assumption).
    unfold fto. rewrite fto_chunk by assumption. unfold Cdiv. ring.
Qed.
End Flat.

Lemma rdot_shift c o : forall (tau : data), length o = length tau ->
  rdot (map2 (fun x t => x - c * Re t) o tau) (map2 (fun x t => x - c * Re t) o tau)
  = rdot o o - 2 * c * Re (csum (length o) (fun i => Cmul (nth i tau C0) (Cconj (nth i (map RtoC o) C0)))) + c * c * rsum (length o) (fun i => Re (nth i tau C0) * Re (nth i tau C0)).
Proof.
  intros tau H. rewrite !rdot_rsum by reflexivity. rewrite csum_re.
  assert (L : length (map2 (fun x t => x - c * Re t) o tau) = length o) by (apply StepProofs.map2_length; [reflexivity|symmetry; exact H]).
  rewrite L. rewrite <- !rsum_mul_l. rewrite <- rsum_minus, <- rsum_plus. apply rsum_ext. intros i Hi.
  assert (N : nth i (map2 (fun x t => x - c * Re t) o tau) 0 = nth i o 0 - c * Re (nth i tau C0)).
  { clear L. revert tau i H Hi. induction o as [|x o IH]; intros [|t tau] i H Hi; cbn [length] in *; try lia. destruct i; [reflexivity|]. cbn [map2 nth]. apply IH; lia. }
  rewrite N, map_RtoC_nth. unfold Cmul, Cconj, RtoC, Re, Im. cbn [fst snd]. ring.
Qed.

Lemma map2_ext {A B D} (f g : A -> B -> D) x : forall y, (forall a b, f a b = g a b) -> map2 f x y = map2 g x y.
Proof. induction x as [|a x IH]; intros [|b y] H; cbn; [reflexivity|reflexivity|reflexivity|]. rewrite H, (IH y H). reflexivity. Qed.

Lemma turn_unit s (torque : data) : length (s_orient s) = length torque -> unit_vector (s_orient s) ->
  inner (length torque) torque (map RtoC (s_orient s)) = C0 ->
  unit_vector (turn s torque) /\ length (turn s torque) = length (s_orient s).
Proof.
  intros HL Hu Hz. unfold turn.
  set (c := s_dt s / (dimer_length s (sdd_time s) * s_tau_orient s)).
  rewrite (map2_ext _ (fun x t => x - c * Re t)) by (intros; unfold c, Rdiv; ring).
  split.
  - apply normalised. rewrite rdot_shift by exact HL. unfold inner in Hz. rewrite HL, Hz. apply unit_rdot in Hu. rewrite Hu.
    assert (A : 0 <= rsum (length torque) (fun i => Re (nth i torque C0) * Re (nth i torque C0))) by (apply rsum_nonneg; intros; apply Rle_0_sqr).
    assert (B : 0 <= c * c) by apply Rle_0_sqr. pose proof (Rmult_le_pos _ _ B A). cbn [Re C0 fst]. lra.
  - rewrite map_length. apply StepProofs.map2_length; [reflexivity|symmetry; exact HL].
Qed.

(** ** Steps *)
Lemma extract_length (get : nat -> option data) n : (forall i r, get i = Some r -> length r = n) ->
  forall todo i out, extract get todo i = Some out -> length out = (todo * n)%nat.
Proof.
  intros Hg. induction todo as [|todo IH]; intros i out H; cbn [extract] in H; [injection H as <-; reflexivity|].
  destruct (get i) as [r|] eqn:E; [|discriminate]. destruct (extract get todo (S i)) as [rs|] eqn:E'; [|discriminate].
  injection H as <-. rewrite app_length, (Hg _ _ E), (IH _ _ E'). cbn. lia.
Qed.
Lemma extract_nth (get : nat -> option data) n : (forall i r, get i = Some r -> length r = n) ->
  forall todo i out, extract get todo i = Some out -> forall a, (a < todo)%nat -> get (i + a)%nat = Some (chunk n a out).
Proof.
  intros Hg. induction todo as [|todo IH]; intros i out H a Ha; [lia|]. cbn [extract] in H.
  destruct (get i) as [r|] eqn:E; [|discriminate]. destruct (extract get todo (S i)) as [rs|] eqn:E'; [|discriminate].
  injection H as <-. pose proof (Hg _ _ E) as Lr. destruct a.
  - rewrite Nat.add_0_r, E. f_equal. unfold chunk. cbn [Nat.mul skipn]. rewrite firstn_app, Lr, Nat.sub_diag, <- Lr, firstn_all, firstn_O, app_nil_r. reflexivity.
  - rewrite Nat.add_succ_r. specialize (IH (S i) rs E' a ltac:(lia)). cbn [Nat.add] in IH. rewrite IH. f_equal. unfold chunk.
    cbn [Nat.mul]. rewrite skipn_app, Lr. replace (n + a * n - n)%nat with (a * n)%nat by lia.
    rewrite (skipn_all2 r) by lia. reflexivity.
Qed.

Lemma dsm_dot_length m vec n : length (m_inv m) = n -> length (m_u m) = n -> length vec = n -> length (dsm_dot m vec) = n.
Proof. intros. unfold dsm_dot. apply map3_length; assumption. Qed.

Lemma set_nth_all n (l : list data) i d : all_length n l -> length d = n -> all_length n (set_nth i d l).
Proof.
  unfold all_length. intros H Hd. revert i. induction H as [|x l Hx H IH]; intros i; [destruct i; constructor|]. destruct i; cbn [set_nth]; constructor; auto.
Qed.
Lemma nth_error_all n (l : list data) i d : all_length n l -> nth_error l i = Some d -> length d = n.
Proof. intros H E. unfold all_length in H. rewrite Forall_forall in H. apply H. apply nth_error_In with i. exact E. Qed.

Lemma sdd_force_length alpha n i rs re k : length rs = (k * n)%nat -> length re = (k * n)%nat -> (i < k)%nat -> length (sdd_force alpha n i rs re) = n.
Proof. intros Hr He Hi. apply StepProofs.map2_length; rewrite firstn_length, ?Hr, ?He; nia. Qed.

Lemma sdd_fields_shape p s n k fto rs re : keeps_length n p -> length fto = (k * n)%nat -> length rs = (k * n)%nat -> length re = (k * n)%nat ->
  forall todo i e e', (i + todo <= k)%nat -> all_length n (e_fields e) -> sdd_fields p s n fto rs re todo i e = Some e' ->
  all_length n (e_fields e') /\ length (e_fields e') = length (e_fields e) /\
  (forall j, (j < i)%nat -> nth_error (e_fields e') j = nth_error (e_fields e) j).
Proof.
  intros KL Lf Lr Le. induction todo as [|todo IH]; intros i e e' Hi Ha H; cbn [sdd_fields] in H; [injection H as <-; auto|].
  destruct (nth_error (e_fields e) i) as [d|] eqn:Ed; [|discriminate].
  set (d1 := map2 _ d _) in H. destruct (get_denum p (set_field e i d1) i (sdd_time s) n) as [a|] eqn:Ea; [|discriminate].
  pose proof (nth_error_all n _ _ _ Ha Ed) as Ld. pose proof (get_denum_length _ _ _ _ _ _ KL Ea) as La.
  assert (Lc : length (chunk n i fto) = n) by (apply (chunk_length n i k); [exact Lf|lia]).
  assert (L1 : length d1 = n).
  { unfold d1. apply StepProofs.map2_length; [exact Ld|]. apply householder_length; [apply (sdd_force_length _ n i rs re k); [assumption|assumption|lia]|exact Lc]. }
  apply IH in H; [|lia|].
  - destruct H as (A & B & D). cbn [set_field e_fields] in *. rewrite set_nth_length in B. split; [exact A|]. split; [exact B|].
    intros j Hj. rewrite D by lia. apply nth_error_set_nth_neq. lia.
  - cbn [set_field e_fields]. apply set_nth_all; [exact Ha|].
    apply dsm_dot_length; cbn [m_inv m_u householder_denum]; [rewrite map_length; exact La|exact Lc|exact L1].
Qed.

Lemma shift_data_length c o d : length (shift_data c o d) = length d.
Proof. revert o. induction d as [|z d IH]; intros [|x o]; cbn [shift_data length]; try reflexivity. rewrite IH. reflexivity. Qed.
Lemma shift_fields_all n c : forall fs o, all_length n fs -> all_length n (shift_fields c o fs).
Proof.
  induction fs as [|d fs IH]; intros o H; cbn [shift_fields]; [constructor|]. inversion H as [|? ? Hd Hfs]; subst. constructor; [apply shift_data_length|apply IH, Hfs].
Qed.
Lemma shift_fields_length c : forall fs o, length (shift_fields c o fs) = length fs.
Proof. induction fs as [|d fs IH]; intros o; cbn [shift_fields length]; [reflexivity|]. rewrite IH. reflexivity. Qed.

Section Shapes.
Variables (n : nat) (ft : transform).
Hypothesis G : good_transform n ft.
Lemma model_fft_fields p e : e_fields (model_fft p ft e) = map (fft ft) (e_fields e).
Proof. unfold model_fft. cbn [e_fields]. rewrite sync_fields. reflexivity. Qed.
Lemma map_fft_all fs : all_length n fs -> all_length n (map (fft ft) fs).
Proof. unfold all_length. intros H. apply Forall_map. rewrite Forall_forall in *. intros c Hc. apply (gt_fft_len _ _ G), H, Hc. Qed.
Lemma map_ifft_all fs : all_length n fs -> all_length n (map (to_real ft) fs).
Proof.
  unfold all_length. intros H. apply Forall_map. rewrite Forall_forall in *. intros c Hc. unfold to_real. rewrite div_real_length. apply (gt_ifft_len _ _ G), H, Hc.
Qed.
Lemma map_round fs : all_length n fs -> map (to_real ft) (map (fft ft) fs) = fs.
Proof. induction 1 as [|d fs Hd _ IH]; cbn [map]; [reflexivity|]. rewrite IH, (gt_left _ _ G d Hd). reflexivity. Qed.

Lemma shift_data_add a b : forall d o, shift_data a o (shift_data b o d) = shift_data (a + b) o d.
Proof.
  induction d as [|z d IH]; intros [|x o]; cbn [shift_data]; try reflexivity. rewrite IH. f_equal. csolve.
Qed.
Lemma shift_add a b : forall fs o, shift_fields a o (shift_fields b o fs) = shift_fields (a + b) o fs.
Proof.
  induction fs as [|d fs IH]; intros o; cbn [shift_fields]; [reflexivity|]. rewrite shift_data_length, shift_data_add, IH. reflexivity.
Qed.
Lemma shift_data_0 : forall d o, shift_data 0 o d = d.
Proof. induction d as [|z d IH]; intros [|x o]; cbn [shift_data]; try reflexivity. rewrite IH. f_equal. csolve. Qed.
Lemma shift_0 : forall fs o, shift_fields 0 o fs = fs.
Proof. induction fs as [|d fs IH]; intros o; cbn [shift_fields]; [reflexivity|]. rewrite shift_data_0, IH. reflexivity. Qed.

Lemma at_start_fields p l o e : e_fields (at_start p ft l o e) = map (fft ft) (shift_fields (- l / 2) o (e_fields e)).
Proof. unfold at_start. rewrite model_fft_fields. cbn [shift_model e_fields]. replace (- 0.5 * l) with (- l / 2) by lra. reflexivity. Qed.
Lemma at_end_fields p l o e : all_length n (e_fields e) ->
  e_fields (at_end p ft l o e) = map (fft ft) (shift_fields (l / 2) o (e_fields e)).
Proof.
  intros H. unfold at_end. rewrite model_fft_fields. cbn [shift_model model_ifft e_fields]. rewrite at_start_fields.
  rewrite map_round by (apply shift_fields_all, H). rewrite shift_add. replace (l + - l / 2) with (l / 2) by field. reflexivity.
Qed.
Lemma at_centre_fields p l o e : all_length n (e_fields e) ->
  e_fields (at_centre p ft l o e) = map (fft ft) (e_fields e).
Proof.
  intros H. unfold at_centre. rewrite model_fft_fields. cbn [shift_model model_ifft e_fields]. rewrite at_end_fields by exact H.
  rewrite map_round by (apply shift_fields_all, H). rewrite shift_add. replace (- 0.5 * l + l / 2) with 0 by lra. rewrite shift_0. reflexivity.
Qed.
End Shapes.

Lemma sdd_step_inv p ft s e s' e' : sdd_step p ft s e = Some (s', e') ->
  s_ready s = true /\ / 10 ^ 16 <= s_dt s /\
  exists f0 fs rs re e1 denums, e_fields e = f0 :: fs /\
  let n := length f0 in let k := length (e_fields e) in let t := sdd_time s in let l := dimer_length s t in
  extract_rhs p (at_start p ft l (s_orient s) e) t n k = Some rs /\
  extract_rhs p (at_end p ft l (s_orient s) e) t n k = Some re /\
  sdd_fields p s n (ft_orientation ft n k (s_orient s)) rs re k 0 (at_centre p ft l (s_orient s) e) = Some e1 /\
  extract_denum p e1 t n k = Some denums /\
  s' = {| s_dt := s_dt s; s_tau_orient := s_tau_orient s; s_tau_dimer := s_tau_dimer s;
          s_alpha := s_alpha s; s_step := S (s_step s); s_min_len := s_min_len s; s_init_len := s_init_len s;
          s_orient := turn s (sdd_torque ft n k l (ft_orientation ft n k (s_orient s)) rs re denums); s_ready := true |} /\
  e' = model_ifft ft e1.
Proof.
  intros H. unfold sdd_step in H. destruct (s_ready s); [|discriminate]. cbn [negb] in H.
  destruct (Rlt_dec (s_dt s) (/ 10 ^ 16)) as [|Hdt]; [discriminate|]. split; [reflexivity|]. split; [lra|].
  destruct (e_fields e) as [|f0 fs] eqn:Ef; [discriminate|].
  cbv zeta in H. destruct (extract_rhs p (at_start p ft _ _ e) _ _ _) as [rs|] eqn:E1; [|discriminate].
  destruct (extract_rhs p (at_end p ft _ _ e) _ _ _) as [re|] eqn:E2; [|discriminate].
  destruct (sdd_fields _ _ _ _ _ _ _ _ _) as [e1|] eqn:E3; [|discriminate].
  destruct (extract_denum _ _ _ _ _) as [denums|] eqn:E4; [|discriminate].
  injection H as <- <-. exists f0, fs, rs, re, e1, denums. cbv zeta. repeat split; assumption.
Qed.

Theorem sdd_step_ready n k p ft s e s' e' : unitary_transform n ft -> keeps_length n p -> dimer_ready n k s e ->
  sdd_step p ft s e = Some (s', e') ->
  dimer_ready n k s' e' /\ s_step s' = S (s_step s) /\ s_dt s' = s_dt s /\ s_init_len s' = s_init_len s /\
  s_min_len s' = s_min_len s /\ s_tau_dimer s' = s_tau_dimer s /\ s_tau_orient s' = s_tau_orient s.
Proof.
  intros U KL R H. pose proof (ut_good _ _ U) as G. destruct R as [Hn Hk Ha Ho Hu Hl Ht].
  apply sdd_step_inv in H. destruct H as (_ & Hdt & f0 & fs & rs & re & e1 & denums & Ef & H). cbv zeta in H.
  assert (Ln : length f0 = n) by (rewrite Ef in Ha; inversion Ha; assumption).
  rewrite Ln, Hk in H. destruct H as (Ers & Ere & Ee1 & Eden & -> & ->).
  assert (Lrs : length rs = (k * n)%nat) by (apply (extract_length _ n (fun i r E => get_rhs_length n p _ i _ r KL E) _ _ _ Ers)).
  assert (Lre : length re = (k * n)%nat) by (apply (extract_length _ n (fun i r E => get_rhs_length n p _ i _ r KL E) _ _ _ Ere)).
  assert (Lden : length denums = (k * n)%nat) by (apply (extract_length _ n (fun i r E => get_denum_length n p _ i _ r KL E) _ _ _ Eden)).
  assert (Lf := fto_length n k ft U (s_orient s) Ho).
  assert (Hc : all_length n (e_fields (at_centre p ft (dimer_length s (sdd_time s)) (s_orient s) e))).
  { rewrite (at_centre_fields n ft G) by exact Ha. apply (map_fft_all n ft G), Ha. }
  destruct (sdd_fields_shape p s n k _ rs re KL Lf Lrs Lre k 0 _ e1 ltac:(lia) Hc Ee1) as (A1 & A2 & _).
  rewrite (at_centre_fields n ft G) in A2 by exact Ha. rewrite map_length, Hk in A2.
  destruct (torque_orthogonal n k ft U Hn (dimer_length s (sdd_time s)) (s_orient s) rs re denums Ho Hu Lrs Lre Lden) as (T1 & T2).
  set (torque := sdd_torque ft n k (dimer_length s (sdd_time s)) (ft_orientation ft n k (s_orient s)) rs re denums) in *.
  rewrite <- T1 in T2 at 1.
  destruct (turn_unit s torque) as (V1 & V2); [congruence|exact Hu|exact T2|].
  split; [|cbn; auto 10]. constructor; cbn [s_orient s_init_len s_tau_orient e_fields model_ifft]; try assumption.
  - rewrite map_length. exact A2.
  - apply (map_ifft_all n ft G), A1.
  - rewrite V2. exact Ho.
Qed.

Theorem sdd_run_ready n k p ft : unitary_transform n ft -> keeps_length n p -> forall steps s e s' e',
  dimer_ready n k s e -> sdd_run p ft steps s e = Some (s', e') ->
  dimer_ready n k s' e' /\ sdd_time s' = sdd_time s + INR steps * s_dt s.
Proof.
  intros U KL. induction steps as [|steps IH]; intros s e s' e' R H; cbn [sdd_run] in H.
  - injection H as <- <-. split; [exact R|]. cbn [INR]. ring.
  - destruct (sdd_step p ft s e) as [[s1 e1]|] eqn:E; [|discriminate].
    destruct (sdd_step_ready n k p ft s e s1 e1 U KL R E) as (R1 & S1 & D1 & _).
    destruct (IH s1 e1 s' e' R1 H) as (R2 & T2). split; [exact R2|]. rewrite T2. unfold sdd_time. rewrite S1, D1, S_INR.
    rewrite (S_INR steps). ring.
Qed.

(** ** Dimer length *)
Lemma dimer_length_at_least s t : s_min_len s <= dimer_length s t.
Proof. unfold dimer_length. destruct (Rlt_dec _ _); lra. Qed.
Lemma dimer_length_positive s t : 0 < s_init_len s -> 0 < dimer_length s t.
Proof. intros H. unfold dimer_length. pose proof (Rmult_lt_0_compat _ _ H (exp_pos (- t / s_tau_dimer s))). destruct (Rlt_dec _ _); lra. Qed.
Theorem dimer_length_decreasing s t t' : 0 <= s_init_len s -> 0 < s_tau_dimer s -> t <= t' -> dimer_length s t' <= dimer_length s t.
Proof.
  intros Hi Ht Hle. unfold dimer_length.
  assert (E : s_init_len s * exp (- t' / s_tau_dimer s) <= s_init_len s * exp (- t / s_tau_dimer s)).
  { apply Rmult_le_compat_l; [exact Hi|]. destruct (Req_dec t t') as [->|Hne]; [lra|]. left. apply exp_increasing.
    unfold Rdiv. apply Rmult_lt_compat_r; [apply Rinv_0_lt_compat, Ht|lra]. }
  destruct (Rlt_dec (s_init_len s * exp (- t' / s_tau_dimer s)) _), (Rlt_dec (s_init_len s * exp (- t / s_tau_dimer s)) _); lra.
Qed.
Lemma exp_required s l : 0 < s_init_len s -> 0 < s_tau_dimer s -> 0 < l ->
  s_init_len s * exp (- required_dimer_length_time s l / s_tau_dimer s) = l.
Proof.
  intros Hi Ht Hl. unfold required_dimer_length_time.
  replace (- (s_tau_dimer s * ln (s_init_len s / l)) / s_tau_dimer s) with (- ln (s_init_len s / l)) by (field; lra).
  assert (P : 0 < s_init_len s / l) by (apply Rdiv_lt_0_compat; assumption).
  rewrite exp_Ropp, exp_ln by exact P. field. lra.
Qed.
Theorem dimer_length_reached s l : 0 < s_init_len s -> 0 < s_tau_dimer s -> 0 < l -> s_min_len s <= l ->
  dimer_length s (required_dimer_length_time s l) = l.
Proof.
  intros Hi Ht Hl Hm. unfold dimer_length. rewrite exp_required by assumption. destruct (Rlt_dec _ _); lra.
Qed.
Theorem dimer_length_stays s t : 0 < s_init_len s -> 0 < s_tau_dimer s -> 0 < s_min_len s ->
  required_dimer_length_time s (s_min_len s) <= t -> dimer_length s t = s_min_len s.
Proof.
  intros Hi Ht Hm Hle. apply Rle_antisym; [|apply dimer_length_at_least].
  apply (Rle_trans _ (dimer_length s (required_dimer_length_time s (s_min_len s)))); [apply dimer_length_decreasing; lra|].
  rewrite dimer_length_reached by lra. lra.
Qed.
Theorem dimer_length_start s : s_min_len s <= s_init_len s -> dimer_length s 0 = s_init_len s.
Proof.
  intros H. unfold dimer_length. replace (- 0 / s_tau_dimer s) with 0 by (unfold Rdiv; ring). rewrite exp_0, Rmult_1_r.
  destruct (Rlt_dec _ _); lra.
Qed.

(** ** The equation of motion *)
Lemma householder_denum_solves n dt a o d1 : length a = n -> length o = n -> length d1 = n -> regular_step n dt o a ->
  forall i, (i < n)%nat ->
  let x := dsm_dot (householder_denum dt a o 2) d1 in
  Csub (nth i x C0) (Cmul (RtoC dt) (reflect n o (fun j => Cmul (nth j a C0) (nth j x C0)) i)) = nth i d1 C0.
Proof.
  intros La Lo Ld [R1 R2] i Hi x.
  set (D := map (fun z => Csub C1 (Cmul (RtoC dt) z)) a).
  set (v := map2 (fun a0 o0 => Cdiv (Cmul (Cmul (Cmul (RtoC 2) a0) (RtoC dt)) (Cconj o0)) (RtoC (INR n))) a o).
  assert (LD : length D = n) by (unfold D; rewrite map_length; exact La).
  assert (Lv : length v = n) by (unfold v; apply StepProofs.map2_length; assumption).
  assert (ND : forall j, (j < n)%nat -> nth j D C0 = Csub C1 (Cmul (RtoC dt) (nth j a C0))).
  { intros j Hj. unfold D. apply (map_nth_C (fun z => Csub C1 (Cmul (RtoC dt) z))). lia. }
  assert (NV : forall j, (j < n)%nat -> nth j v C0 = Cdiv (Cmul (Cmul (Cmul (RtoC 2) (nth j a C0)) (RtoC dt)) (Cconj (nth j o C0))) (RtoC (INR n))).
  { intros j Hj. unfold v. exact (map2_nth' (fun a0 o0 => Cdiv (Cmul (Cmul (Cmul (RtoC 2) a0) (RtoC dt)) (Cconj o0)) (RtoC (INR n))) a o j n La Lo Hj). }
  assert (Nn : RtoC (INR n) <> C0) by (apply RtoC_neq0, not_0_INR; lia).
  assert (Ex : x = dsm_dot {| m_inv := map (fun z => Cdiv C1 z) D; m_u := o; m_v := v |} d1).
  { unfold x, householder_denum, D, v. rewrite map_map, La. reflexivity. }
  assert (Sx : solves_rank_one n D o v x d1).
  { rewrite Ex. apply sherman_morrison; try assumption.
    - intros j Hj. rewrite ND by exact Hj. apply R1, Hj.
    - intros E. apply R2. refine (eq_trans _ E). f_equal. apply csum_ext. intros j Hj. rewrite ND, NV by exact Hj.
      replace (RtoC (2 * dt / INR n)) with (Cdiv (Cmul (RtoC 2) (RtoC dt)) (RtoC (INR n))).
      + unfold Cdiv. ring.
      + unfold Rdiv, Cdiv. rewrite !RtoC_mul, RtoC_inv by (apply not_0_INR; lia). reflexivity. }
  rewrite <- (Sx i Hi). unfold reflect. rewrite ND by exact Hi.
  rewrite (csum_ext n (fun j => Cmul (nth j v C0) (nth j x C0))
     (fun j => Cmul (Cmul (Cmul (nth j a C0) (nth j x C0)) (Cconj (nth j o C0))) (Cdiv (Cmul (RtoC 2) (RtoC dt)) (RtoC (INR n))))).
  - rewrite csum_mul_r. field. exact Nn.
  - intros j Hj. rewrite NV by exact Hj. unfold Cdiv. ring.
Qed.

Theorem first_field_own_force n k p ft s e s' e' : unitary_transform n ft -> keeps_length n p -> constant_denum p ->
  dimer_ready n k s e -> sdd_step p ft s e = Some (s', e') -> follows_own_force n p ft s e e' 0.
Proof.
  intros U KL CD Rd H. pose proof (ut_good _ _ U) as G. destruct Rd as [Hn Hk Ha Ho Hu Hl Ht].
  apply sdd_step_inv in H. destruct H as (_ & Hdt & f0 & fs0 & rs & re & e1 & denums & Ef & H). cbv zeta in H.
  assert (Ln : length f0 = n) by (rewrite Ef in Ha; inversion Ha; assumption).
  rewrite Ln, Hk in H. destruct H as (Ers & Ere & Ee1 & _ & _ & ->).
  intros fs fe a y y' Hfs Hfe Hden Hy Hy' Reg. set (l := dimer_length s (sdd_time s)) in *. set (t := sdd_time s) in *.
  assert (Lrs : length rs = (k * n)%nat) by (apply (extract_length _ n (fun i r E => get_rhs_length n p _ i _ r KL E) _ _ _ Ers)).
  assert (Lre : length re = (k * n)%nat) by (apply (extract_length _ n (fun i r E => get_rhs_length n p _ i _ r KL E) _ _ _ Ere)).
  assert (Lf := fto_length n k ft U (s_orient s) Ho).
  assert (Hc : all_length n (e_fields (at_centre p ft l (s_orient s) e))).
  { rewrite (at_centre_fields n ft G) by exact Ha. apply (map_fft_all n ft G), Ha. }
  assert (Pk : (0 < k)%nat) by (rewrite <- Hk, Ef; cbn; lia).
  destruct k as [|k']; [lia|]. cbn [sdd_fields] in Ee1.
  assert (Ec : e_fields (at_centre p ft l (s_orient s) e) = map (fft ft) (e_fields e)) by (apply (at_centre_fields n ft G), Ha).
  rewrite Ec in Ee1. rewrite nth_error_map, Hy in Ee1. cbn [option_map] in Ee1.
  set (d1 := map2 _ (fft ft y) _) in Ee1.
  set (o := fft ft (chunk n 0 (map RtoC (s_orient s)))) in *.
  assert (Eo : chunk n 0 (ft_orientation ft n (S k') (s_orient s)) = o) by (apply (fto_chunk n (S k') ft U); [exact Ho|lia]).
  assert (Ly : length y = n) by (apply (nth_error_all n _ _ _ Ha Hy)). assert (Lfy : length (fft ft y) = n) by (apply (gt_fft_len _ _ G), Ly).
  assert (Lo : length o = n) by (rewrite <- Eo; apply (chunk_length n 0 (S k')); [exact Lf|lia]).
  fold t in Ee1. rewrite (CD _ (at_centre p ft l (s_orient s) e)), Hden in Ee1.
  pose proof (get_denum_length _ _ _ _ _ _ KL Hden) as La.
  assert (Efs : firstn n rs = fs).
  { pose proof (extract_nth _ n (fun i r E => get_rhs_length n p _ i _ r KL E) _ _ _ Ers 0%nat ltac:(lia)) as X. cbn beta in X.
    rewrite Nat.add_0_r in X. rewrite Hfs in X. injection X as ->. reflexivity. }
  assert (Efe : firstn n re = fe).
  { pose proof (extract_nth _ n (fun i r E => get_rhs_length n p _ i _ r KL E) _ _ _ Ere 0%nat ltac:(lia)) as X. cbn beta in X.
    rewrite Nat.add_0_r in X. rewrite Hfe in X. injection X as ->. reflexivity. }
  assert (Efo : sdd_force (s_alpha s) n 0 rs re = weighted (s_alpha s) fs fe) by (unfold sdd_force, weighted; rewrite Efs, Efe; reflexivity).
  assert (Lw : length (weighted (s_alpha s) fs fe) = n) by (rewrite <- Efo; apply (sdd_force_length _ n 0 rs re (S k')); [assumption|assumption|lia]).
  assert (L1 : length d1 = n).
  { unfold d1. rewrite Efo, Eo. apply StepProofs.map2_length; [exact Lfy|apply householder_length; assumption]. }
  rewrite Eo in Ee1. set (d2 := dsm_dot (householder_denum (s_dt s) a o 2) d1) in Ee1.
  assert (L2 : length d2 = n) by (apply dsm_dot_length; cbn [m_inv m_u householder_denum]; [rewrite map_length; exact La|exact Lo|exact L1]).
  assert (Hset : all_length n (e_fields (set_field (at_centre p ft l (s_orient s) e) 0 d2))) by (cbn [set_field e_fields]; apply set_nth_all; [exact Hc|exact L2]).
  destruct (sdd_fields_shape p s n (S k') _ rs re KL Lf Lrs Lre k' 1 _ e1 ltac:(lia) Hset Ee1) as (_ & _ & A3).
  specialize (A3 0%nat ltac:(lia)). cbn [set_field e_fields] in A3. rewrite nth_error_set_nth_eq in A3 by (rewrite Ec, map_length, Hk; lia).
  cbn [model_ifft e_fields] in Hy'. rewrite nth_error_map, A3 in Hy'. cbn [option_map] in Hy'. injection Hy' as <-.
  rewrite (gt_inverse _ _ G) by exact L2.
  intros i Hi. unfold d2. rewrite (householder_denum_solves n (s_dt s) a o d1 La Lo L1 Reg i Hi).
  unfold d1. rewrite Efo, Eo.
  rewrite (map2_nth' _ _ _ i n Lfy (householder_length _ _ 2 n n Lw Lo) Hi), (householder_nth _ _ 2 n n i Lw Lo Hi).
  f_equal. f_equal. unfold reflect. f_equal. unfold inner. ring.
Qed.

(** Identity transform on one node. *)
Definition id1 : transform := {| fft := fun x => x; ifft := fun x => x; tfreq := fun _ => [0; 0] |}.
Lemma to_real_id1 x : length x = 1%nat -> to_real id1 x = x.
Proof.
  destruct x as [|z [|]]; cbn; try lia. intros _. unfold to_real, div_real. cbn [ifft id1 length map INR]. f_equal. change (RtoC 1) with C1. field.
  exact C1_neq_0.
Qed.
Lemma id1_unitary : unitary_transform 1 id1.
Proof.
  constructor; [constructor|..]; cbn [fft ifft tfreq id1]; auto.
  - intros x Hx. apply (to_real_id1 x Hx).
  - intros x Hx. apply (to_real_id1 x Hx).
  - intros [|z [|]] H; cbn in *; try lia. ring.
  - cbn. ring.
  - intros x y _ _. cbn [INR]. change (RtoC 1) with C1. ring.
Qed.

(** Two fields on one node: nothing acts on the first, a unit force on the second. *)
Definition demo_pde : pde :=
  {| p_calc := []; p_eqns := [{| q_terms := []; q_denum := []; q_sources := [] |};
                              {| q_terms := [fun _ _ _ => [C1]]; q_denum := []; q_sources := [] |}]; p_mods := [] |}.
Definition demo_sdd : sdd :=
  {| s_dt := 1; s_tau_orient := 1; s_tau_dimer := 1; s_alpha := / 2; s_step := 0; s_min_len := 0; s_init_len := 1; s_orient := [1; 0]; s_ready := true |}.
Definition demo_env : env := {| e_fields := [[C0]; [C0]]; e_derived := [] |}.

Lemma demo_lengths : keeps_length 1 demo_pde.
Proof.
  constructor; cbn [demo_pde p_calc p_eqns p_mods].
  - intros c e [].
  - intros q f e t tmp [<-|[<-|[]]] [Hf|Hf] Ht; cbn in Hf; try contradiction. destruct Hf as [<-|[]]. reflexivity.
  - intros q s t tmp [<-|[<-|[]]] Hs; cbn in Hs; contradiction.
  - intros m d [].
Qed.
Lemma demo_ready : dimer_ready 1 2 demo_sdd demo_env.
Proof.
  constructor; cbn [demo_sdd demo_env e_fields s_orient s_init_len s_tau_orient length]; try lia; try lra.
  - repeat constructor.
  - apply unit_rdot. cbn. ring.
Qed.
Lemma demo_denum : constant_denum demo_pde.
Proof. intros e e' i t n. unfold get_denum. destruct i as [|[|[|i]]]; reflexivity. Qed.

Lemma demo_fields ec : e_fields ec = [[C0]; [C0]] ->
  exists e1, sdd_fields demo_pde demo_sdd 1 [C1; C0] [C0; Cadd C0 C1] [C0; Cadd C0 C1] 2 0 ec = Some e1 /\ nth_error (e_fields e1) 1 = Some [C0].
Proof.
  destruct ec as [fs ds]. cbn [e_fields]. intros ->.
  eexists. split.
  - cbv -[Cadd Cmul Cdiv Csub RtoC C0 C1 Cconj Rplus Rmult Rinv Rminus IZR INR]. reflexivity.
  - cbn [e_fields nth_error]. apply (f_equal Some). apply (f_equal (fun z => [z])). replace (Cconj C0) with C0 by csolve. change (RtoC 1) with C1.
    change (RtoC (INR 1)) with C1. field.
    repeat split; try exact C1_neq_0.
Qed.
Lemma demo_step : exists s' e', sdd_step demo_pde id1 demo_sdd demo_env = Some (s', e') /\ nth_error (e_fields e') 1 = Some [C0].
Proof.
  unfold sdd_step. cbn [demo_sdd s_ready negb s_dt].
  destruct (Rlt_dec 1 (/ 10 ^ 16)) as [Hx|_].
  { exfalso. assert (/ 10 ^ 16 <= / 1) by (apply Rinv_le_contravar; lra). lra. }
  cbn [demo_env e_fields length]. fold demo_env. fold demo_sdd. cbv zeta.
  set (ec := at_centre _ _ _ _ _). set (es := at_start _ _ _ _ _). set (ee := at_end _ _ _ _ _).
  assert (Ec : e_fields ec = [[C0]; [C0]]).
  { unfold ec. rewrite (at_centre_fields 1 id1 (ut_good _ _ id1_unitary)); [reflexivity|repeat constructor]. }
  assert (E0 : forall e i, get_rhs demo_pde e i (sdd_time demo_sdd) 1 = match i with O => Some [C0] | 1%nat => Some [Cadd C0 C1] | _ => None end).
  { intros e [|[|[|i]]]; reflexivity. }
  unfold extract_rhs. cbn [extract]. rewrite !E0. cbn [app].
  assert (Eo : ft_orientation id1 1 2 (s_orient demo_sdd) = [C1; C0]) by reflexivity.
  rewrite Eo.
  destruct (demo_fields ec Ec) as (e1 & H1 & H2).
  replace (sdd_time demo_sdd) with (sdd_time demo_sdd) by reflexivity.
  rewrite H1. 
  assert (E1 : extract_denum demo_pde e1 (sdd_time demo_sdd) 1 2 = Some [C0; C0]) by reflexivity.
  rewrite E1. eexists. eexists. split; [reflexivity|].
  cbn [model_ifft e_fields]. rewrite nth_error_map, H2. cbn [option_map]. rewrite to_real_id1 by reflexivity. reflexivity.
Qed.

Theorem second_field_other_force : exists n k p ft s e s' e',
  unitary_transform n ft /\ keeps_length n p /\ constant_denum p /\ dimer_ready n k s e /\
  sdd_step p ft s e = Some (s', e') /\ ~ follows_own_force n p ft s e e' 1.
Proof.
  destruct demo_step as (s' & e' & H1 & H2).
  exists 1%nat, 2%nat, demo_pde, id1, demo_sdd, demo_env, s', e'.
  split; [exact id1_unitary|]. split; [exact demo_lengths|]. split; [exact demo_denum|]. split; [exact demo_ready|]. split; [exact H1|].
  intros F. specialize (F [Cadd C0 C1] [Cadd C0 C1] [C0] [C0] [C0] eq_refl eq_refl eq_refl eq_refl H2).
  assert (Rg : regular_step 1 (s_dt demo_sdd) (fft id1 (chunk 1 1 (map RtoC (s_orient demo_sdd)))) [C0]).
  { split.
    - intros [|i] Hi; [|lia]. cbn [nth]. replace (Csub _ _) with C1 by ring. exact C1_neq_0.
    - cbn. replace (RtoC 0) with C0 by reflexivity. replace (Cconj C0) with C0 by csolve.
      match goal with |- ?x <> _ => replace x with C1 end; [exact C1_neq_0|]. field.
      exact C1_neq_0. }
  specialize (F Rg 0%nat ltac:(lia)). revert F. cbn. change (RtoC 1) with C1. change (RtoC 0) with C0. replace (Cconj C0) with C0 by csolve.
  intros F. apply (f_equal fst) in F. cbn in F. lra.
Qed.

(** ** Implicit Euler *)
Lemma vec2fields_pack fs : Forall (fun d : data => Forall (fun z => Im z = 0) d) fs -> vec2fields (fields2vec fs) fs = fs.
Proof.
  unfold fields2vec. induction 1 as [|d fs Hd _ IH]; [reflexivity|]. cbn [map concat vec2fields].
  assert (L : length (map Re d) = length d) by apply map_length.
  rewrite firstn_app, skipn_app, L, Nat.sub_diag, <- L, firstn_all, skipn_all. cbn [firstn skipn app]. rewrite app_nil_r, IH. f_equal.
  rewrite map_map. transitivity (map (fun z : C => z) d); [|apply map_id]. apply map_ext_in. intros z Hz.
  rewrite Forall_forall in Hd. apply C_eq; [reflexivity|]. symmetry. apply Hd, Hz.
Qed.
Lemma pack_vec2fields n fs : all_length n fs -> forall x, length x = (length fs * n)%nat -> fields2vec (vec2fields x fs) = x.
Proof.
  unfold fields2vec. induction 1 as [|d fs Hd _ IH]; intros x Hx; cbn [vec2fields map concat length] in *.
  - destruct x; [reflexivity|discriminate].
  - rewrite IH by (rewrite skipn_length; lia). rewrite map_map, (map_ext _ (fun r : R => r)) by reflexivity. rewrite map_id. apply firstn_skipn.
Qed.
Lemma vec2fields_all n fs : all_length n fs -> forall x, length x = (length fs * n)%nat -> all_length n (vec2fields x fs).
Proof.
  induction 1 as [|d fs Hd _ IH]; intros x Hx; cbn [vec2fields length] in *; constructor.
  - rewrite map_length, firstn_length. lia.
  - apply IH. rewrite skipn_length. lia.
Qed.
Lemma vec2fields_length fs : forall x, length (vec2fields x fs) = length fs.
Proof. induction fs as [|d fs IH]; intros x; cbn [vec2fields length]; [reflexivity|]. rewrite IH. reflexivity. Qed.
Lemma vec2fields_real fs : forall x, Forall (fun d : data => Forall (fun z => Im z = 0) d) (vec2fields x fs).
Proof.
  induction fs as [|d fs IH]; intros x; cbn [vec2fields]; constructor; [|apply IH].
  apply Forall_forall. intros z Hz. apply in_map_iff in Hz. destruct Hz as (r & <- & _). reflexivity.
Qed.

Lemma map4_length {A B D E F} (f : A -> B -> D -> E -> F) a : forall b d e n, length a = n -> length b = n -> length d = n -> length e = n ->
  length (map4 f a b d e) = n.
Proof. induction a as [|x a IH]; intros [|y b] [|z d] [|w e] [|n] H1 H2 H3 H4; try discriminate; [reflexivity|]. cbn [map4 length] in *. f_equal. apply IH; lia. Qed.

Lemma to_real_sub n ft x y : unitary_transform n ft -> length x = n -> length y = n -> (0 < n)%nat -> forall j, (j < n)%nat ->
  nth j (to_real ft (map2 Csub x y)) C0 = Csub (nth j (to_real ft x) C0) (nth j (to_real ft y) C0).
Proof.
  intros U Hx Hy Hn j Hj. pose proof (ut_good _ _ U) as G.
  assert (E : map2 Csub x y = map2 (fun z w => Cadd z (Cmul (RtoC (-1)) w)) x y).
  { apply map2_ext. intros [a b] [c d]. csolve. }
  assert (Ls : length (map2 Csub x y) = n) by (apply StepProofs.map2_length; assumption).
  unfold to_real. rewrite Ls, Hx, Hy. rewrite E.
  rewrite (ut_ifft_add _ _ U (RtoC (-1)) x y Hx Hy).
  rewrite !(div_real_nth _ _ j) by (rewrite ?StepProofs.map2_length with (n := n); rewrite ?(gt_ifft_len _ _ G); try assumption; try apply (gt_ifft_len _ _ G); assumption).
  rewrite (map2_nth' _ _ _ j n (gt_ifft_len _ _ G x Hx) (gt_ifft_len _ _ G y Hy) Hj).
  replace (RtoC (-1)) with (Copp C1) by csolve. unfold Cdiv. ring.
Qed.

Lemma residuals_zero n p ft dt t e1 : unitary_transform n ft -> keeps_length n p -> (0 < n)%nat ->
  forall fs orig prev i out, all_length n fs -> Forall (fun d : data => Forall (fun z => Im z = 0) d) fs ->
  all_length n orig -> all_length n prev ->
  residuals p ft dt t e1 i (map (fft ft) fs) orig prev = Some out -> Forall (fun r => r = 0) out ->
  forall k d o r0 r a, nth_error fs k = Some d -> nth_error orig k = Some o -> nth_error prev k = Some r0 ->
  get_rhs p e1 (i + k) t n = Some r -> get_denum p e1 (i + k) t n = Some a ->
  forall j, (j < n)%nat -> nth j d C0 = RtoC (Re (nth j (to_real ft (map4 (ie_update dt) o a r r0)) C0)).
Proof.
  intros U KL Hn. pose proof (ut_good _ _ U) as G.
  induction fs as [|d fs IH]; intros orig prev i out Hf Hr Ho Hp H Hz k d' o' r0' r a Hk Hok Hpk Hrh Hde j Hj.
  - destruct k; discriminate.
  - destruct orig as [|o orig]; [cbn in H; discriminate|]. destruct prev as [|r0 prev]; [cbn in H; discriminate|].
    pose proof (Forall_inv Hf) as Ld; pose proof (Forall_inv_tail Hf) as Hf'; cbn beta in Ld. pose proof (Forall_inv Hr) as Rd; pose proof (Forall_inv_tail Hr) as Hr'; cbn beta in Rd.
    pose proof (Forall_inv Ho) as Lo; pose proof (Forall_inv_tail Ho) as Ho'; cbn beta in Lo. pose proof (Forall_inv Hp) as Lp; pose proof (Forall_inv_tail Hp) as Hp'; cbn beta in Lp.
    cbn [map residuals] in H. assert (Lfd : length (fft ft d) = n) by (apply (gt_fft_len _ _ G), Ld). rewrite Lfd in H.
    destruct (get_rhs p e1 i t n) as [r1|] eqn:Er; [|discriminate]. destruct (get_denum p e1 i t n) as [a1|] eqn:Ea; [|discriminate].
    destruct (residuals p ft dt t e1 (S i) (map (fft ft) fs) orig prev) as [out'|] eqn:Eres; [|discriminate].
    injection H as <-. apply Forall_app in Hz. destruct Hz as [Hz1 Hz2].
    destruct k as [|k].
    + cbn [nth_error] in Hk, Hok, Hpk. injection Hk as <-. injection Hok as <-. injection Hpk as <-.
      rewrite Nat.add_0_r in Hrh, Hde. rewrite Er in Hrh. rewrite Ea in Hde. injection Hrh as <-. injection Hde as <-.
      set (M := map4 (ie_update dt) o a1 r1 r0) in *.
      assert (LM : length M = n) by (apply map4_length; [exact Lo|apply (get_denum_length _ _ _ _ _ _ KL Ea)|apply (get_rhs_length _ _ _ _ _ _ KL Er)|exact Lp]).
      pose proof (to_real_sub n ft (fft ft d) M U Lfd LM Hn j Hj) as E.
      rewrite (gt_left _ _ G d Ld) in E.
      assert (Ls : length (map2 Csub (fft ft d) M) = n) by (apply StepProofs.map2_length; assumption).
      assert (Z : Re (nth j (to_real ft (map2 Csub (fft ft d) M)) C0) = 0).
      { rewrite Forall_forall in Hz1. apply Hz1.
        unfold to_real. rewrite Ls. change 0 with (Re C0). rewrite <- (map_nth Re). apply nth_In.
        rewrite map_length, div_real_length, (gt_ifft_len _ _ G); [exact Hj|exact Ls]. }
      rewrite E in Z. apply C_eq.
      * cbn [Re RtoC fst]. unfold Csub, Re in Z. cbn [fst] in Z. unfold Re. lra.
      * cbn [Im RtoC snd]. rewrite Forall_forall in Rd. apply Rd, nth_In. lia.
    + cbn [nth_error] in Hk, Hok, Hpk. rewrite <- Nat.add_succ_comm in Hrh, Hde.
      exact (IH orig prev (S i) out' Hf' Hr' Ho' Hp' Eres Hz2 k d' o' r0' r a Hk Hok Hpk Hrh Hde j Hj).
Qed.

Theorem residual_zero n p ft dt t orig prev e x out : unitary_transform n ft -> keeps_length n p -> (0 < n)%nat ->
  all_length n (e_fields e) -> length x = (length (e_fields e) * n)%nat -> all_length n orig -> all_length n prev ->
  update_equation p ft dt t orig prev e x = Some out -> Forall (fun r => r = 0) out ->
  exponential_step n p ft dt t orig prev (model_fft p ft {| e_fields := vec2fields x (e_fields e); e_derived := e_derived e |}) (vec2fields x (e_fields e)).
Proof.
  intros U KL Hn He Hx Ho Hp H Hz i d o r0 r a Hd Hoi Hpi Hr Ha j Hj. unfold update_equation in H. cbv zeta in H.
  set (e1 := model_fft p ft _) in *.
  assert (E : e_fields e1 = map (fft ft) (vec2fields x (e_fields e))) by (unfold e1; rewrite model_fft_fields; reflexivity).
  rewrite E in H.
  exact (residuals_zero n p ft dt t e1 U KL Hn _ orig prev 0 out (vec2fields_all n _ He x Hx) (vec2fields_real _ x) Ho Hp H Hz i d o r0 r a Hd Hoi Hpi Hr Ha j Hj).
Qed.

Lemma euler_fields_lengths n p ft filt dt t : keeps_length n p -> forall todo i e e', all_length n (e_fields e) ->
  euler_fields p ft filt dt t todo i e = Some e' -> all_length n (e_fields e') /\ length (e_fields e') = length (e_fields e).
Proof.
  intros KL. induction todo as [|todo IH]; intros i e e' He H; cbn [euler_fields] in H.
  - injection H as <-. auto.
  - destruct (nth_error (e_fields e) i) as [d|] eqn:Ed; [|discriminate]. pose proof (nth_error_all n _ _ _ He Ed) as Ld. rewrite Ld in H.
    destruct (get_rhs p e i t n) as [r|] eqn:Er; [|discriminate]. destruct (get_denum p e i t n) as [a|] eqn:Ea; [|discriminate].
    apply IH in H.
    + cbn [set_field e_fields] in H. rewrite set_nth_length in H. exact H.
    + cbn [set_field e_fields]. apply set_nth_all; [exact He|]. rewrite apply_filter_length. apply map3_length; [exact Ld| |].
      * apply (get_rhs_length _ _ _ _ _ _ KL Er).
      * apply (get_denum_length _ _ _ _ _ _ KL Ea).
Qed.
Lemma rhs_all_lengths n p e t : keeps_length n p -> forall fs i rs, all_length n fs -> rhs_all p e t i fs = Some rs -> all_length n rs.
Proof.
  intros KL. induction fs as [|d fs IH]; intros i rs Hf H; cbn [rhs_all] in H.
  - injection H as <-. constructor.
  - pose proof (Forall_inv Hf) as Ld; pose proof (Forall_inv_tail Hf) as Hf'; cbn beta in Ld. rewrite Ld in H.
    destruct (get_rhs p e i t n) as [r|] eqn:Er; [|discriminate]. destruct (rhs_all p e t (S i) fs) as [rs'|] eqn:Es; [|discriminate].
    injection H as <-. constructor; [apply (get_rhs_length _ _ _ _ _ _ KL Er)|apply (IH _ _ Hf' Es)].
Qed.
Lemma rhs_all_nth p e t : forall fs i rs k d, rhs_all p e t i fs = Some rs -> nth_error fs k = Some d -> nth_error rs k = get_rhs p e (i + k) t (length d).
Proof.
  induction fs as [|d fs IH]; intros i rs k d' H Hk; [destruct k; discriminate|]. cbn [rhs_all] in H.
  destruct (get_rhs p e i t (length d)) as [r|] eqn:Er; [|discriminate]. destruct (rhs_all p e t (S i) fs) as [rs'|] eqn:Es; [|discriminate].
  injection H as <-. destruct k as [|k]; cbn [nth_error] in *.
  - injection Hk as <-. rewrite Nat.add_0_r, Er. reflexivity.
  - rewrite (IH _ _ k d' Es Hk). rewrite Nat.add_succ_comm. reflexivity.
Qed.

Lemma rhs_all_count p e t : forall fs i rs, rhs_all p e t i fs = Some rs -> length rs = length fs.
Proof.
  induction fs as [|d fs IH]; intros i rs H; cbn [rhs_all] in H.
  - injection H as <-. reflexivity.
  - destruct (get_rhs p e i t (length d)); [|discriminate]. destruct (rhs_all p e t (S i) fs) eqn:E; [|discriminate].
    injection H as <-. cbn [length]. f_equal. apply (IH _ _ E).
Qed.

Theorem ie_step_solves n solve p ft filt dt t e e' : unitary_transform n ft -> keeps_length n p -> (0 < n)%nat -> all_length n (e_fields e) ->
  (forall F x0 e2, ie_problem p ft filt dt t e = Some (F, x0, e2) -> finds_zero solve F x0) ->
  (forall i, (i < length (e_fields e))%nat -> nth_error (p_eqns p) i <> None) ->
  ie_step solve p ft filt dt t e = Some e' ->
  exists prev, rhs_all p (model_fft p ft e) t 0 (map (fft ft) (e_fields e)) = Some prev /\
  length (e_fields e') = length (e_fields e) /\
  (forall d, In d (e_fields e') -> forall z, In z d -> Im z = 0) /\
  exists ds, exponential_step n p ft dt t (map (fft ft) (e_fields e)) prev (model_fft p ft {| e_fields := e_fields e'; e_derived := ds |}) (e_fields e').
Proof.
  intros U KL Hn He Hs Heq H. pose proof (ut_good _ _ U) as G. unfold ie_step in H. unfold ie_problem in H, Hs. cbv zeta in H, Hs. rewrite model_fft_fields in H, Hs.
  destruct (rhs_all p (model_fft p ft e) t 0 (map (fft ft) (e_fields e))) as [prev|] eqn:Ep; [|discriminate].
  destruct (euler_step p ft filt dt t (model_ifft ft (model_fft p ft e))) as [e2|] eqn:Ee; [|discriminate]. injection H as <-. destruct (Hs _ _ _ eq_refl) as [Hsl Hs0]. clear Hs.
  exists prev. split; [reflexivity|].
  assert (L2 : all_length n (e_fields e2) /\ length (e_fields e2) = length (e_fields e)).
  { unfold euler_step in Ee. cbv zeta in Ee.
    destruct (euler_fields _ _ _ _ _ _ _ _) as [e3|] eqn:E3; [|discriminate]. injection Ee as <-. cbn [e_fields].
    apply (euler_fields_lengths n) in E3; [|exact KL|].
    - cbn [e_fields] in E3. rewrite sync_fields in E3. unfold model_ifft in E3. cbn [e_fields] in E3. rewrite model_fft_fields in E3.
      rewrite (map_round n ft G) in E3 by exact He. rewrite map_length in E3. destruct E3 as [A B]. split; [apply (map_ifft_all n ft G), A|]. rewrite map_length. exact B.
    - cbn [e_fields]. rewrite sync_fields. unfold model_ifft. cbn [e_fields]. rewrite model_fft_fields, (map_round n ft G) by exact He.
      apply (map_fft_all n ft G), He. }
  destruct L2 as [L2 L2'].
  set (x := solve _ _) in *. cbn [e_fields].
  assert (Lx : length x = (length (e_fields e2) * n)%nat).
  { rewrite Hsl. unfold fields2vec. rewrite (concat_length_all n).
    - rewrite map_length. reflexivity.
    - apply Forall_forall. intros l Hl. apply in_map_iff in Hl. destruct Hl as (d & <- & Hd). rewrite map_length.
      unfold all_length in L2. rewrite Forall_forall in L2. apply L2, Hd. }
  split; [rewrite vec2fields_length; exact L2'|].
  split.
  { intros d Hd z Hz. pose proof (vec2fields_real (e_fields e2) x) as V. rewrite Forall_forall in V. specialize (V d Hd). rewrite Forall_forall in V. apply V, Hz. }
  exists (e_derived e2).
  assert (Hp := rhs_all_lengths n p _ t KL _ _ _ (map_fft_all n ft G _ He) Ep).
  assert (Ho := map_fft_all n ft G _ He).
  destruct (update_equation p ft dt t (map (fft ft) (e_fields e)) prev e2 x) as [out|] eqn:Eo.
  - apply (residual_zero n p ft dt t _ _ e2 x out U KL Hn L2 Lx Ho Hp Eo).
    exact (Hs0 _ eq_refl).
  - exfalso. unfold update_equation in Eo. cbv zeta in Eo. rewrite model_fft_fields in Eo. cbn [e_fields] in Eo.
    set (e1 := model_fft p ft _) in Eo.
    assert (T : forall fs orig prev i, length orig = length fs -> length prev = length fs -> (i + length fs <= length (e_fields e))%nat ->
      residuals p ft dt t e1 i fs orig prev <> None).
    { clear -Heq. induction fs as [|d fs IH]; intros [|o orig] [|r0 prev'] i H1 H2 H3; try discriminate. cbn [residuals length] in *.
      pose proof (Heq i ltac:(lia)) as Q. unfold get_rhs, get_denum.
      destruct (nth_error (p_eqns p) i); [|congruence]. cbv zeta.
      specialize (IH orig prev' (S i) ltac:(lia) ltac:(lia) ltac:(lia)). destruct (residuals p ft dt t e1 (S i) fs orig prev'); [discriminate|congruence]. }
    apply (T (map (fft ft) (vec2fields x (e_fields e2))) (map (fft ft) (e_fields e)) prev 0%nat); [| | |exact Eo].
    + rewrite !map_length, vec2fields_length. congruence.
    + rewrite map_length, vec2fields_length, L2'. rewrite (rhs_all_count _ _ _ _ _ _ Ep), map_length. reflexivity.
    + rewrite map_length, vec2fields_length, L2'. lia.
Qed.

(** *** The update is the exact solution of the linear problem *)
Lemma Cderiv_const c t : Cderiv (fun _ => c) t C0.
Proof. split; cbn; apply derivable_pt_lim_const. Qed.
Lemma Cderiv_eq y t d d' : Cderiv y t d -> d = d' -> Cderiv y t d'. Proof. intros H <-. exact H. Qed.
Lemma Cderiv_ext y y' t d : (forall s, y s = y' s) -> Cderiv y t d -> Cderiv y' t d.
Proof.
  intros E [H1 H2]. split.
  - apply (derivable_pt_lim_ext (fun s => Re (y s))); [intros s; rewrite E; reflexivity|exact H1].
  - apply (derivable_pt_lim_ext (fun s => Im (y s))); [intros s; rewrite E; reflexivity|exact H2].
Qed.
Lemma Cderiv_add y z t d d' : Cderiv y t d -> Cderiv z t d' -> Cderiv (fun s => Cadd (y s) (z s)) t (Cadd d d').
Proof. intros [A B] [A' B']. split; cbn [Cadd Re Im fst snd]; apply derivable_pt_lim_plus; assumption. Qed.
Lemma Cderiv_mul y z t d d' : Cderiv y t d -> Cderiv z t d' -> Cderiv (fun s => Cmul (y s) (z s)) t (Cadd (Cmul d (z t)) (Cmul (y t) d')).
Proof.
  intros [A B] [A' B']. split; cbn [Cadd Cmul Re Im fst snd].
  - pose proof (derivable_pt_lim_minus _ _ t _ _ (derivable_pt_lim_mult _ _ t _ _ A A') (derivable_pt_lim_mult _ _ t _ _ B B')) as X.
    unfold Re, Im in *. cbn [fst snd] in *.
    match type of X with derivable_pt_lim _ _ ?l => match goal with |- derivable_pt_lim _ _ ?l' => replace l' with l by ring end end. exact X.
  - pose proof (derivable_pt_lim_plus _ _ t _ _ (derivable_pt_lim_mult _ _ t _ _ A B') (derivable_pt_lim_mult _ _ t _ _ B A')) as X.
    unfold Re, Im in *. cbn [fst snd] in *.
    match type of X with derivable_pt_lim _ _ ?l => match goal with |- derivable_pt_lim _ _ ?l' => replace l' with l by ring end end. exact X.
Qed.
Lemma Cderiv_time t : Cderiv (fun s => RtoC s) t C1.
Proof. split; cbn [RtoC Re Im C1 fst snd]; [apply derivable_pt_lim_id|apply derivable_pt_lim_const]. Qed.
Lemma Cderiv_scale c y t d : Cderiv y t d -> Cderiv (fun s => Cmul c (y s)) t (Cmul c d).
Proof. intros H. eapply Cderiv_eq; [apply Cderiv_mul; [apply Cderiv_const|exact H]|]. cbn beta. ring. Qed.
Lemma lin_deriv a t : derivable_pt_lim (fun s => a * s) t a.
Proof. pose proof (derivable_pt_lim_scal id a t 1 (derivable_pt_lim_id t)) as X. rewrite Rmult_1_r in X. exact X. Qed.
Lemma Cderiv_exp a t : Cderiv (fun s => Cexp (Cmul a (RtoC s))) t (Cmul a (Cexp (Cmul a (RtoC t)))).
Proof.
  destruct a as [u v].
  assert (E : forall s, Cmul (u, v) (RtoC s) = (u * s, v * s)) by (intros s; csolve).
  apply (Cderiv_ext (fun s => (exp (u * s) * cos (v * s), exp (u * s) * sin (v * s)))).
  { intros s. rewrite E. reflexivity. }
  rewrite E. unfold Cexp. cbn [Re Im fst snd].
  assert (D1 : derivable_pt_lim (fun s => exp (u * s)) t (exp (u * t) * u)) by (apply (derivable_pt_lim_comp (fun s => u * s) exp); [apply lin_deriv|apply derivable_pt_lim_exp]).
  assert (D2 : derivable_pt_lim (fun s => cos (v * s)) t (- sin (v * t) * v)) by (apply (derivable_pt_lim_comp (fun s => v * s) cos); [apply lin_deriv|apply derivable_pt_lim_cos]).
  assert (D3 : derivable_pt_lim (fun s => sin (v * s)) t (cos (v * t) * v)) by (apply (derivable_pt_lim_comp (fun s => v * s) sin); [apply lin_deriv|apply derivable_pt_lim_sin]).
  split; cbn [Cmul Re Im fst snd].
  - pose proof (derivable_pt_lim_mult _ _ t _ _ D1 D2) as X.
    match type of X with derivable_pt_lim _ _ ?l => match goal with |- derivable_pt_lim _ _ ?l' => replace l' with l by ring end end. exact X.
  - pose proof (derivable_pt_lim_mult _ _ t _ _ D1 D3) as X.
    match type of X with derivable_pt_lim _ _ ?l => match goal with |- derivable_pt_lim _ _ ?l' => replace l' with l by ring end end. exact X.
Qed.

Lemma linear_ode_exists dt a prev rhs y0 : dt <> 0 -> a <> C0 ->
  linear_ode dt a prev rhs y0 (fun t => Cadd (Cmul y0 (Cexp (Cmul a (RtoC t))))
    (Cadd (Cdiv (Cmul prev (Csub (Cexp (Cmul a (RtoC t))) C1)) a)
          (Cdiv (Cmul (Cdiv (Csub rhs prev) (RtoC dt)) (Csub (Csub (Cexp (Cmul a (RtoC t))) (Cmul a (RtoC t))) C1)) (Cmul a a)))).
Proof.
  intros Hdt Ha. assert (Hd : RtoC dt <> C0) by (apply RtoC_neq0, Hdt). split.
  - replace (Cmul a (RtoC 0)) with C0 by csolve. rewrite Cexp_0. field. split; assumption.
  - intros t. set (E := fun s => Cexp (Cmul a (RtoC s))).
    apply (Cderiv_ext (fun s => Cadd (Cmul (Cadd y0 (Cadd (Cdiv prev a) (Cdiv (Cdiv (Csub rhs prev) (RtoC dt)) (Cmul a a)))) (E s))
       (Cadd (Cmul (Copp (Cdiv (Cdiv (Csub rhs prev) (RtoC dt)) a)) (RtoC s))
             (Copp (Cadd (Cdiv prev a) (Cdiv (Cdiv (Csub rhs prev) (RtoC dt)) (Cmul a a))))))).
    { intros s. fold (E s). field. split; assumption. }
    eapply Cderiv_eq.
    + apply Cderiv_add; [apply Cderiv_scale, Cderiv_exp|]. apply Cderiv_add; [apply Cderiv_scale, Cderiv_time|apply Cderiv_const].
    + fold (E t). replace (RtoC (t / dt)) with (Cdiv (RtoC t) (RtoC dt)) by (unfold Rdiv, Cdiv; rewrite RtoC_mul, RtoC_inv by exact Hdt; reflexivity).
      field. split; assumption.
Qed.
Lemma linear_ode_exists0 dt prev rhs y0 : dt <> 0 ->
  linear_ode dt C0 prev rhs y0 (fun t => Cadd y0 (Cadd (Cmul prev (RtoC t)) (Cmul (Cdiv (Csub rhs prev) (Cmul (RtoC 2) (RtoC dt))) (Cmul (RtoC t) (RtoC t))))).
Proof.
  intros Hdt. assert (Hd : RtoC dt <> C0) by (apply RtoC_neq0, Hdt). assert (H2 : RtoC 2 <> C0) by (apply RtoC_neq0; lra). split.
  - change (RtoC 0) with C0. field. split; assumption.
  - intros t. eapply Cderiv_eq.
    + apply Cderiv_add; [apply Cderiv_const|]. apply Cderiv_add; [apply Cderiv_scale, Cderiv_time|]. apply Cderiv_scale, Cderiv_mul; apply Cderiv_time.
    + replace (RtoC (t / dt)) with (Cdiv (RtoC t) (RtoC dt)) by (unfold Rdiv, Cdiv; rewrite RtoC_mul, RtoC_inv by exact Hdt; reflexivity).
      replace (RtoC 2) with (Cadd C1 C1) in * by csolve. field. split; assumption.
Qed.

Lemma Cderiv_zero_const y : (forall t, Cderiv y t C0) -> forall t, y t = y 0.
Proof.
  intros H t.
  assert (K : forall f : R -> R, (forall s, derivable_pt_lim f s 0) -> f t = f 0).
  { intros f Hf. assert (pr : derivable f) by (intros s; exists 0; apply Hf).
    apply (null_derivative_1 f pr). intros s. apply derive_pt_eq_0, Hf. }
  apply C_eq; [apply (K (fun s => Re (y s)))|apply (K (fun s => Im (y s)))]; intros s; apply (H s).
Qed.
Theorem linear_ode_unique dt a prev rhs y0 y z : linear_ode dt a prev rhs y0 y -> linear_ode dt a prev rhs y0 z -> forall t, y t = z t.
Proof.
  intros [Y0 Y] [Z0 Z] t.
  set (w := fun s => Cmul (Csub (y s) (z s)) (Cexp (Cmul (Copp a) (RtoC s)))).
  assert (W : forall s, Cderiv w s C0).
  { intros s. unfold w. eapply Cderiv_eq.
    - apply (Cderiv_mul (fun s => Csub (y s) (z s)) _ s (Csub (Cmul a (y s)) (Cmul a (z s)))); [|apply Cderiv_exp].
      apply (Cderiv_ext (fun s => Cadd (y s) (Cmul (Copp C1) (z s)))); [intros r; ring|].
      eapply Cderiv_eq; [apply Cderiv_add; [apply Y|apply Cderiv_scale, Z]|]. ring.
    - cbn beta. ring. }
  pose proof (Cderiv_zero_const w W t) as E. unfold w in E. rewrite Y0, Z0 in E.
  replace (Csub y0 y0) with C0 in E by ring.
  replace (Cmul C0 _) with C0 in E by ring.
  assert (N : Cexp (Cmul (Copp a) (RtoC t)) <> C0).
  { intros Q. assert (M : Cmul (Cexp (Cmul (Copp a) (RtoC t))) (Cexp (Cmul a (RtoC t))) = C1).
    { rewrite <- Cexp_add. replace (Cadd _ _) with C0 by ring. apply Cexp_0. }
    rewrite Q in M. apply C1_neq_0. rewrite <- M. ring. }
  apply Cmul_eq0 in E. destruct E as [E|E]; [|contradiction].
  replace (y t) with (Cadd (z t) (Csub (y t) (z t))) by ring. rewrite E. ring.
Qed.

Theorem ie_update_exact dt a prev rhs y0 y : dt <> 0 -> a = C0 \/ / 10 ^ 5 <= Cabs a ->
  linear_ode dt a prev rhs y0 y -> ie_update dt y0 a rhs prev = y dt.
Proof.
  intros Hdt Ha Hy. unfold ie_update, nonlinear_integral. destruct (Rlt_dec (Cabs a) (/ 10 ^ 5)) as [Hs|Hs].
  - destruct Ha as [->|Ha]; [|lra]. rewrite (linear_ode_unique _ _ _ _ _ _ _ Hy (linear_ode_exists0 dt prev rhs y0 Hdt) dt).
    replace (Cmul C0 (RtoC dt)) with C0 by ring. rewrite Cexp_0.
    replace (RtoC (/ 2)) with (Cinv (RtoC 2)) by (rewrite RtoC_inv; [reflexivity|lra]).
    assert (Hd : RtoC dt <> C0) by (apply RtoC_neq0, Hdt). assert (H2 : RtoC 2 <> C0) by (apply RtoC_neq0; lra).
    replace (RtoC 2) with (Cadd C1 C1) in * by csolve. field. split; assumption.
  - assert (Na : a <> C0).
    { intros ->. apply Hs. unfold Cabs. replace (Cnorm2 C0) with 0 by (unfold Cnorm2, C0, Re, Im; cbn; ring). rewrite sqrt_0. apply Rinv_0_lt_compat. apply pow_lt. lra. }
    rewrite (linear_ode_unique _ _ _ _ _ _ _ Hy (linear_ode_exists dt a prev rhs y0 Hdt Na) dt). reflexivity.
Qed.

(** *** What the implicit Euler stepper does not do *)
Lemma ie_update_0 dt y r p : ie_update dt y C0 r p = Cadd y (Cmul (RtoC (dt / 2)) (Cadd r p)).
Proof.
  unfold ie_update, nonlinear_integral. replace (Cmul C0 (RtoC dt)) with C0 by ring. rewrite Cexp_0.
  destruct (Rlt_dec (Cabs C0) (/ 10 ^ 5)) as [_|H].
  - unfold Rdiv. rewrite RtoC_mul. ring.
  - exfalso. apply H. unfold Cabs. replace (Cnorm2 C0) with 0 by (unfold Cnorm2, C0, Re, Im; cbn; ring). rewrite sqrt_0. apply Rinv_0_lt_compat, pow_lt. lra.
Qed.
Lemma map4_1 {A B D E F} (f : A -> B -> D -> E -> F) x y z w : map4 f [x] [y] [z] [w] = [f x y z w]. Proof. reflexivity. Qed.

Definition one_eqn (f : env -> R -> data -> data) : pde :=
  {| p_calc := []; p_eqns := [{| q_terms := [f]; q_denum := []; q_sources := [] |}]; p_mods := [] |}.
Lemma one_eqn_lengths f : (forall e t tmp, length (f e t tmp) = 1%nat) -> keeps_length 1 (one_eqn f).
Proof.
  intros H. constructor; cbn [one_eqn p_calc p_eqns p_mods].
  - intros c e [].
  - intros q g e t tmp [<-|[]] [Hg|Hg] Ht; cbn in Hg; [|contradiction]. destruct Hg as [<-|[]]. apply H.
  - intros q s t tmp [<-|[]] Hs; cbn in Hs; contradiction.
  - intros m d [].
Qed.
Lemma residuals_one f dt t e1 d o r0 z : f e1 t [C0] = [z] ->
  residuals (one_eqn f) id1 dt t e1 0 [[d]] [[o]] [[r0]] =
  Some [Re (Cdiv (Csub d (Cadd o (Cmul (RtoC (dt / 2)) (Cadd (Cadd C0 z) r0)))) (RtoC 1))].
Proof.
  intros H. unfold residuals. unfold get_rhs, get_denum. cbn [one_eqn p_eqns nth_error q_terms q_denum q_sources p_mods length repeat fold_left].
  unfold add_term, apply_mods. cbn [fst snd fold_left]. rewrite H. cbn [vadd fst snd]. rewrite map4_1, ie_update_0. reflexivity.
Qed.

(** Right-hand side t: the residual vanishes for the old field although the
    right-hand side at the new time is one. *)
Theorem old_time_refuted : exists n p ft dt t orig prev e x out,
  unitary_transform n ft /\ keeps_length n p /\ (0 < n)%nat /\ all_length n (e_fields e) /\ length x = (length (e_fields e) * n)%nat /\
  rhs_all p (model_fft p ft e) t 0 orig = Some prev /\ orig = map (fft ft) (e_fields e) /\
  update_equation p ft dt t orig prev e x = Some out /\ Forall (fun r => r = 0) out /\
  ~ exponential_step n p ft dt (t + dt) orig prev (model_fft p ft {| e_fields := vec2fields x (e_fields e); e_derived := e_derived e |}) (vec2fields x (e_fields e)).
Proof.
  exists 1%nat, (one_eqn (fun _ t _ => [RtoC t])), id1, 1, 0, [[C0]], [[Cadd C0 (RtoC 0)]], {| e_fields := [[C0]]; e_derived := [] |}, [0].
  eexists. split; [exact id1_unitary|]. split; [apply one_eqn_lengths; reflexivity|]. split; [lia|]. split; [repeat constructor|]. split; [reflexivity|].
  split; [reflexivity|]. split; [reflexivity|]. split; [apply residuals_one; reflexivity|]. split.
  - constructor; [|constructor]. change (RtoC 0) with C0.
    replace (Cdiv _ _) with C0; [reflexivity|]. change (RtoC 1) with C1. field. exact C1_neq_0.
  - intros H. specialize (H 0%nat [C0] [C0] [Cadd C0 (RtoC 0)] [Cadd C0 (RtoC (0 + 1))] [C0] eq_refl eq_refl eq_refl eq_refl eq_refl 0%nat ltac:(lia)).
    rewrite map4_1, ie_update_0, to_real_id1 in H by reflexivity. cbn [nth] in H. apply (f_equal Re) in H. cbn in H. lra.
Qed.

(** Right-hand side y, half a time unit from y = 1: the zero of the residual is
    5/3, the implicit Euler value is 2. *)
Theorem documented_scheme_refuted : exists n p ft dt t orig prev e x out,
  unitary_transform n ft /\ keeps_length n p /\ (0 < n)%nat /\ all_length n (e_fields e) /\ length x = (length (e_fields e) * n)%nat /\
  rhs_all p (model_fft p ft e) t 0 orig = Some prev /\ orig = map (fft ft) (e_fields e) /\
  update_equation p ft dt t orig prev e x = Some out /\ Forall (fun r => r = 0) out /\
  exists y y' r a, let e' := model_fft p ft {| e_fields := vec2fields x (e_fields e); e_derived := e_derived e |} in
  nth_error orig 0 = Some y /\ nth_error (e_fields e') 0 = Some y' /\ get_rhs p e' 0 t n = Some r /\ get_denum p e' 0 t n = Some a /\
  nth 0 y' C0 <> Cadd (nth 0 y C0) (Cmul (RtoC dt) (Cadd (Cmul (nth 0 a C0) (nth 0 y' C0)) (nth 0 r C0))).
Proof.
  exists 1%nat, (one_eqn (fun e _ _ => [nth 0 (nth 0 (e_fields e) []) C0])), id1, (/ 2), 0, [[C1]], [[Cadd C0 C1]], {| e_fields := [[C1]]; e_derived := [] |}, [5 / 3].
  eexists. split; [exact id1_unitary|]. split; [apply one_eqn_lengths; reflexivity|]. split; [lia|]. split; [repeat constructor|]. split; [reflexivity|].
  split; [reflexivity|]. split; [reflexivity|]. split; [apply residuals_one; reflexivity|]. split.
  - constructor; [|constructor]. cbn. replace (Cnorm2 (RtoC 1)) with 1 by (unfold Cnorm2, RtoC, Re, Im; cbn; ring). field.
  - exists [C1], [RtoC (5 / 3)], [Cadd C0 (RtoC (5 / 3))], [C0]. cbv zeta. split; [reflexivity|]. split; [reflexivity|]. split; [reflexivity|]. split; [reflexivity|].
    cbn [nth]. intros H. apply (f_equal Re) in H. cbn in H. lra.
Qed.

Lemma ie_step_example : let p := one_eqn (fun e _ _ => [nth 0 (nth 0 (e_fields e) []) C0]) in
  let e := {| e_fields := [[C1]]; e_derived := [] |} in let solve := fun (_ : list R -> option (list R)) (_ : list R) => [5 / 3] in
  unitary_transform 1 id1 /\ keeps_length 1 p /\ all_length 1 (e_fields e)
  /\ (forall F x0 e2, ie_problem p id1 None (/ 2) 0 e = Some (F, x0, e2) -> finds_zero solve F x0)
  /\ (forall i, (i < length (e_fields e))%nat -> nth_error (p_eqns p) i <> None)
  /\ exists e', ie_step solve p id1 None (/ 2) 0 e = Some e' /\ e_fields e' = [[RtoC (5 / 3)]].
Proof.
  intros p e solve. split; [exact id1_unitary|]. split; [apply one_eqn_lengths; reflexivity|]. split; [repeat constructor|].
  assert (P : exists w, ie_problem p id1 None (/ 2) 0 e = Some (update_equation p id1 (/ 2) 0 [[C1]] [[Cadd C0 C1]] {| e_fields := [[w]]; e_derived := [] |}, [Re w], {| e_fields := [[w]]; e_derived := [] |})).
  { eexists. unfold ie_problem, p, e. reflexivity. }
  destruct P as (w & P). split; [|split].
  - intros F x0 e2 Q. rewrite P in Q. injection Q as <- <- <-. split; [reflexivity|]. intros out Q.
    eassert (RE : update_equation p id1 (/ 2) 0 [[C1]] [[Cadd C0 C1]] {| e_fields := [[w]]; e_derived := [] |} [5 / 3] = Some _) by (apply residuals_one; reflexivity).
    unfold solve in Q. rewrite RE in Q. injection Q as <-.
    constructor; [|constructor]. cbn. replace (Cnorm2 (RtoC 1)) with 1 by (unfold Cnorm2, RtoC, Re, Im; cbn; ring). field.
  - intros [|i] Hi; [discriminate|cbn [e e_fields length] in Hi; lia].
  - unfold ie_step. rewrite P. eexists. split; [reflexivity|]. reflexivity.
Qed.

(** With two fields the part of the orientation belonging to one field is not a
    unit vector and the transformation does not reverse a force along the dimer. *)
Theorem householder_two_fields : exists n k o c i,
  (0 < n)%nat /\ (i < k)%nat /\ length o = (k * n)%nat /\ unit_vector o /\ c <> C0 /\
  let along := map (fun x => Cmul c (RtoC x)) o in
  householder (fft id1 (chunk n i along)) (chunk n i (ft_orientation id1 n k o)) 2 n <> map Copp (fft id1 (chunk n i along)).
Proof.
  exists 1%nat, 2%nat, [3 / 5; 4 / 5], C1, 0%nat. split; [lia|]. split; [lia|]. split; [reflexivity|]. split; [apply unit_rdot; cbn; field|]. split; [exact C1_neq_0|].
  cbv zeta. intros H. apply (f_equal (fun l => Re (nth 0 l C0))) in H. cbn in H. replace (Cnorm2 (RtoC 1)) with 1 in H by (unfold Cnorm2, RtoC, Re, Im; cbn; ring). lra.
Qed.

Lemma unit_amplitudes n ft o : unitary_transform n ft -> length o = n -> (0 < n)%nat -> unit_vector o ->
  inner n (fft ft (map RtoC o)) (fft ft (map RtoC o)) = RtoC (INR n) /\ length (fft ft (map RtoC o)) = n.
Proof.
  intros U Lo Hn Hu. assert (L : length (map RtoC o) = n) by (rewrite map_length; exact Lo). split.
  - rewrite (ut_parseval _ _ U _ _ L L).
    pose proof (inner_real n 1 o ltac:(lia)) as E. rewrite Nat.mul_1_l in E. rewrite E. apply unit_rdot in Hu. rewrite Hu.
    change (RtoC 1) with C1. ring.
  - apply (gt_fft_len _ _ (ut_good _ _ U)), L.
Qed.
Theorem householder_unit n ft o : unitary_transform n ft -> (0 < n)%nat -> length o = n -> unit_vector o ->
  let ho := fun x => householder x (fft ft (map RtoC o)) 2 n in
  (forall c, ho (map (Cmul c) (fft ft (map RtoC o))) = map (Cmul (Copp c)) (fft ft (map RtoC o))) /\
  (forall x, length x = n -> inner n x (fft ft (map RtoC o)) = C0 -> ho x = x) /\
  (forall x, length x = n -> ho (ho x) = x) /\
  (forall x y, length x = n -> length y = n -> inner n (ho x) (ho y) = inner n x y).
Proof.
  intros U Hn Lo Hu. destruct (unit_amplitudes n ft o U Lo Hn Hu) as [E L]. cbv zeta. split; [|split; [|split]].
  - intros c. apply householder_reverses; assumption.
  - intros x Hx H0. apply householder_fixes; assumption.
  - intros x Hx. apply householder_involutive; assumption.
  - intros x y Hx Hy. apply householder_isometry; assumption.
Qed.
Theorem householder_real n ft o x : unitary_transform n ft -> (0 < n)%nat -> length o = n -> length x = n ->
  forall i, (i < n)%nat ->
  nth i (to_real ft (householder (fft ft x) (fft ft (map RtoC o)) 2 n)) C0 =
  Csub (nth i x C0) (Cmul (RtoC (2 * nth i o 0)) (csum n (fun j => Cmul (nth j x C0) (RtoC (nth j o 0))))).
Proof.
  intros U Hn Lo Lx i Hi. rewrite (householder_real_space n ft (map RtoC o) x U) by (rewrite ?map_length; assumption).
  rewrite map_RtoC_nth, RtoC_mul. unfold inner.
  rewrite (csum_ext n (fun j => Cmul (nth j x C0) (Cconj (nth j (map RtoC o) C0))) (fun j => Cmul (nth j x C0) (RtoC (nth j o 0)))).
  - ring.
  - intros j Hj. rewrite map_RtoC_nth. f_equal. csolve.
Qed.

Theorem run_from_start n k p ft s0 o s e steps s' e' : unitary_transform n ft -> keeps_length n p -> (0 < n)%nat ->
  length (e_fields e) = k -> all_length n (e_fields e) -> length (s_orient s0) = (k * n)%nat -> s_tau_orient s0 <> 0 ->
  set_initial_orientation s0 o = Some s -> (exists x, In x o /\ x <> 0) ->
  sdd_run p ft steps s e = Some (s', e') ->
  unit_vector (s_orient s') /\ length (s_orient s') = (k * n)%nat /\ length (e_fields e') = k /\ all_length n (e_fields e') /\
  sdd_time s' = sdd_time s + INR steps * s_dt s.
Proof.
  intros U KL Hn Hk Ha Ho Ht H1 H2 Hr. destruct (set_orientation_unit s0 o s H1 H2) as (A & _ & B & D & _).
  assert (Rd : dimer_ready n k s e).
  { constructor; try assumption; [congruence|]. unfold set_initial_orientation in H1. destruct (Nat.eqb _ _); [|discriminate]. injection H1 as <-. exact Ht. }
  destruct (sdd_run_ready n k p ft U KL steps s e s' e' Rd Hr) as ([_ E1 E2 E3 E4 _ _] & T). auto 10.
Qed.
