(** Proofs about the mode expansion solver: derivatives, the best minimum and
    the elastic properties. *)
From Verif Require Import ModeModel ModeSpec ModeProofs ModeProofs2 MillerProofs GridProofs2 EnergyProofs EnergyProofs3.
From Coq Require Import Lra Lia.
Open Scope R_scope.

(** ** Derivatives of sums and products *)
Lemma dlim_fun (f g : R -> R) x l : (forall y, f y = g y) -> derivable_pt_lim f x l -> derivable_pt_lim g x l.
Proof. intros H. apply EnergyProofs.dlim_ext; [exact H|reflexivity]. Qed.
Lemma dlim_lsum {A} (f : A -> R -> R) (d : A -> R) x l : (forall a, In a l -> derivable_pt_lim (f a) x (d a)) ->
  derivable_pt_lim (fun t => lsum (fun a => f a t) l) x (lsum d l).
Proof.
  induction l as [|a l IH]; intros H; cbn [lsum]; [apply derivable_pt_lim_const|].
  apply (derivable_pt_lim_plus (f a) (fun t => lsum (fun a => f a t) l)); [apply H; left; reflexivity|].
  apply IH. intros b Hb. apply H. right. exact Hb.
Qed.
Lemma lprod_const_out {A} (f : A -> R) (c : A -> bool) v l : (forall x, In x l -> c x = false) -> lprod (fun x => if c x then v else f x) l = lprod f l.
Proof. intros H. apply lprod_ext. intros x Hx. rewrite H by exact Hx. reflexivity. Qed.
Lemma lprod_factor (F : nat -> R) v j l : NoDup l -> In j l ->
  lprod (fun k => if Nat.eqb k j then v else F k) l = v * lprod (fun k => if Nat.eqb k j then 1 else F k) l.
Proof.
  intros HN. induction HN as [|k l Hk HN IH]; intros Hj; [destruct Hj|]. cbn [lprod]. destruct Hj as [->|Hj].
  - rewrite Nat.eqb_refl. assert (H : forall x, In x l -> Nat.eqb x j = false) by (intros x Hx; apply Nat.eqb_neq; intros ->; contradiction).
    rewrite !lprod_const_out by exact H. ring.
  - rewrite IH by exact Hj. destruct (Nat.eqb_spec k j) as [->|_]; [contradiction|]. ring.
Qed.
Lemma dlim_lprod (F : nat -> R) phi x d j n : (j < n)%nat -> derivable_pt_lim phi x d ->
  derivable_pt_lim (fun t => lprod (fun k => if Nat.eqb k j then phi t else F k) (seq 0 n)) x (lprod (fun k => if Nat.eqb k j then d else F k) (seq 0 n)).
Proof.
  intros Hj Hp. rewrite lprod_factor by (try apply seq_NoDup; apply in_seq; lia).
  apply (dlim_fun (fun t => phi t * lprod (fun k => if Nat.eqb k j then 1 else F k) (seq 0 n))).
  - intros t. rewrite (lprod_factor F (phi t)) by (try apply seq_NoDup; apply in_seq; lia). reflexivity.
  - set (r := lprod _ _). replace (d * r) with (d * r + phi x * 0) by ring. apply (derivable_pt_lim_mult phi (fun _ => r)); [exact Hp|apply derivable_pt_lim_const].
Qed.
Lemma dlim_pow n x : derivable_pt_lim (fun t => t ^ n) x (INR n * x ^ (n - 1)).
Proof. rewrite Nat.sub_1_r. apply derivable_pt_lim_pow. Qed.
Lemma dlim_scale c phi x d : derivable_pt_lim phi x d -> derivable_pt_lim (fun t => c * phi t) x (c * d).
Proof. intros H. apply (derivable_pt_lim_scal phi c x d H). Qed.

Lemma fold_minus {A} (f : A -> R) l s : fold_left (fun g x => g - f x) l s = s - lsum f l.
Proof. revert s. induction l as [|x l IH]; intros s; cbn [fold_left lsum]; [lra|]. rewrite IH. lra. Qed.

(** ** Replacing an amplitude *)
Lemma with_amp_length amp i x : (i < length amp)%nat -> length (with_amp amp i x) = length amp.
Proof. intros H. unfold with_amp. rewrite app_length, firstn_length. cbn [length]. rewrite skipn_length. lia. Qed.
Lemma with_amp_nth amp i x j : (i < length amp)%nat -> nth j (with_amp amp i x) 0 = if Nat.eqb j i then x else nth j amp 0.
Proof.
  intros H. unfold with_amp. revert i j H. induction amp as [|a amp IH]; intros i j H; cbn [length] in H; [lia|].
  destruct i as [|i]; cbn [firstn app skipn].
  - destruct j as [|j]; reflexivity.
  - destruct j as [|j]; [reflexivity|]. cbn [nth]. rewrite IH by lia. reflexivity.
Qed.
Lemma with_amp_self amp i : (i < length amp)%nat -> with_amp amp i (nth i amp 0) = amp.
Proof.
  unfold with_amp. revert i. induction amp as [|a amp IH]; intros [|i] H; cbn [length] in H; try lia; [reflexivity|].
  cbn [firstn skipn nth app]. rewrite IH by lia. reflexivity.
Qed.

(** ** Gradient and Hessian *)
Lemma gradient_sum ts amp dir : (dir < length amp)%nat -> gradient ts amp dir = lsum (fun kv : str * fterm => grad_prod amp (fst (snd kv)) dir * snd (snd kv)) ts.
Proof.
  intros Hd. unfold gradient. rewrite <- (Rplus_0_l (lsum _ _)). generalize 0 at 1 2. induction ts as [|[k [p c]] ts IH]; intros s; cbn [fold_left lsum fst snd]; [lra|].
  rewrite IH. destruct (Nat.eqb_spec (nth dir p 0%nat) 0) as [E|_]; [|lra].
  assert (Z : grad_prod amp p dir = 0); [|rewrite Z; lra]. unfold grad_prod. rewrite prod_loop_lprod.
  rewrite (lprod_ext _ (fun j => if Nat.eqb j dir then 0 else nth j amp 0 ^ nth j p 0%nat)).
  - rewrite (lprod_factor (fun j => nth j amp 0 ^ nth j p 0%nat) 0) by (try apply seq_NoDup; apply in_seq; lia). lra.
  - intros j _. destruct (Nat.eqb_spec j dir); [|reflexivity]. rewrite E. cbn [INR]. lra.
Qed.
Lemma amp_prod_deriv amp p i : (i < length amp)%nat -> derivable_pt_lim (fun x => amp_prod (with_amp amp i x) p) (nth i amp 0) (grad_prod amp p i).
Proof.
  intros Hi. unfold grad_prod. rewrite prod_loop_lprod.
  apply (dlim_fun (fun x => lprod (fun k => if Nat.eqb k i then x ^ nth i p 0%nat else nth k amp 0 ^ nth k p 0%nat) (seq 0 (length amp)))).
  - intros x. unfold amp_prod. rewrite prod_loop_lprod, with_amp_length by exact Hi. apply lprod_ext. intros k _. rewrite with_amp_nth by exact Hi.
    destruct (Nat.eqb_spec k i) as [->|_]; reflexivity.
  - rewrite (lprod_ext _ (fun k => if Nat.eqb k i then INR (nth i p 0%nat) * nth i amp 0 ^ (nth i p 0%nat - 1) else nth k amp 0 ^ nth k p 0%nat)).
    + apply dlim_lprod; [exact Hi|apply dlim_pow].
    + intros k _. destruct (Nat.eqb_spec k i) as [->|_]; reflexivity.
Qed.
Theorem gradient_is_derivative ts amp i : (i < length amp)%nat ->
  derivable_pt_lim (fun x => energy ts (with_amp amp i x)) (nth i amp 0) (gradient ts amp i).
Proof.
  intros Hi. rewrite gradient_sum by exact Hi.
  apply (dlim_fun (fun x => lsum (fun kv : str * fterm => snd (snd kv) * amp_prod (with_amp amp i x) (fst (snd kv))) ts)).
  - intros x. unfold energy. rewrite sum_loop_lsum. apply lsum_ext. intros kv _. ring.
  - rewrite (lsum_ext _ (fun kv : str * fterm => snd (snd kv) * grad_prod amp (fst (snd kv)) i)) by (intros; ring).
    apply (dlim_lsum (fun (kv : str * fterm) x => snd (snd kv) * amp_prod (with_amp amp i x) (fst (snd kv)))). intros kv _.
    apply dlim_scale, amp_prod_deriv, Hi.
Qed.
Lemma hess_prod_sym amp p i j : hess_prod amp p i j = hess_prod amp p j i.
Proof.
  unfold hess_prod. rewrite !prod_loop_lprod. apply lprod_ext. intros k _. rewrite (andb_comm (Nat.eqb k i)), (orb_comm (Nat.eqb k i)). reflexivity.
Qed.
Lemma hess_prod_minmax amp p i j : hess_prod amp p (Nat.min i j) (Nat.max i j) = hess_prod amp p i j.
Proof. destruct (Nat.le_ge_cases i j) as [H|H]; [rewrite Nat.min_l, Nat.max_r by exact H; reflexivity|]. rewrite Nat.min_r, Nat.max_l by exact H. apply hess_prod_sym. Qed.
Lemma grad_prod_deriv amp p i j : (i < length amp)%nat -> (j < length amp)%nat ->
  derivable_pt_lim (fun x => grad_prod (with_amp amp j x) p i) (nth j amp 0) (hess_prod amp p i j).
Proof.
  intros Hi Hj. unfold hess_prod. rewrite prod_loop_lprod. destruct (Nat.eq_dec i j) as [<-|Hij].
  - apply (dlim_fun (fun x => lprod (fun k => if Nat.eqb k i then INR (nth i p 0%nat) * x ^ (nth i p 0%nat - 1) else nth k amp 0 ^ nth k p 0%nat) (seq 0 (length amp)))).
    + intros x. unfold grad_prod. rewrite prod_loop_lprod, with_amp_length by exact Hi. apply lprod_ext. intros k _. rewrite with_amp_nth by exact Hi.
      destruct (Nat.eqb_spec k i) as [->|_]; reflexivity.
    + rewrite (lprod_ext _ (fun k => if Nat.eqb k i then INR (nth i p 0%nat) * (INR (nth i p 0%nat - 1) * nth i amp 0 ^ (nth i p 0%nat - 1 - 1)) else nth k amp 0 ^ nth k p 0%nat)).
      * apply dlim_lprod; [exact Hi|]. apply dlim_scale, dlim_pow.
      * intros k _. destruct (Nat.eqb_spec k i) as [->|_]; cbn [andb orb]; [|reflexivity].
        destruct (Nat.ltb_spec (nth i p 0%nat) 2) as [H|H].
        -- destruct (nth i p 0%nat) as [|[|q]]; cbn [INR Nat.sub]; try lra. lia.
        -- rewrite minus_INR by lia. replace (nth i p 0 - 1 - 1)%nat with (nth i p 0 - 2)%nat by lia. cbn [INR]. ring.
  - apply (dlim_fun (fun x => lprod (fun k => if Nat.eqb k j then x ^ nth j p 0%nat
        else if Nat.eqb k i then INR (nth i p 0%nat) * nth i amp 0 ^ (nth i p 0%nat - 1) else nth k amp 0 ^ nth k p 0%nat) (seq 0 (length amp)))).
    + intros x. unfold grad_prod. rewrite prod_loop_lprod, with_amp_length by exact Hj. apply lprod_ext. intros k _. rewrite with_amp_nth by exact Hj.
      destruct (Nat.eqb_spec k i) as [Ei|Hk]; destruct (Nat.eqb_spec k j) as [Ej|Hk']; try congruence; try rewrite Ei; try rewrite Ej; reflexivity.
    + rewrite (lprod_ext _ (fun k => if Nat.eqb k j then INR (nth j p 0%nat) * nth j amp 0 ^ (nth j p 0%nat - 1)
        else if Nat.eqb k i then INR (nth i p 0%nat) * nth i amp 0 ^ (nth i p 0%nat - 1) else nth k amp 0 ^ nth k p 0%nat)).
      * apply (dlim_lprod (fun k => if Nat.eqb k i then INR (nth i p 0%nat) * nth i amp 0 ^ (nth i p 0%nat - 1) else nth k amp 0 ^ nth k p 0%nat)); [exact Hj|apply dlim_pow].
      * intros k _. destruct (Nat.eqb_spec k i) as [->|Hk]; [destruct (Nat.eqb_spec i j) as [E|_]; [congruence|]|destruct (Nat.eqb_spec k j) as [->|_]]; cbn [andb orb]; try reflexivity.
        -- destruct (Nat.eqb_spec (nth i p 0%nat) 0) as [E|_]; [rewrite E; cbn [INR]; lra|reflexivity].
        -- destruct (Nat.eqb_spec (nth j p 0%nat) 0) as [E|_]; [rewrite E; cbn [INR]; lra|reflexivity].
Qed.
Theorem hessian_is_derivative ts amp i j : (i < length amp)%nat -> (j < length amp)%nat ->
  derivable_pt_lim (fun x => gradient ts (with_amp amp j x) i) (nth j amp 0) (hessian ts amp i j).
Proof.
  intros Hi Hj. unfold hessian. rewrite sum_loop_lsum.
  apply (dlim_fun (fun x => lsum (fun kv : str * fterm => snd (snd kv) * grad_prod (with_amp amp j x) (fst (snd kv)) i) ts)).
  - intros x. rewrite gradient_sum by (rewrite with_amp_length; assumption). apply lsum_ext. intros kv _. ring.
  - rewrite (lsum_ext _ (fun kv : str * fterm => snd (snd kv) * hess_prod amp (fst (snd kv)) i j)) by (intros; rewrite hess_prod_minmax; ring).
    apply (dlim_lsum (fun (kv : str * fterm) x => snd (snd kv) * grad_prod (with_amp amp j x) (fst (snd kv)) i)). intros kv _.
    apply dlim_scale, grad_prod_deriv; assumption.
Qed.
Lemma hessian_symmetric ts amp i j : hessian ts amp i j = hessian ts amp j i.
Proof. unfold hessian. rewrite Nat.min_comm, Nat.max_comm. reflexivity. Qed.

(** ** The best minimum *)
Lemma mono_zeros n ps : (0 < nsum ps)%nat -> length ps = n -> mono (repeat 0 n) ps = 0.
Proof.
  revert ps. induction n as [|n IH]; intros [|p ps] H Hl; cbn [length] in Hl; try lia; [unfold nsum in H; cbn in H; lia|].
  cbn [repeat mono]. destruct p as [|p]; [|rewrite pow_ne_zero by lia; lra].
  rewrite IH; [lra|unfold nsum in *; cbn [fold_right] in H; lia|lia].
Qed.
Lemma energy_at_zero mix dim q modes ts : dim = 2%nat \/ dim = 3%nat -> modes <> [] -> all_terms mix dim q modes = Some ts ->
  energy (cut_terms ts) (repeat 0 (length modes)) = 0.
Proof.
  intros Hd Hm E. destruct (all_spec mix dim q modes Hd Hm) as (ts' & E' & F & _). rewrite E in E'. injection E' as <-.
  rewrite energy_weigh. unfold weigh. rewrite (lsum_ext _ (fun _ => 0)); [apply lsum_0|].
  intros [k [p c]] Hin. unfold cut_terms in Hin. apply filter_In in Hin. destruct Hin as [Hin _]. rewrite Forall_forall in F. specialize (F _ Hin).
  cbn [fst snd] in *. rewrite mono_zeros; [lra|lia|apply F].
Qed.
Lemma pick_best_spec (E : list R -> R) minimize modes starts :
  E (repeat 0 (length modes)) = 0 -> (forall x0, fst (minimize x0) = E (snd (minimize x0))) ->
  let best := pick_best minimize modes starts in
  E (snd best) = fst best /\ fst best <= 0 /\ Forall (fun x0 => fst best <= fst (minimize x0)) starts
  /\ (best = (0, repeat 0 (length modes)) \/ exists x0, In x0 starts /\ best = minimize x0).
Proof.
  intros H0 HE best. unfold best, pick_best. set (step := fun (best : R * list R) x0 => _). set (b0 := (0, repeat 0 (length modes))).
  assert (G : forall l b, E (snd b) = fst b -> fst b <= 0 ->
    E (snd (fold_left step l b)) = fst (fold_left step l b) /\ fst (fold_left step l b) <= fst b /\ Forall (fun x0 => fst (fold_left step l b) <= fst (minimize x0)) l
    /\ (fold_left step l b = b \/ exists x0, In x0 l /\ fold_left step l b = minimize x0)).
  { induction l as [|x0 l IH]; intros b Hb Hn; cbn [fold_left].
    - split; [exact Hb|]. split; [lra|]. split; [constructor|left; reflexivity].
    - assert (Hs : E (snd (step b x0)) = fst (step b x0) /\ fst (step b x0) <= fst b /\ fst (step b x0) <= fst (minimize x0) /\ (step b x0 = b \/ step b x0 = minimize x0)).
      { unfold step. destruct (Rlt_dec (fst (minimize x0)) (fst b)).
        - split; [symmetry; apply HE|]. split; [lra|]. split; [lra|right; reflexivity].
        - split; [exact Hb|]. split; [lra|]. split; [lra|left; reflexivity]. }
      destruct Hs as (S1 & S2 & S3 & S4). destruct (IH (step b x0) S1 ltac:(lra)) as (A & B & C & D). split; [exact A|]. split; [lra|]. split.
      + constructor; [lra|exact C].
      + destruct D as [D|(y & Hy & D)]; [|right; exists y; split; [right; exact Hy|exact D]]. rewrite D. destruct S4 as [S4|S4]; [left; exact S4|].
        right. exists x0. split; [left; reflexivity|exact S4]. }
  destruct (G starts b0) as (A & B & C & D); [exact H0|cbn; lra|]. split; [exact A|]. split; [exact B|]. split; assumption.
Qed.

(** ** Elastic properties *)
Lemma mq_nth m i : (i < 3)%nat -> mq m i = IZR (nth i [fst (fst m); snd (fst m); snd m] 0%Z).
Proof. destruct m as [[h k] l]. intros H. destruct i as [|[|[|i]]]; [reflexivity..|lia]. Qed.
Lemma q_matrix_sym r c i j : q_matrix r c i j = q_matrix r c j i.
Proof. unfold q_matrix, mmul, mtrans. apply rsum_ext. intros; ring. Qed.
Lemma bulk_voigt m Q : (forall i j, Q i j = Q j i) -> bulk_weight 3 m Q = voigt_bulk (mode_stiffness Q m).
Proof.
  intros H. unfold bulk_weight, voigt_bulk, mode_stiffness, sum_loop. cbn [seq fold_left rsum Nat.sub nth]. unfold mq, mat_. destruct m as [[h k] l]. cbn [fst snd].
  rewrite (H 1%nat 0%nat), (H 2%nat 0%nat), (H 2%nat 1%nat). field.
Qed.
Lemma bulk_wave_vector m c : bulk_weight 3 m (q_matrix 3 c) = rsum 3 (fun i => hkl_vector 3 c m i * hkl_vector 3 c m i) / 9.
Proof.
  rewrite bulk_voigt by apply q_matrix_sym. unfold voigt_bulk, mode_stiffness, q_matrix, mmul, mtrans, hkl_vector. destruct m as [[h k] l].
  cbn [rsum nth fst snd Nat.eqb]. field.
Qed.
Lemma shear_voigt m Q : shear_weight 3 m Q = voigt_shear (mode_stiffness Q m).
Proof.
  unfold shear_weight, voigt_shear, mode_stiffness, entry4, sum_loop. cbn [seq fold_left Nat.sub nth]. unfold mq, mat_. destruct m as [[h k] l]. cbn [fst snd]. field.
Qed.
Lemma area_plane r m Q : (forall i j, Q i j = Q j i) -> area_weight r m Q = plane_area (mode_stiffness Q m).
Proof.
  intros H. unfold area_weight, plane_area, mode_stiffness. cbn [rsum nth]. unfold mq, mat_. destruct m as [[h k] l]. cbn [fst snd]. rewrite (H 1%nat 0%nat). field.
Qed.
Lemma xyshear_plane r m Q : (forall i j, Q i j = Q j i) -> xyshear_weight r m Q = plane_shear (mode_stiffness Q m).
Proof.
  intros H. unfold xyshear_weight, plane_shear, mode_stiffness, entry4. cbn [nth]. unfold mq, mat_. destruct m as [[h k] l]. cbn [fst snd]. rewrite (H 1%nat 0%nat). field.
Qed.

Section Fit.
  Variables (r : nat) (modes : list miller) (Q : matrix) (props : list (elastic_property * R)).
  Lemma prediction_deriv x j k : (j < length x)%nat ->
    derivable_pt_lim (fun t => prediction r modes Q (with_amp x j t) k) (nth j x 0) (2 * nth j x 0 * weight r k (nth j modes (0, 0, 0)%Z) Q).
  Proof.
    intros Hj. set (w := fun i => weight r k (nth i modes (0, 0, 0)%Z) Q).
    apply (dlim_fun (fun t => lsum (fun i => w i * (if Nat.eqb i j then t ^ 2 else nth i x 0 ^ 2)) (seq 0 (length x)))).
    - intros t. unfold prediction. rewrite sum_loop_lsum, with_amp_length by exact Hj. apply lsum_ext. intros i _. rewrite with_amp_nth by exact Hj. fold (w i).
      destruct (Nat.eqb i j); ring.
    - replace (2 * nth j x 0 * weight r k (nth j modes (0, 0, 0)%Z) Q) with (lsum (fun i => w i * (if Nat.eqb i j then 2 * nth j x 0 else 0)) (seq 0 (length x))).
      + apply (dlim_lsum (fun i t => w i * (if Nat.eqb i j then t ^ 2 else nth i x 0 ^ 2))). intros i _. apply dlim_scale. destruct (Nat.eqb i j); [|apply derivable_pt_lim_const].
        assert (D := dlim_pow 2 (nth j x 0)). replace (INR 2 * nth j x 0 ^ (2 - 1)) with (2 * nth j x 0) in D by (cbn; ring). exact D.
      + rewrite <- rsum_lsum. rewrite (rsum_ext _ _ (fun i => kron i j * (w i * (2 * nth j x 0)))).
        * rewrite rsum_kron_l by exact Hj. unfold w. ring.
        * intros i _. unfold kron. destruct (Nat.eqb i j); ring.
  Qed.
  Theorem objective_grad_is_derivative x j : (j < length x)%nat ->
    derivable_pt_lim (fun t => objective r modes Q props (with_amp x j t)) (nth j x 0) (objective_grad r modes Q props x j).
  Proof.
    intros Hj. set (pen := fit_penalty props modes).
    apply (dlim_fun (fun t => lsum (fun kv : elastic_property * R => (snd kv - prediction r modes Q (with_amp x j t) (fst kv)) ^ 2) props
      + lsum (fun i => pen * (if Nat.eqb i j then t ^ 4 else nth i x 0 ^ 4)) (seq 0 (length x)))).
    - intros t. unfold objective. rewrite fold_sum, sum_loop_lsum, with_amp_length by exact Hj. f_equal. apply lsum_ext. intros i _. rewrite with_amp_nth by exact Hj. fold pen.
      destruct (Nat.eqb i j); ring.
    - assert (EG : objective_grad r modes Q props x j
        = lsum (fun kv : elastic_property * R => 2 * (snd kv - prediction r modes Q x (fst kv)) * (0 - 2 * nth j x 0 * weight r (fst kv) (nth j modes (0, 0, 0)%Z) Q)) props
          + lsum (fun i => pen * (if Nat.eqb i j then 4 * nth j x 0 ^ 3 else 0)) (seq 0 (length x))).
      { unfold objective_grad. f_equal.
        - rewrite (fold_minus (fun kv : elastic_property * R => 4 * (snd kv - prediction r modes Q x (fst kv)) * nth j x 0 * weight r (fst kv) (nth j modes (0, 0, 0)%Z) Q)).
          rewrite (lsum_ext (fun kv : elastic_property * R => 2 * (snd kv - prediction r modes Q x (fst kv)) * (0 - 2 * nth j x 0 * weight r (fst kv) (nth j modes (0, 0, 0)%Z) Q))
            (fun kv : elastic_property * R => (-1) * (4 * (snd kv - prediction r modes Q x (fst kv)) * nth j x 0 * weight r (fst kv) (nth j modes (0, 0, 0)%Z) Q))) by (intros; ring).
          rewrite lsum_mul_l. ring.
        - rewrite <- rsum_lsum. rewrite (rsum_ext _ _ (fun i => kron i j * (pen * (4 * nth j x 0 ^ 3)))).
          + rewrite rsum_kron_l by exact Hj. fold pen. ring.
          + intros i _. unfold kron. destruct (Nat.eqb i j); ring. }
      rewrite EG.
      apply (derivable_pt_lim_plus (fun t => lsum (fun kv : elastic_property * R => (snd kv - prediction r modes Q (with_amp x j t) (fst kv)) ^ 2) props)
        (fun t => lsum (fun i => pen * (if Nat.eqb i j then t ^ 4 else nth i x 0 ^ 4)) (seq 0 (length x)))).
      + apply (dlim_lsum (fun (kv : elastic_property * R) t => (snd kv - prediction r modes Q (with_amp x j t) (fst kv)) ^ 2)). intros kv _.
        assert (D1 : derivable_pt_lim (fun t => snd kv - prediction r modes Q (with_amp x j t) (fst kv)) (nth j x 0) (0 - 2 * nth j x 0 * weight r (fst kv) (nth j modes (0, 0, 0)%Z) Q)).
        { apply (derivable_pt_lim_minus (fun _ => snd kv)); [apply derivable_pt_lim_const|apply prediction_deriv; exact Hj]. }
        assert (D := derivable_pt_lim_comp _ (fun y => y ^ 2) _ _ _ D1 (dlim_pow 2 _)). cbv beta in D. rewrite with_amp_self in D by exact Hj.
        replace (INR 2 * (snd kv - prediction r modes Q x (fst kv)) ^ (2 - 1)) with (2 * (snd kv - prediction r modes Q x (fst kv))) in D by (cbn; ring).
        exact D.
      + apply (dlim_lsum (fun i t => pen * (if Nat.eqb i j then t ^ 4 else nth i x 0 ^ 4))). intros i _. apply dlim_scale. destruct (Nat.eqb i j); [|apply derivable_pt_lim_const].
        assert (D := dlim_pow 4 (nth j x 0)). replace (INR 4 * nth j x 0 ^ (4 - 1)) with (4 * nth j x 0 ^ 3) in D by (cbn; ring). exact D.
  Qed.
End Fit.

Lemma fit_start_defined modes : (2 <= length modes)%nat -> fit_start modes <> None.
Proof.
  intros H. destruct modes as [|m1 [|m2 modes]]; cbn [length] in H; try lia. unfold fit_start, set_entry.
  cbn [length repeat Nat.ltb Nat.leb firstn skipn app]. discriminate.
Qed.
Lemma match_elastic_one minimize r m c props : match_elastic minimize r [m] c props = None.
Proof. unfold match_elastic. destruct (parse_props props); reflexivity. Qed.
Lemma match_elastic_unknown minimize r modes c props s v : In (s, v) props -> property_of_name s = None -> match_elastic minimize r modes c props = None.
Proof.
  intros Hin Hn. unfold match_elastic. assert (E : parse_props props = None); [|rewrite E; reflexivity].
  induction props as [|[s' v'] props IH]; [destruct Hin|]. cbn [parse_props]. destruct Hin as [E|Hin].
  - injection E as -> ->. rewrite Hn. reflexivity.
  - rewrite (IH Hin). destruct (property_of_name s'); reflexivity.
Qed.
Lemma match_elastic_fit minimize r modes c props : (2 <= length modes)%nat -> Forall (fun sv => property_of_name (fst sv) <> None) props ->
  exists amp fit, match_elastic minimize r modes c props = Some (amp, fit)
    /\ map fst fit = map (fun sv => match property_of_name (fst sv) with Some k => k | None => Bulk end) props
    /\ Forall (fun kv => snd kv = prediction r modes (q_matrix r c) amp (fst kv)) fit.
Proof.
  intros H2 HF. unfold match_elastic.
  assert (E : exists ps, parse_props props = Some ps /\ map fst ps = map (fun sv => match property_of_name (fst sv) with Some k => k | None => Bulk end) props).
  { induction HF as [|[s v] props Hs HF IH]; [exists []; split; reflexivity|]. destruct IH as (ps & E1 & E2). cbn [parse_props fst] in *. rewrite E1.
    destruct (property_of_name s) as [k|] eqn:Ek; [|congruence]. exists ((k, v) :: ps). split; [reflexivity|]. cbn [map fst]. rewrite E2, Ek. reflexivity. }
  destruct E as (ps & E1 & E2). rewrite E1. destruct (fit_start modes) as [x0|] eqn:E0; [|destruct (fit_start_defined modes H2 E0)].
  eexists _, _. split; [reflexivity|]. split; [rewrite map_map; cbn [fst]; exact E2|]. apply Forall_map. cbn [fst snd]. apply Forall_forall. intros; reflexivity.
Qed.

Lemma prediction_tensor r modes c x k : length x = length modes -> r = 3%nat \/ (k = Area \/ k = XYShear) ->
  prediction r modes (q_matrix r c) x k =
  match k with Bulk => voigt_bulk | ShearP => voigt_shear | Area => plane_area | XYShear => plane_shear end
    (fun s t u v => rsum (length modes) (fun i => nth i x 0 * nth i x 0 * mode_stiffness (q_matrix r c) (nth i modes (0, 0, 0)%Z) s t u v)).
Proof.
  intros Hl Hr. unfold prediction. rewrite sum_loop_lsum, <- rsum_lsum, Hl. generalize (length modes). intros n.
  set (Q := q_matrix r c). assert (HQ : forall i j, Q i j = Q j i) by apply q_matrix_sym.
  destruct k; cbn [weight].
  - destruct Hr as [->|[H|H]]; [|discriminate..]. rewrite (rsum_ext _ _ (fun i => nth i x 0 * nth i x 0 * voigt_bulk (mode_stiffness Q (nth i modes (0, 0, 0)%Z)))) by (intros; rewrite bulk_voigt by exact HQ; reflexivity).
    clear Hl HQ; try clear Hr. unfold voigt_bulk. cbn [rsum]. induction n as [|n' IH]; cbn [rsum]; [field|]. rewrite IH. field.
  - destruct Hr as [->|[H|H]]; [|discriminate..]. rewrite (rsum_ext _ _ (fun i => nth i x 0 * nth i x 0 * voigt_shear (mode_stiffness Q (nth i modes (0, 0, 0)%Z)))) by (intros; rewrite shear_voigt; reflexivity).
    clear Hl HQ; try clear Hr. unfold voigt_shear, entry4. induction n as [|n' IH]; cbn [rsum]; [field|]. rewrite IH. field.
  - rewrite (rsum_ext _ _ (fun i => nth i x 0 * nth i x 0 * plane_area (mode_stiffness Q (nth i modes (0, 0, 0)%Z)))) by (intros; rewrite area_plane by exact HQ; reflexivity).
    clear Hl HQ; try clear Hr. unfold plane_area. cbn [rsum]. induction n as [|n' IH]; cbn [rsum]; [field|]. rewrite IH. field.
  - rewrite (rsum_ext _ _ (fun i => nth i x 0 * nth i x 0 * plane_shear (mode_stiffness Q (nth i modes (0, 0, 0)%Z)))) by (intros; rewrite xyshear_plane by exact HQ; reflexivity).
    clear Hl HQ; try clear Hr. unfold plane_shear, entry4. induction n as [|n' IH]; cbn [rsum]; [field|]. rewrite IH. field.
Qed.

Lemma peak_width_spec dim m a h n : num_equivalent m dim = Some n -> (0 <= n)%Z -> h <> 0 ->
  exists w, peak_width dim m a h = Some w /\ 0 <= w /\ h ^ 2 * w ^ 2 = 1 / 2 * IZR n * a ^ 2.
Proof.
  intros E Hn Hh. unfold peak_width. rewrite E. eexists. split; [reflexivity|]. assert (P : 0 <= IZR n) by (apply IZR_le; exact Hn). split.
  - apply Rmult_le_pos; [apply sqrt_pos|apply Rabs_pos].
  - rewrite Rpow_mult_distr, pow2_sqrt by lra. rewrite <- (Rsqr_pow2 (Rabs _)), <- Rsqr_abs, Rsqr_pow2. unfold Rdiv at 2. rewrite Rpow_mult_distr. rewrite pow_inv. field. exact Hh.
Qed.

Lemma lsum_cons {A} (f : A -> R) a l : lsum f (a :: l) = f a + lsum f l.
Proof. reflexivity. Qed.
Lemma str_eqb_true a b : str_eqb a b = true -> a = b.
Proof. unfold str_eqb. destruct (list_eq_dec ascii_dec a b); congruence. Qed.
(** The names of the properties. *)
Lemma name_known s k : property_of_name s = Some k ->
  names_average s (match k with Bulk => voigt_bulk | ShearP => voigt_shear | Area => plane_area | XYShear => plane_shear end).
Proof.
  unfold property_of_name. intros H.
  destruct (str_eqb s (lit "bulk")) eqn:E1; [apply str_eqb_true in E1; subst s; injection H as <-; constructor|].
  destruct (str_eqb s (lit "shear")) eqn:E2; [apply str_eqb_true in E2; subst s; injection H as <-; constructor|].
  destruct (str_eqb s (lit "area")) eqn:E3; [apply str_eqb_true in E3; subst s; injection H as <-; constructor|].
  destruct (str_eqb s (lit "xyshear")) eqn:E4; [apply str_eqb_true in E4; subst s; injection H as <-; constructor|discriminate].
Qed.
Lemma name_unknown s : property_of_name s = None <-> ~ exists av, names_average s av.
Proof.
  split.
  - intros H (av & N). destruct N; vm_compute in H; discriminate.
  - intros H. destruct (property_of_name s) as [k|] eqn:E; [|reflexivity]. destruct H. eexists. exact (name_known s k E).
Qed.
Lemma name_function s av av' : names_average s av -> names_average s av' -> av = av'.
Proof. intros N N'. destruct N; inversion N'; try reflexivity. Qed.

Lemma match_elastic_averages minimize modes c props : (2 <= length modes)%nat -> (forall f x, length (minimize f x) = length x) ->
  Forall (fun sv => exists av, names_average (fst sv) av) props ->
  exists amp fit, match_elastic minimize 3 modes c props = Some (amp, fit) /\ length amp = length modes
    /\ Forall2 (fun sv kv => forall av, names_average (fst sv) av -> snd kv = av (total_stiffness (q_matrix 3 c) modes amp)) props fit.
Proof.
  intros H2 HM HF.
  assert (E : exists ps, parse_props props = Some ps /\ Forall2 (fun sv kv => property_of_name (fst sv) = Some (fst kv)) props ps).
  { induction HF as [|[s v] props Hs HF IH]; [exists []; split; [reflexivity|constructor]|]. destruct IH as (ps & E1 & E2). cbn [parse_props fst] in *. rewrite E1.
    destruct (property_of_name s) as [k|] eqn:Ek; [|apply name_unknown in Ek; contradiction]. exists ((k, v) :: ps). split; [reflexivity|]. constructor; [exact Ek|exact E2]. }
  destruct E as (ps & E1 & E2). unfold match_elastic. rewrite E1. destruct (fit_start modes) as [x0|] eqn:E0; [|destruct (fit_start_defined modes H2 E0)].
  assert (L0 : length x0 = length modes).
  { unfold fit_start in E0. destruct modes as [|a [|b modes]]; cbn [length] in H2; try lia. cbn in E0. injection E0 as <-. cbn [length]. rewrite repeat_length. reflexivity. }
  set (amp := minimize (objective 3 modes (q_matrix 3 c) ps) x0). assert (LA : length amp = length modes) by (unfold amp; rewrite HM; exact L0).
  eexists _, _. split; [reflexivity|]. split; [exact LA|]. clearbody amp. clear HF E1. induction E2 as [|sv kv props ps Hs _ IH]; cbn [map]; [constructor|]. constructor; [|exact IH].
  intros av N. cbn [snd fst]. rewrite (name_function _ _ _ N (name_known _ _ Hs)). unfold total_stiffness. apply prediction_tensor; [exact LA|left; reflexivity].
Qed.

(** The objective: the squared misfits, plus a small penalty when there are
    fewer targets than modes. *)
Lemma objective_spec r modes Q props x : objective r modes Q props x
  = lsum (fun kv : elastic_property * R => (snd kv - prediction r modes Q x (fst kv)) ^ 2) props
    + (if Nat.ltb (length props) (length modes) then 1 / 1000000 else 0) * lsum (fun a => a ^ 4) x.
Proof.
  unfold objective. rewrite fold_sum, sum_loop_lsum. f_equal. rewrite <- lsum_mul_l. unfold fit_penalty. set (p := if Nat.ltb _ _ then _ else _).
  rewrite (lsum_ext _ (fun i => (fun a => p * a ^ 4) (nth i x 0))) by (intros; ring).
  clearbody p. clear. induction x as [|a x IH]; [reflexivity|]. cbn [length seq]. rewrite !lsum_cons. cbn [nth]. f_equal.
  rewrite <- IH. rewrite <- seq_shift. clear IH. generalize (seq 0 (length x)). intros l. induction l as [|i l IH]; [reflexivity|]. cbn [map]. rewrite !lsum_cons, IH. reflexivity.
Qed.
Lemma lsum_squares_zero {A} (f : A -> R) l : lsum (fun a => f a ^ 2) l = 0 <-> Forall (fun a => f a = 0) l.
Proof.
  assert (P : forall m, 0 <= lsum (fun a => f a ^ 2) m) by (intros m; induction m as [|a m IH]; [apply Rle_refl|rewrite lsum_cons; assert (G := pow2_ge_0 (f a)); lra]).
  induction l as [|a l IH]; [split; [constructor|reflexivity]|]. rewrite lsum_cons. assert (G := pow2_ge_0 (f a)). assert (G' := P l). split.
  - intros H. constructor; [|apply IH; lra]. assert (Z : f a ^ 2 = 0) by lra. apply Rsqr_0_uniq. rewrite Rsqr_pow2. exact Z.
  - intros H. inversion H as [|? ? H1 H2]; subst. rewrite H1. apply IH in H2. rewrite H2. ring.
Qed.
Lemma objective_zero r modes Q props x : (length modes <= length props)%nat ->
  (objective r modes Q props x = 0 <-> Forall (fun kv => prediction r modes Q x (fst kv) = snd kv) props).
Proof.
  intros H. rewrite objective_spec. replace (Nat.ltb (length props) (length modes)) with false by (symmetry; apply Nat.ltb_ge; exact H).
  rewrite Rmult_0_l, Rplus_0_r, lsum_squares_zero. split; apply Forall_impl; intros kv E; lra.
Qed.
