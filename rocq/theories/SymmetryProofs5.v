(** The terms of the package before and after a motion. *)
From Verif Require Import SymmetrySpec SymmetryProofs SymmetryProofs2 SymmetryProofs3 SymmetryProofs4 GradProofs GradProofs2 GradProofs3 GradProofs4 GradProofs5 DftProofs IndexProofs RealProofs RealProofs2 StepProofs EnergyProofs3 Vec CVec Complex.
From Coq Require Import Lra Lia Qreals.
Open Scope R_scope.

Section AnyMotion.
  Variables (dom : list Z) (g : list Z -> list Z) (tau : nat -> nat) (w : nat -> R).
  Hypothesis Hv : valid_domain dom.
  Hypothesis Mo : motion dom g.
  Hypothesis Sy : node_symmetry dom (node_map dom g) tau w.
  Variables (nf nd : nat).
  Let n := nodes dom.
  Let ft := fftw_transform dom.
  Let s := node_map dom g.
  Let U : unitary_transform n ft := fftw_unitary dom Hv.
  Let G : good_transform n ft := fftw_good dom Hv.
  Notation smov := (smov dom tau w).
  Notation rmov := (rmov dom (node_map dom g)).
  Notation cmov := (cmov dom tau).

  Lemma moved_nth_field fs fs' i k : Forall2 (moved_spectrum dom g) fs fs' -> length fs = k -> (i < k)%nat -> moved_spectrum dom g (nth i fs []) (nth i fs' []).
  Proof.
    intros H L Hi. destruct (F2_nth _ _ _ i (nth i fs []) H) as (y & E & P); [apply nth_error_nth'; lia|]. rewrite (nth_error_nth _ _ [] E). exact P.
  Qed.
  Theorem field_brick_moved i : (i < nf)%nat -> moved_brick dom g nf nd (field_brick i) (field_brick i).
  Proof. intros Hi e e' [S1 _] [H _]. exact (moved_nth_field _ _ i nf H S1 Hi). Qed.
  Theorem derived_brick_moved i : (i < nd)%nat -> moved_brick dom g nf nd (derived_brick i) (derived_brick i).
  Proof. intros Hi e e' [_ S2] [_ H]. exact (moved_nth_field _ _ i nd H S2 Hi). Qed.

  Lemma lap_inv c k j : (j < n)%nat -> RtoC (lap_symbol (tfreq ft (tau j)) ^ k * c) = RtoC (lap_symbol (tfreq ft j) ^ k * c).
  Proof. exact (isotropic dom g tau w Sy (fun s => (- (4 * PI * PI * s)) ^ k * c) j). Qed.
  Lemma smov_lap c k X Y : smov X Y -> smov (mapi_from 0 (fun j z => lap_eval (tfreq ft j) k (Cmul (RtoC c) z)) X) (mapi_from 0 (fun j z => lap_eval (tfreq ft j) k (Cmul (RtoC c) z)) Y).
  Proof.
    intros H.
    assert (E : forall L, mapi_from 0 (fun j z => lap_eval (tfreq ft j) k (Cmul (RtoC c) z)) L = mapi_from 0 (fun j z => Cmul (RtoC (lap_symbol (tfreq ft j) ^ k * c)) z) L).
    { intros L. apply mapi_ext. intros j z. rewrite lap_eval_symbol. apply C_eq; cbn; ring. }
    rewrite !E. apply (smov_mapi dom g tau w Sy (fun j => RtoC (lap_symbol (tfreq ft j) ^ k * c))); [apply lap_inv|exact H].
  Qed.
  Lemma smov_lap1 k X Y : smov X Y -> smov (mapi_from 0 (fun j z => lap_eval (tfreq ft j) k z) X) (mapi_from 0 (fun j z => lap_eval (tfreq ft j) k z) Y).
  Proof.
    intros H. pose proof (smov_lap 1 k X Y H) as K.
    assert (E : forall L, mapi_from 0 (fun j z => lap_eval (tfreq ft j) k (Cmul (RtoC 1) z)) L = mapi_from 0 (fun j z => lap_eval (tfreq ft j) k z) L).
    { intros L. apply mapi_ext. intros j z. f_equal. apply C_eq; cbn; ring. }
    rewrite !E in K. exact K.
  Qed.

  Theorem brick_term_moved c k u u' : moved_brick dom g nf nd u u' -> moved_term dom g nf nd (brick_term ft c k u) (brick_term ft c k u').
  Proof.
    intros Hu e e' t tmp tmp' S He _. apply (ms_iff dom g tau w Hv Mo Sy). unfold brick_term. apply smov_lap. apply (ms_iff dom g tau w Hv Mo Sy), Hu; assumption.
  Qed.
  Theorem coeff_term_moved c k : moved_denum dom g (coeff_term ft c k) (coeff_term ft c k).
  Proof.
    intros e e' t tmp tmp' (L & L' & _). apply (mc_iff dom g tau w Hv Mo Sy). unfold coeff_term.
    split; [rewrite mapi_from_length; exact L|]. split; [rewrite mapi_from_length; exact L'|]. intros j Hj.
    pose proof (sy_frange _ _ _ _ Sy j Hj) as Ht. rewrite !nth_mapi by (rewrite ?L, ?L'; assumption). cbn [Nat.add]. rewrite !lap_eval_symbol.
    pose proof (lap_inv c k j Hj) as E. apply (f_equal Re) in E. cbn [RtoC Re fst] in E. apply C_eq; cbn [Re Im fst snd Cmul RtoC]; [|ring]. fold ft. lra.
  Qed.
  Theorem laplacian_term_moved k f f' : moved_term dom g nf nd f f' -> moved_term dom g nf nd (laplacian_term ft k f) (laplacian_term ft k f').
  Proof.
    intros Hf e e' t tmp tmp' S He Ht. apply (ms_iff dom g tau w Hv Mo Sy). unfold laplacian_term. apply smov_lap1. apply (ms_iff dom g tau w Hv Mo Sy), Hf; assumption.
  Qed.

  (** ** Node by node operations *)
  Lemma rmov_map f x y : rmov x y -> rmov (map f x) (map f y).
  Proof.
    intros (L1 & L2 & H). split; [rewrite map_length; exact L1|]. split; [rewrite map_length; exact L2|]. intros j Hj.
    rewrite !nth_map_data by (rewrite ?L1, ?L2; first [exact Hj|apply (sy_range _ _ _ _ Sy), Hj]). rewrite (H j Hj). reflexivity.
  Qed.
  Lemma rmov_map2 f x y x' y' : rmov x y -> rmov x' y' -> rmov (map2 f x x') (map2 f y y').
  Proof.
    intros (L1 & L2 & H) (L1' & L2' & H'). split; [apply StepProofs.map2_length; assumption|]. split; [apply StepProofs.map2_length; assumption|]. intros j Hj.
    pose proof (sy_range _ _ _ _ Sy j Hj) as Ht.
    rewrite !nth_map2 by (rewrite ?L1, ?L2, ?L1', ?L2'; first [reflexivity|assumption]). rewrite (H j Hj), (H' j Hj). reflexivity.
  Qed.
  Lemma rmov_seq (f f' : nat -> C) : (forall j, (j < n)%nat -> f' (s j) = f j) -> rmov (map f (seq 0 n)) (map f' (seq 0 n)).
  Proof.
    intros H. split; [rewrite map_length, seq_length; reflexivity|]. split; [rewrite map_length, seq_length; reflexivity|]. intros j Hj.
    rewrite (DftProofs.nth_map_seq f n j C0 Hj), (DftProofs.nth_map_seq f' n _ C0 (sy_range _ _ _ _ Sy j Hj)). apply H, Hj.
  Qed.
  Lemma material_nth {A} (m m' : nat -> A) j : moved_material dom g m m' -> (j < n)%nat -> m' (s j) = m j.
  Proof.
    intros H Hj. destruct (pos_of_node dom Hv j Hj) as (p & Hp & B & Np). destruct (node_map_spec dom Hv g j p Mo Hj Hp B) as (_ & _ & E).
    specialize (H p _ _ B Np E). rewrite !Nat2Z.id in H. exact H.
  Qed.
  Lemma values_moved fs fs' j : Forall2 (moved dom g) fs fs' -> (j < n)%nat -> map (fun d => nth (s j) d C0) fs' = map (fun d => nth j d C0) fs.
  Proof.
    intros H Hj. induction H as [|x y fs fs' Hx _ IH]; cbn [map]; [reflexivity|]. apply (mv_iff dom g Hv Mo) in Hx. destruct Hx as (_ & _ & Hx).
    rewrite IH. unfold s. rewrite (Hx j Hj). reflexivity.
  Qed.
  Lemma F2_firstn {A B} (P : A -> B -> Prop) k : forall l l', Forall2 P l l' -> Forall2 P (firstn k l) (firstn k l').
  Proof. induction k as [|k IH]; intros l l' H; [constructor|]. destruct H; cbn [firstn]; constructor; auto. Qed.
  Lemma firstn_le {A} i k (l : list A) : (i <= k)%nat -> firstn i (firstn k l) = firstn i l.
  Proof. intros H. rewrite firstn_firstn. f_equal. lia. Qed.
  Theorem node_by_node_moved h h' reads i : moved_material dom g h h' -> (reads <= i)%nat ->
    moved_calc dom g nf nd i (node_by_node dom nf h reads) (node_by_node dom nf h' reads).
  Proof.
    intros Hh Hr e e' _ _ Hf Hd. apply (mv_iff dom g Hv Mo). unfold node_by_node. apply rmov_seq. intros j Hj.
    rewrite (material_nth h h' j Hh Hj), (values_moved _ _ j (F2_firstn _ nf _ _ Hf) Hj).
    assert (Hd' : Forall2 (moved dom g) (firstn reads (e_derived e)) (firstn reads (e_derived e'))).
    { apply (F2_firstn _ reads) in Hd. rewrite !firstn_le in Hd by exact Hr. exact Hd. }
    rewrite (values_moved _ _ j Hd' Hj). reflexivity.
  Qed.

  Lemma smov_real_op (f : data -> data) X Y : (forall x y, rmov x y -> rmov (f x) (f y)) -> smov X Y -> smov (fft ft (f (to_real ft X))) (fft ft (f (to_real ft Y))).
  Proof. intros Hf H. apply (smov_fft dom _ tau w Hv Sy), Hf, (rmov_to_real dom _ tau w Hv Sy), H. Qed.
  Theorem weighted_laplacian_moved u u' F F' : moved_brick dom g nf nd u u' -> moved_brick dom g nf nd F F' ->
    moved_term dom g nf nd (weighted_laplacian_term ft u F) (weighted_laplacian_term ft u' F').
  Proof.
    intros Hu HF e e' t tmp tmp' S He _. apply (ms_iff dom g tau w Hv Mo Sy). unfold weighted_laplacian_term. cbv zeta.
    apply (smov_fft dom _ tau w Hv Sy). apply rmov_map2; apply (rmov_to_real dom _ tau w Hv Sy).
    - apply smov_lap1. apply (ms_iff dom g tau w Hv Mo Sy), Hu; assumption.
    - apply (ms_iff dom g tau w Hv Mo Sy), HF; assumption.
  Qed.

  Theorem source_node_moved f j : square_layout dom -> (j < n)%nat ->
    moved_source dom g (source_eval ft (node_point dom j) f) (source_eval ft (node_point dom (s j)) f).
  Proof.
    intros Hs Hj t tmp tmp' (L & L' & _). split; [rewrite source_length; exact L|]. split; [rewrite source_length; exact L'|].
    pose proof (sy_range _ _ _ _ Sy j Hj) as Ht.
    unfold ft. rewrite (source_at_node dom f t tmp j Hv Hs L Hj), (source_at_node dom f t tmp' (s j) Hv Hs L' Ht). apply (mv_iff dom g Hv Mo). apply rmov_map.
    assert (LU : forall i, length (unit_at n i) = n) by (intros i; unfold unit_at; rewrite map_length, seq_length; reflexivity).
    split; [apply LU|]. split; [apply LU|]. intros i Hi. rewrite !unit_at_nth by first [exact Hi|apply (sy_range _ _ _ _ Sy), Hi].
    destruct (Nat.eqb_spec i j) as [->|N]; [unfold s; rewrite Nat.eqb_refl; reflexivity|].
    destruct (Nat.eqb_spec (node_map dom g i) (s j)) as [E|_]; [|reflexivity]. exfalso. apply N. exact (sy_inj _ _ _ _ Sy i j Hi Hj E).
  Qed.
End AnyMotion.

(** * Motions by a vector *)
Section ByVector.
  Variables (dom : list Z) (v : list Z).
  Hypothesis Hv : valid_domain dom.
  Hypothesis Hs : square_layout dom.
  Hypothesis Lv : length v = length dom.
  Variables (nf nd : nat).
  Let n := nodes dom.
  Let ft := fftw_transform dom.
  Let U : unitary_transform n ft := fftw_unitary dom Hv.
  Let G : good_transform n ft := fftw_good dom Hv.
  Let g := shift v.
  Let Mo : motion dom g := by_vector dom v Lv.
  Let tau := freq_map dom (fun q => q).
  Let w := freq_phase dom (fun q => pdot dom q v).
  Let Sy : node_symmetry dom (node_map dom g) tau w := motion_symmetry_by dom Hv g _ _ Hs Mo (shift_frequencies dom v Lv).
  Notation smov := (smov dom tau w).
  Notation rmov := (rmov dom (node_map dom g)).
  Notation cmov := (cmov dom tau).

  Lemma tau_id k : (k < n)%nat -> tau k = k.
  Proof.
    intros Hk. unfold tau, freq_map. destruct (pos_of_node dom Hv k Hk) as (q & Hq & B & Nq). rewrite Hq, Nq, Nat2Z.id. reflexivity.
  Qed.
  Lemma w_freq k : (k < n)%nat -> exists z, rdot (tfreq ft k) (map IZR v) = w k + IZR z.
  Proof.
    intros Hk. destruct (pos_of_node dom Hv k Hk) as (q & Hq & B & Nq). unfold w, freq_phase, ft. rewrite Hq, (tfreq_pos dom Hv k q Hk Hq), rdot_freq_dot.
    exact (freq_dot_pdot dom (proj2 Hv) q v B).
  Qed.
  Lemma smov_any (c : nat -> C) X Y : smov X Y -> smov (mapi_from 0 (fun j z => Cmul (c j) z) X) (mapi_from 0 (fun j z => Cmul (c j) z) Y).
  Proof. apply (smov_mapi dom g tau w Sy). intros k Hk. rewrite tau_id by exact Hk. reflexivity. Qed.
  Lemma cmov_any a a' : length a = n -> length a' = n -> (forall k, (k < n)%nat -> nth k a' C0 = nth k a C0) -> cmov a a'.
  Proof. intros L L' H. split; [exact L|]. split; [exact L'|]. intros k Hk. rewrite tau_id by exact Hk. apply H, Hk. Qed.

  Lemma smov_grad c keep X Y : smov X Y -> smov (grad_amplitudes ft c keep X) (grad_amplitudes ft c keep Y).
  Proof.
    intros H. unfold grad_amplitudes.
    rewrite (mapi_ext _ (fun j z => Cmul (0, 2 * PI * grad_freq keep (nth c (tfreq ft j) 0)) z) X) by (intros; ring).
    rewrite (mapi_ext _ (fun j z => Cmul (0, 2 * PI * grad_freq keep (nth c (tfreq ft j) 0)) z) Y) by (intros; ring).
    apply (smov_any (fun j => (0, 2 * PI * grad_freq keep (nth c (tfreq ft j) 0)))), H.
  Qed.
  Theorem gradient_moved c keep x y : moved dom g x y -> moved dom g (gradient ft c keep x) (gradient ft c keep y).
  Proof.
    intros H. apply (mv_iff dom g Hv Mo) in H. apply (mv_iff dom g Hv Mo). unfold gradient. apply (rmov_to_real dom _ tau w Hv Sy), smov_grad, (smov_fft dom _ tau w Hv Sy), H.
  Qed.
  Lemma moved_real_field fs fs' i k : Forall2 (moved dom g) fs fs' -> length fs = k -> (i < k)%nat -> moved dom g (nth i fs []) (nth i fs' []).
  Proof.
    intros H L Hi. destruct (F2_nth _ _ _ i (nth i fs []) H) as (y & E & P); [apply nth_error_nth'; lia|]. rewrite (nth_error_nth _ _ [] E). exact P.
  Qed.
  Lemma nth_firstn_lt {A} i k (l : list A) x : (k < i)%nat -> nth k (firstn i l) x = nth k l x.
  Proof. revert k l. induction i as [|i IH]; intros k l H; [lia|]. destruct l as [|a l]; [reflexivity|]. destruct k as [|k]; cbn [firstn nth]; [reflexivity|]. apply IH. lia. Qed.
  Lemma moved_calc_field i k : (k < nf)%nat -> moved_calc dom g nf nd i (field_brick k) (field_brick k).
  Proof. intros Hk e e' [S1 _] _ Hf _. exact (moved_real_field _ _ k nf Hf S1 Hk). Qed.
  Lemma moved_calc_derived i k : (k < i)%nat -> (i <= nd)%nat -> moved_calc dom g nf nd i (derived_brick k) (derived_brick k).
  Proof.
    intros Hk Hi e e' [_ S2] _ _ Hd. unfold derived_brick. pose proof (moved_real_field _ _ k i Hd ltac:(rewrite firstn_length; lia) Hk) as H.
    rewrite !nth_firstn_lt in H by exact Hk. exact H.
  Qed.
  Theorem gradient_calc_moved i c u u' : moved_calc dom g nf nd i u u' -> moved_calc dom g nf nd i (gradient_calc ft c u) (gradient_calc ft c u').
  Proof. intros Hu e e' S S' Hf Hd. unfold gradient_calc. apply gradient_moved, Hu; assumption. Qed.
  (** F(i, bricks) may depend on the node and on the fields there. *)
  Theorem weighted_calc_moved i h h' u u' : moved_material dom g h h' -> moved_calc dom g nf nd i u u' ->
    moved_calc dom g nf nd i (weighted_calc (fun j e => h j (map (fun d => nth j d C0) (e_fields e))) u) (weighted_calc (fun j e => h' j (map (fun d => nth j d C0) (e_fields e))) u').
  Proof.
    intros Hh Hu e e' S S' Hf Hd. specialize (Hu e e' S S' Hf Hd). apply (mv_iff dom g Hv Mo) in Hu. destruct Hu as (L & L' & H). apply (mv_iff dom g Hv Mo). unfold weighted_calc.
    split; [rewrite mapi_from_length; exact L|]. split; [rewrite mapi_from_length; exact L'|]. intros j Hj.
    pose proof (sy_range _ _ _ _ Sy j Hj) as Ht. rewrite !nth_mapi by (rewrite ?L, ?L'; assumption). cbn [Nat.add]. rewrite (H j Hj).
    rewrite (material_nth dom g Hv Mo h h' j Hh Hj), (values_moved dom g Hv Mo _ _ j Hf Hj). reflexivity.
  Qed.
  Lemma dot_calc_moved i : forall vs vs' gs gs', Forall2 (moved_calc dom g nf nd i) vs vs' -> Forall2 (moved_calc dom g nf nd i) gs gs' ->
    forall e e' x y, sized nf nd e -> sized nf nd e' -> Forall2 (moved dom g) (e_fields e) (e_fields e') -> Forall2 (moved dom g) (firstn i (e_derived e)) (firstn i (e_derived e')) ->
    moved dom g x y -> moved dom g (dot_calc vs gs e x) (dot_calc vs' gs' e' y).
  Proof.
    intros vs vs' gs gs' H. revert gs gs'. induction H as [|a a' vs vs' Ha H IH]; intros gs gs' Hg e e' x y S S' Hf Hd Hx; [destruct Hg; exact Hx|].
    destruct Hg as [|b b' gs gs' Hb Hg]; [exact Hx|]. cbn [dot_calc]. apply IH; try assumption.
    specialize (Ha e e' S S' Hf Hd). specialize (Hb e e' S S' Hf Hd). apply (mv_iff dom g Hv Mo) in Ha. apply (mv_iff dom g Hv Mo) in Hb. apply (mv_iff dom g Hv Mo) in Hx. apply (mv_iff dom g Hv Mo).
    destruct Ha as (L1 & L1' & H1), Hb as (L2 & L2' & H2), Hx as (L3 & L3' & H3).
    split; [apply map3_length; assumption|]. split; [apply map3_length; assumption|]. intros j Hj. pose proof (sy_range _ _ _ _ Sy j Hj) as Ht.
    rewrite !nth_map3 by (rewrite ?L1, ?L1', ?L2, ?L2', ?L3, ?L3'; first [reflexivity|assumption]). rewrite (H1 j Hj), (H2 j Hj), (H3 j Hj). reflexivity.
  Qed.
  Theorem dot_product_moved i vs vs' gs gs' : Forall2 (moved_calc dom g nf nd i) vs vs' -> Forall2 (moved_calc dom g nf nd i) gs gs' ->
    moved_calc dom g nf nd i (fun e => dot_calc vs gs e (repeat C0 n)) (fun e => dot_calc vs' gs' e (repeat C0 n)).
  Proof.
    intros Ha Hb e e' S S' Hf Hd. apply (dot_calc_moved i vs vs' gs gs' Ha Hb); try assumption. apply (mv_iff dom g Hv Mo).
    split; [apply repeat_length|]. split; [apply repeat_length|]. intros j _. rewrite !nth_repeat. reflexivity.
  Qed.

  (** ** Terms *)
  Lemma smov_lincomb c a a' b b' : smov a a' -> smov b b' -> smov (map2 (fun a b => Cadd a (Cmul b (RtoC c))) a b) (map2 (fun a b => Cadd a (Cmul b (RtoC c))) a' b').
  Proof.
    intros (L1 & L1' & H1) (L3 & L3' & H3). split; [apply StepProofs.map2_length; assumption|]. split; [apply StepProofs.map2_length; assumption|]. intros j Hj.
    pose proof (sy_frange _ _ _ _ Sy j Hj) as Ht. rewrite !nth_map2 by (rewrite ?L1, ?L1', ?L3, ?L3'; first [reflexivity|assumption]).
    rewrite (H1 j Hj), (H3 j Hj). ring.
  Qed.
  Theorem sqgrad_moved factor dim u u' : moved_brick dom g nf nd u u' -> moved_term dom g nf nd (sqgrad_term ft factor dim u) (sqgrad_term ft factor dim u').
  Proof.
    intros Hu e e' t tmp tmp' S He (L & L' & _). specialize (Hu e e' S He). apply (ms_iff dom g tau w Hv Mo Sy) in Hu. apply (ms_iff dom g tau w Hv Mo Sy).
    unfold sqgrad_term. rewrite L, L'. assert (H0 : smov (repeat C0 (nodes dom)) (repeat C0 (nodes dom))) by (apply (smov_zero dom tau w)).
    revert H0. generalize (repeat C0 (nodes dom)) at 1 3. generalize (repeat C0 (nodes dom)). generalize 0%nat.
    induction dim as [|dim IH]; intros d y x H0; cbn [sqgrad_from]; [exact H0|]. apply IH. apply smov_lincomb; [exact H0|].
    apply (smov_fft dom _ tau w Hv Sy). apply (rmov_map dom g tau w Sy). apply (rmov_to_real dom _ tau w Hv Sy), smov_grad, Hu.
  Qed.
  Theorem flux_moved mult dim flux flux' : (forall d t, (d < dim)%nat -> moved_brick dom g nf nd (fun e => flux e t d) (fun e => flux' e t d)) ->
    moved_term dom g nf nd (flux_term mult ft dim flux) (flux_term mult ft dim flux').
  Proof.
    intros HF e e' t tmp tmp' S He (L & L' & _). apply (ms_iff dom g tau w Hv Mo Sy). split; [rewrite flux_length; exact L|]. split; [rewrite flux_length; exact L'|].
    intros k Hk. rewrite (tau_id k Hk), !flux_nth by (rewrite ?L, ?L'; exact Hk). rewrite <- csum_mul_l. apply csum_ext. intros d Hd.
    pose proof (HF d t Hd e e' S He) as H. apply (ms_iff dom g tau w Hv Mo Sy) in H. destruct H as (_ & _ & H). rewrite (H k Hk), (tau_id k Hk). ring.
  Qed.
  Theorem divgrad_moved base dim : (base + 2 * dim <= nd)%nat -> moved_term dom g nf nd (divgrad_term ft base dim) (divgrad_term ft base dim).
  Proof. intros Hb. apply flux_moved. intros d t Hd. apply (derived_brick_moved dom g nf nd). lia. Qed.
  Theorem advection_moved base dim : (base + dim < nd)%nat -> moved_term dom g nf nd (advection_term base dim) (advection_term base dim).
  Proof.
    intros Hb e e' t tmp tmp' S He _. pose proof (derived_brick_moved dom g nf nd (base + dim) Hb e e' S He) as H.
    apply (ms_iff dom g tau w Hv Mo Sy) in H. apply (ms_iff dom g tau w Hv Mo Sy). destruct H as (L & L' & H). unfold advection_term.
    split; [rewrite map_length; exact L|]. split; [rewrite map_length; exact L'|]. intros k Hk. pose proof (sy_frange _ _ _ _ Sy k Hk) as Ht.
    rewrite !nth_map_data by (rewrite ?L, ?L'; assumption). rewrite (H k Hk). ring.
  Qed.
  Lemma charge_field_moved ext X Y d : smov X Y -> rmov (charge_field ft ext X d) (charge_field ft ext Y d).
  Proof.
    intros H. unfold charge_field. cbv zeta. apply (rmov_map dom g tau w Sy), (rmov_to_real dom _ tau w Hv Sy).
    set (c := fun i => if Rlt_dec (1 / 10000000000) (Rabs (Rabs (nth d (tfreq ft i) 0) - 1 / 2)) then (0, nth d (tfreq ft i) 0 / (2 * PI * norm_sq (tfreq ft i) + 1 / 10000000000000000)) else C0).
    assert (E : forall L, mapi_from 0 (fun i z => if Rlt_dec (1 / 10000000000) (Rabs (Rabs (nth d (tfreq ft i) 0) - 1 / 2)) then Cmul z (0, nth d (tfreq ft i) 0 / (2 * PI * norm_sq (tfreq ft i) + 1 / 10000000000000000)) else C0) L = mapi_from 0 (fun i z => Cmul (c i) z) L).
    { intros L. apply mapi_ext. intros i z. unfold c. destruct (Rlt_dec _ _); ring. }
    rewrite !E. apply smov_any, H.
  Qed.
  Theorem charge_moved ext sigma sigma' rho rho' : moved_material dom g sigma sigma' -> moved_brick dom g nf nd rho rho' ->
    moved_term dom g nf nd (charge_term ft ext sigma (length dom) rho) (charge_term ft ext sigma' (length dom) rho').
  Proof.
    intros Hm Hr. apply flux_moved. intros d2 t Hd e e' S He. specialize (Hr e e' S He). apply (ms_iff dom g tau w Hv Mo Sy) in Hr. apply (ms_iff dom g tau w Hv Mo Sy).
    apply (smov_fft dom _ tau w Hv Sy). unfold charge_current. destruct (Hr) as (L & L' & _). rewrite L, L'. apply (rmov_seq dom g tau w Sy). intros j Hj.
    apply csum_ext. intros d _. rewrite (material_nth dom g Hv Mo sigma sigma' j Hm Hj). destruct (charge_field_moved ext _ _ d Hr) as (_ & _ & H). rewrite (H j Hj). reflexivity.
  Qed.
  Theorem hessian_moved K : moved_denum dom g (hessian_term ft K) (hessian_term ft K).
  Proof.
    intros e e' t tmp tmp' (L & L' & _). apply (mc_iff dom g tau w Hv Mo Sy). unfold hessian_term.
    apply cmov_any; [rewrite mapi_from_length; exact L|rewrite mapi_from_length; exact L'|]. intros k Hk. rewrite !nth_mapi by (rewrite ?L, ?L'; exact Hk). reflexivity.
  Qed.
  Lemma rdot_point_plus f : forall r u, length r = length u -> rdot f (point_plus r u) = rdot f r + rdot f (map IZR u).
  Proof. induction f as [|a f IH]; intros [|x r] [|y u] E; cbn in E; try lia; cbn [rdot point_plus map]; try ring. rewrite IH by lia. ring. Qed.
  Theorem source_moved f r : length r = length dom -> moved_source dom g (source_eval ft r f) (source_eval ft (point_plus r v) f).
  Proof.
    intros Lr t tmp tmp' (L & L' & _). apply (ms_iff dom g tau w Hv Mo Sy). split; [rewrite source_length; exact L|]. split; [rewrite source_length; exact L'|].
    intros k Hk. rewrite (tau_id k Hk), !source_nth by (rewrite ?L, ?L'; exact Hk). destruct (w_freq k Hk) as (z & Hz).
    rewrite rdot_point_plus by congruence. rewrite (cis_cong (- (rdot (tfreq ft k) r + rdot (tfreq ft k) (map IZR v))) (- rdot (tfreq ft k) r + - w k) (- z)) by (rewrite Hz, opp_IZR; ring).
    rewrite cis_add. ring.
  Qed.
End ByVector.
