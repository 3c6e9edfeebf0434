(** Uniform fields. *)
From Verif Require Import SymmetrySpec SymmetryProofs SymmetryProofs2 SymmetryProofs3 SymmetryProofs4 SymmetryProofs5 GradProofs GradProofs2 GradProofs3 GradProofs4 GradProofs5 DftProofs IndexProofs RealProofs RealProofs2 StepProofs EnergyProofs3 Vec CVec Complex.
From Coq Require Import Lra Lia Qreals.
Open Scope R_scope.

Section Uniform.
  Variables (dom : list Z).
  Hypothesis Hv : valid_domain dom.
  Hypothesis Hs : square_layout dom.
  Let n := nodes dom.
  Let ft := fftw_transform dom.
  Let U : unitary_transform n ft := fftw_unitary dom Hv.
  Let G : good_transform n ft := fftw_good dom Hv.

  Lemma n_pos : (0 < n)%nat.
  Proof.
    destruct (node_of_pos dom Hv (map (fun _ => 0%Z) dom)) as (i & _ & Hi & _); [|unfold n; lia].
    pose proof (proj2 Hv) as Hf. clear - Hf. induction Hf as [|a d Ha _ IH]; [constructor|]. constructor; [lia|exact IH].
  Qed.
  Lemma uniform_nth y j : (j < n)%nat -> nth j (uniform dom y) C0 = y.
  Proof. intros Hj. unfold uniform. rewrite (nth_indep _ C0 y) by (rewrite repeat_length; exact Hj). apply nth_repeat. Qed.
  Lemma uniform_length y : length (uniform dom y) = n.
  Proof. apply repeat_length. Qed.
  Lemma uniform_moved v y : length v = length dom -> moved dom (shift v) (uniform dom y) (uniform dom y).
  Proof.
    intros Lv. pose proof (by_vector dom v Lv) as Mo. apply (mv_iff dom _ Hv Mo). split; [apply uniform_length|]. split; [apply uniform_length|].
    intros j Hj. pose proof (motion_symmetry_by dom Hv _ _ _ Hs Mo (shift_frequencies dom v Lv)) as Sy.
    rewrite !uniform_nth by first [exact Hj|apply (sy_range _ _ _ _ Sy), Hj]. reflexivity.
  Qed.
  Lemma zeros_in_box d : Forall (fun d => (0 < d)%Z) d -> in_box d (map (fun _ => 0%Z) d).
  Proof. induction 1 as [|a d Ha _ IH]; [constructor|]. constructor; [lia|exact IH]. Qed.
  Lemma shift_zeros d q : in_box d q -> reduce d (shift q (map (fun _ => 0%Z) d)) = q.
  Proof. induction 1 as [|a x d q Hx _ IH]; [reflexivity|]. cbn [map shift reduce]. rewrite IH, Z.add_0_l, Z.mod_small by exact Hx. reflexivity. Qed.
  Lemma moved_uniform x : length x = n -> (forall v, length v = length dom -> moved dom (shift v) x x) -> exists y, x = uniform dom y.
  Proof.
    intros L H. exists (at_pos dom x (map (fun _ => 0%Z) dom)). apply (list_eq_nth _ _ n); [exact L|apply uniform_length|]. intros j Hj. rewrite uniform_nth by exact Hj.
    destruct (pos_of_node dom Hv j Hj) as (q & Hq & B & Nq). destruct (H q (in_box_length _ _ B)) as (_ & _ & E).
    specialize (E _ (zeros_in_box dom (proj2 Hv))). rewrite (shift_zeros dom q B) in E. rewrite <- E. unfold at_pos. rewrite Nq, Nat2Z.id. reflexivity.
  Qed.

  (** ** Invariant models keep fields uniform *)
  Lemma F2_diag fs : (forall v, length v = length dom -> Forall2 (moved dom (shift v)) fs fs) -> Forall (fun d => exists y, d = uniform dom y) fs.
  Proof.
    intros H. induction fs as [|x fs IH]; [constructor|].
    assert (V0 : length (map (fun _ => 0%Z) dom) = length dom) by apply map_length.
    constructor.
    - apply moved_uniform; [|intros v Lv; specialize (H v Lv); inversion H; assumption]. specialize (H _ V0). inversion H as [|? ? ? ? Hx]; subst. apply Hx.
    - apply IH. intros v Lv. specialize (H v Lv). inversion H; assumption.
  Qed.
  Lemma diag_F2 v fs : length v = length dom -> Forall (fun d => exists y, d = uniform dom y) fs -> Forall2 (moved dom (shift v)) fs fs.
  Proof. intros Lv H. induction H as [|x fs (y & ->) _ IH]; constructor; [apply uniform_moved, Lv|exact IH]. Qed.

  Theorem uniform_euler nf p filt dt m k e e1 k1 : translation_invariant dom nf p -> sized nf (length (p_calc p)) e ->
    Forall (fun d => exists y, d = uniform dom y) (e_fields e) ->
    euler_propagate p ft filt dt m k e = Some (e1, k1) -> Forall (fun d => exists y, d = uniform dom y) (e_fields e1).
  Proof.
    intros HT HS Hu E. apply F2_diag. intros v Lv. pose proof (by_vector dom v Lv) as Mo. pose proof (motion_symmetry_by dom Hv _ _ _ Hs Mo (shift_frequencies dom v Lv)) as Sy.
    destruct (euler_propagate_moved dom _ _ _ Hv Mo Sy nf p p filt dt (HT v Lv) m k e e e1 k1 (diag_F2 v _ Lv Hu) HS HS E) as (e2 & E2 & H).
    fold ft in E2. rewrite E in E2. injection E2 as <-. exact H.
  Qed.
  Theorem uniform_rk4 nf p filt dt m k e e1 k1 : translation_invariant dom nf p -> sized nf (length (p_calc p)) e ->
    Forall (fun d => exists y, d = uniform dom y) (e_fields e) ->
    rk4_propagate p ft filt dt m k e = Some (e1, k1) -> Forall (fun d => exists y, d = uniform dom y) (e_fields e1).
  Proof.
    intros HT HS Hu E. apply F2_diag. intros v Lv. pose proof (by_vector dom v Lv) as Mo. pose proof (motion_symmetry_by dom Hv _ _ _ Hs Mo (shift_frequencies dom v Lv)) as Sy.
    destruct (rk4_propagate_moved dom _ _ _ Hv Mo Sy nf p p filt dt (HT v Lv) m k e e e1 k1 (diag_F2 v _ Lv Hu) HS HS E) as (e2 & E2 & H).
    fold ft in E2. rewrite E in E2. injection E2 as <-. exact H.
  Qed.

  (** ** The values *)
  Definition mode (y : C) : data := map (fun k => match k with O => Cmul (RtoC (INR n)) y | S _ => C0 end) (seq 0 n).
  Lemma mode_length y : length (mode y) = n.
  Proof. unfold mode. rewrite map_length, seq_length. reflexivity. Qed.
  Lemma mode_nth y k : (k < n)%nat -> nth k (mode y) C0 = match k with O => Cmul (RtoC (INR n)) y | S _ => C0 end.
  Proof. intros Hk. unfold mode. exact (DftProofs.nth_map_seq (fun k => match k with O => Cmul (RtoC (INR n)) y | S _ => C0 end) n k C0 Hk). Qed.
  Lemma phase_0 dims : forall j, phase dims j 0 = 0.
  Proof.
    induction dims as [|d dims IH]; intros j; cbn [phase]; [reflexivity|].
    assert (E : forall a b, (0 / a = 0)%nat /\ (0 mod b = 0)%nat) by (intros a b; split; [destruct a; [reflexivity|apply Nat.div_0_l; lia]|destruct b; [reflexivity|apply Nat.mod_0_l; lia]]).
    rewrite ?(proj1 (E _ 0%nat)), ?(proj2 (E 0%nat _)), IH. cbn [INR]. unfold Rdiv. ring.
  Qed.
  Lemma to_real_mode y : to_real ft (mode y) = uniform dom y.
  Proof.
    assert (LR : length (to_real ft (mode y)) = n) by (unfold to_real, div_real; rewrite map_length; apply (gt_ifft_len _ _ G), mode_length).
    apply (list_eq_nth _ _ n LR (uniform_length y)). intros j Hj. rewrite uniform_nth by exact Hj. unfold to_real. rewrite mode_length, div_real_nth.
    unfold ft. cbn [ifft fftw_transform]. pose proof (nprod_nodes dom (proj2 Hv)) as HN. rewrite dft_nth by (rewrite HN; exact Hj). rewrite HN. fold n.
    rewrite (csum_single _ 0%nat); [|exact n_pos|].
    - rewrite mode_nth by exact n_pos. rewrite phase_0, Rmult_0_r, cis_0. unfold Cdiv. 
      assert (N0 : INR n <> 0) by (apply not_0_INR; pose proof n_pos; lia). rewrite <- RtoC_inv by exact N0.
      transitivity (Cmul (Cmul (RtoC (INR n)) (RtoC (/ INR n))) y); [ring|]. rewrite <- RtoC_mul, Rinv_r by exact N0. apply C_eq; cbn; ring.
    - intros k Hk Nk. rewrite mode_nth by exact Hk. destruct k; [contradiction|]. ring.
  Qed.
  Lemma fft_uniform y : fft ft (uniform dom y) = mode y.
  Proof. rewrite <- to_real_mode. apply (gt_inverse _ _ G), mode_length. Qed.

  Lemma mode_ext X y : length X = n -> (forall k, (k < n)%nat -> nth k X C0 = match k with O => Cmul (RtoC (INR n)) y | S _ => C0 end) -> X = mode y.
  Proof. intros L H. apply (list_eq_nth _ _ n L (mode_length y)). intros k Hk. rewrite mode_nth by exact Hk. apply H, Hk. Qed.
  Lemma mode_zero : repeat C0 n = mode C0.
  Proof. apply mode_ext; [apply repeat_length|]. intros k _. rewrite nth_repeat. destruct k; ring. Qed.
  Lemma mode_vadd a b : vadd (mode a) (mode b) = mode (Cadd a b).
  Proof.
    apply mode_ext; [rewrite vadd_length; apply mode_length|]. intros k Hk. rewrite nth_vadd by (rewrite ?mode_length; first [reflexivity|exact Hk]). rewrite !mode_nth by exact Hk. destruct k; ring.
  Qed.
  Lemma freq_zero : lap_symbol (tfreq ft 0) = 0.
  Proof. unfold lap_symbol. rewrite (gt_freq0 _ _ G). ring. Qed.
  Lemma brick_mode c k u e t tmp y : u e = mode y -> brick_term ft c k u e t tmp = mode (match k with O => Cmul (RtoC c) y | S _ => C0 end).
  Proof.
    intros E. unfold brick_term. rewrite E. apply mode_ext; [rewrite mapi_from_length; apply mode_length|]. intros j Hj.
    rewrite nth_mapi by (rewrite mode_length; exact Hj). cbn [Nat.add]. rewrite lap_eval_symbol, mode_nth by exact Hj. destruct j; [|ring].
    rewrite freq_zero. destruct k; [cbn [pow]; transitivity (Cmul (RtoC 1) (Cmul (RtoC c) (Cmul (RtoC (INR n)) y))); [reflexivity|]; apply C_eq; cbn; ring|].
    rewrite pow_i by lia. apply C_eq; cbn; ring.
  Qed.
  (** only the value at zero frequency matters for the implicit part *)
  Lemma coeff_zero c k e t tmp : length tmp = n -> nth 0 (coeff_term ft c k e t tmp) C0 = match k with O => RtoC c | S _ => C0 end.
  Proof.
    intros L. unfold coeff_term. rewrite nth_mapi by (rewrite L; exact n_pos). cbn [Nat.add]. rewrite lap_eval_symbol, freq_zero. destruct k; [cbn [pow]; apply C_eq; cbn; ring|].
    rewrite pow_i by lia. apply C_eq; cbn; ring.
  Qed.

  Section Reactions.
    Variables (nf : nat) (hs : list (list C -> list C -> C)) (rs : list reaction) (filt : option (R -> R)) (dt : R).
    Let p := reaction_model dom nf hs rs.
    Hypothesis Hlen : length rs = nf.
    Hypothesis Hidx : forall r x, In r rs -> In x (re_explicit r) -> match snd x with of_field i => (i < nf)%nat | of_derived i => (i < length hs)%nat end.

    Definition rates (ys ds : list C) (xs : list (R * nat * shown)) : C :=
      Csum (map (fun x => match snd (fst x) with O => Cmul (RtoC (fst (fst x))) (ode_shown ys ds (snd x)) | S _ => C0 end) xs).
    Lemma nth_map_mode ys i : (i < length ys)%nat -> nth i (map mode ys) [] = mode (nth i ys C0).
    Proof. intros H. rewrite (nth_indep _ [] (mode C0)) by (rewrite map_length; exact H). apply map_nth. Qed.
    Lemma terms_mode ys ds t : length ys = nf -> length ds = length hs -> forall xs, 
      (forall x, In x xs -> match snd x with of_field i => (i < nf)%nat | of_derived i => (i < length hs)%nat end) -> forall a b,
      fst (fold_left (add_term {| e_fields := map mode ys; e_derived := map mode ds |} t) 
        (map (fun x => brick_term ft (fst (fst x)) (snd (fst x)) (shown_brick (snd x))) xs) (mode a, b)) = mode (Cadd a (rates ys ds xs)).
    Proof.
      intros L1 L2. induction xs as [|[[c k] s] xs IH]; intros Hx a b.
      - cbn [map fold_left fst rates]. unfold rates. cbn [map Csum]. f_equal. ring.
      - cbn [map fold_left fst snd]. unfold add_term at 2. cbn [fst snd].
        rewrite (brick_mode c k (shown_brick s) _ t b (ode_shown ys ds s)).
        + rewrite mode_vadd, IH by (intros x Hi; apply Hx; right; exact Hi). f_equal. unfold rates. cbn [map Csum fst snd]. ring.
        + specialize (Hx _ (or_introl eq_refl)). cbn [snd] in Hx. destruct s as [i|i]; cbn [shown_brick ode_shown]; unfold field_brick, derived_brick; cbn [e_fields e_derived]; apply nth_map_mode; lia.
    Qed.
    Lemma denum_zero e t : forall xs a b, length a = n -> length b = n ->
      let r := fst (fold_left (add_term e t) (map (fun x => coeff_term ft (fst x) (snd x)) xs) (a, b)) in
      length r = n /\ nth 0 r C0 = Cadd (nth 0 a C0) (Csum (map (fun x : R * nat => match snd x with O => RtoC (fst x) | S _ => C0 end) xs)).
    Proof.
      induction xs as [|[c k] xs IH]; intros a b La Lb r; unfold r; clear r; cbn [map fold_left fst snd Csum].
      - split; [exact La|ring].
      - unfold add_term at 2. cbn [fst snd]. assert (LC : length (coeff_term ft c k e t b) = n) by (unfold coeff_term; rewrite mapi_from_length; exact Lb).
        destruct (IH (vadd a (coeff_term ft c k e t b)) (coeff_term ft c k e t b)) as [A B]; [rewrite vadd_length; exact La|exact LC|]. split; [exact A|].
        etransitivity; [exact B|]. rewrite nth_vadd by (rewrite ?La, ?LC; first [reflexivity|exact n_pos]). rewrite (coeff_zero c k e t b Lb). ring.
    Qed.
    Lemma semi_mode a y r d : length d = n -> nth 0 d C0 = a ->
      apply_filter filt ft (map3 (semi_implicit dt) (mode y) (mode r) d)
      = mode (Cmul (match filt with None => C1 | Some g => RtoC (g 0) end) (Cdiv (Cadd y (Cmul (RtoC dt) r)) (Csub C1 (Cmul (RtoC dt) a)))).
    Proof.
      intros Ld Hd. assert (E : map3 (semi_implicit dt) (mode y) (mode r) d = mode (Cdiv (Cadd y (Cmul (RtoC dt) r)) (Csub C1 (Cmul (RtoC dt) a)))).
      { apply mode_ext; [apply map3_length; rewrite ?mode_length; first [reflexivity|exact Ld]|]. intros k Hk.
        rewrite nth_map3 by (rewrite ?mode_length, ?Ld; first [reflexivity|exact Hk]). rewrite !mode_nth by exact Hk. unfold semi_implicit.
        destruct k as [|k]; [rewrite Hd; unfold Cdiv; ring|]. unfold Cdiv. ring. }
      rewrite E. set (z := Cdiv _ _). destruct filt as [h|]; unfold apply_filter; [|f_equal; ring].
      apply mode_ext; [rewrite mapi_from_length; apply mode_length|]. intros k Hk. rewrite nth_mapi by (rewrite mode_length; exact Hk). cbn [Nat.add]. rewrite mode_nth by exact Hk.
      destruct k; [|ring]. pose proof (gt_freq0 _ _ G) as F0. fold ft in F0. rewrite F0, sqrt_0. replace (0 * 2 / PI) with 0 by (unfold Rdiv; ring). ring.
    Qed.
    Lemma set_nth_map (f : C -> data) i x l : set_nth i (f x) (map f l) = map f (set_nth i x l).
    Proof. revert i. induction l as [|y l IH]; intros [|i]; cbn; [reflexivity..|]. rewrite IH. reflexivity. Qed.

    Lemma ode_fields_length f ds : forall rs' i ys, length (ode_fields dt f ds rs' i ys) = length ys.
    Proof. induction rs' as [|r rs' IH]; intros i ys; cbn [ode_fields]; [reflexivity|]. rewrite IH. apply set_nth_length. Qed.
    Lemma euler_fields_mode t ds : length ds = length hs -> forall todo done ys, rs = done ++ todo -> length ys = nf ->
      euler_fields p ft filt dt t (length todo) (length done) {| e_fields := map mode ys; e_derived := map mode ds |}
      = Some {| e_fields := map mode (ode_fields dt (match filt with None => C1 | Some g => RtoC (g 0) end) ds todo (length done) ys); e_derived := map mode ds |}.
    Proof.
      intros Lds. induction todo as [|r todo IH]; intros done ys E Ly; cbn [length euler_fields ode_fields]; [reflexivity|].
      cbn [e_fields]. assert (Hi : (length done < length ys)%nat) by (rewrite Ly, <- Hlen, E, app_length; cbn; lia).
      rewrite (nth_error_nth' (map mode ys) []) by (rewrite map_length; exact Hi). rewrite nth_map_mode, mode_length by exact Hi.
      assert (Hr : nth_error (p_eqns p) (length done) = Some (reaction_eqn dom r)).
      { unfold p, reaction_model. cbn [p_eqns]. rewrite E, map_app, nth_error_app2 by (rewrite map_length; lia). rewrite map_length, Nat.sub_diag. reflexivity. }
      assert (Hin : In r rs) by (rewrite E; apply in_or_app; right; left; reflexivity).
      unfold get_rhs, get_denum. rewrite Hr. cbn [reaction_eqn q_terms q_denum q_sources fold_left]. change (p_mods p) with (@nil (nat * (data -> data))). unfold apply_mods. cbn [fold_left].
      pose proof (terms_mode ys ds t Ly Lds (re_explicit r) (fun x Hx => Hidx r x Hin Hx) C0 (repeat C0 n)) as HT. rewrite <- mode_zero in HT. fold ft. rewrite HT. clear HT.
      destruct (denum_zero {| e_fields := map mode ys; e_derived := map mode ds |} t (re_implicit r) (repeat C0 n) (repeat C0 n) (repeat_length _ _) (repeat_length _ _)) as [LD HD].
      rewrite (semi_mode _ _ _ _ LD HD). unfold set_field. cbn [e_fields e_derived]. rewrite set_nth_map.
      specialize (IH (done ++ [r])). rewrite app_length in IH. cbn [length] in IH. rewrite Nat.add_1_r in IH. rewrite IH; [|rewrite <- app_assoc; exact E|rewrite set_nth_length; exact Ly].
      do 3 f_equal. f_equal. f_equal.
      rewrite nth_repeat. change (rates ys ds (re_explicit r)) with (ode_rate ys ds r).
      change (Csum (map (fun x : R * nat => match snd x with O => RtoC (fst x) | S _ => C0 end) (re_implicit r))) with (ode_decay r).
      f_equal. f_equal; ring.
    Qed.

    Lemma sync_uniform ys : length ys = nf -> forall todo ds rest,
      length rest = length todo ->
      sync_from (length ds) (reaction_calcs dom nf (length ds) todo) {| e_fields := map (uniform dom) ys; e_derived := map (uniform dom) ds ++ rest |}
      = {| e_fields := map (uniform dom) ys; e_derived := map (uniform dom) (ode_derived todo ys ds) |}.
    Proof.
      intros Ly. induction todo as [|h todo IH]; intros ds rest Lr; cbn [reaction_calcs sync_from ode_derived].
      - destruct rest; [|discriminate]. rewrite app_nil_r. reflexivity.
      - destruct rest as [|x rest]; [discriminate|]. cbn [length] in Lr. injection Lr as Lr.
        assert (E : node_by_node dom nf (fun _ => h) (length ds) {| e_fields := map (uniform dom) ys; e_derived := map (uniform dom) ds ++ x :: rest |} = uniform dom (h ys ds)).
        { apply (list_eq_nth _ _ n); [unfold node_by_node; rewrite map_length, seq_length; reflexivity|apply uniform_length|]. intros j Hj. rewrite uniform_nth by exact Hj.
          unfold node_by_node. cbn [e_fields e_derived].
          rewrite (DftProofs.nth_map_seq (fun j => h (map (fun d => nth j d C0) (firstn nf (map (uniform dom) ys))) (map (fun d => nth j d C0) (firstn (length ds) (map (uniform dom) ds ++ x :: rest)))) (nodes dom) j C0 Hj).
          rewrite <- Ly at 1. rewrite <- (map_length (uniform dom) ys) at 1. rewrite firstn_all.
          rewrite firstn_app, map_length, Nat.sub_diag, app_nil_r. rewrite <- (map_length (uniform dom) ds) at 1. rewrite firstn_all, !map_map.
          rewrite (map_ext _ (fun y => y)) by (intros y; apply uniform_nth, Hj). rewrite (map_ext (fun x0 => nth j (uniform dom x0) C0) (fun y => y)) by (intros y; apply uniform_nth, Hj).
          rewrite !map_id. reflexivity. }
        rewrite E. unfold set_derived. cbn [e_fields e_derived].
        assert (ES : set_nth (length ds) (uniform dom (h ys ds)) (map (uniform dom) ds ++ x :: rest) = map (uniform dom) (ds ++ [h ys ds]) ++ rest).
        { rewrite map_app, <- app_assoc. cbn [map app]. clear. induction ds as [|d ds IH] using rev_ind; [reflexivity|].
          assert (K : forall (l : list data) y z r, set_nth (length l) y (l ++ z :: r) = l ++ y :: r) by (induction l as [|q l IHl]; intros; cbn; [reflexivity|rewrite IHl; reflexivity]).
          rewrite <- (map_length (uniform dom) (ds ++ [d])) at 1. apply K. }
        rewrite ES. specialize (IH (ds ++ [h ys ds]) rest Lr). rewrite app_length in IH. cbn [length] in IH. rewrite Nat.add_1_r in IH. exact IH.
    Qed.
    Lemma ode_derived_length ys : forall todo ds, length (ode_derived todo ys ds) = (length ds + length todo)%nat.
    Proof. induction todo as [|h todo IH]; intros ds; cbn [ode_derived length]; [lia|]. rewrite IH, app_length. cbn. lia. Qed.
    Lemma calcs_length : forall l i, length (reaction_calcs dom nf i l) = length l.
    Proof. induction l as [|h l IH]; intros i; cbn; [reflexivity|]. rewrite IH. reflexivity. Qed.

    Theorem reaction_step t ys e : length ys = nf -> e_fields e = map (uniform dom) ys -> length (e_derived e) = length hs ->
      exists e1, euler_step p ft filt dt t e = Some e1 /\ e_fields e1 = map (uniform dom) (ode_step dt filt hs rs ys) /\ length (e_derived e1) = length hs.
    Proof.
      intros Ly He Ld. unfold euler_step. cbv zeta. destruct e as [fs ds]. cbn [e_fields e_derived] in *. subst fs.
      assert (ES : sync p {| e_fields := map (uniform dom) ys; e_derived := ds |} = {| e_fields := map (uniform dom) ys; e_derived := map (uniform dom) (ode_derived hs ys []) |}).
      { exact (sync_uniform ys Ly hs [] ds Ld). }
      rewrite ES. cbn [e_fields e_derived]. rewrite !map_map. rewrite (map_ext (fun x => fft ft (uniform dom x)) mode) by (intros; apply fft_uniform). rewrite (map_ext (fun x => fft ft (uniform dom x)) mode) by (intros; apply fft_uniform).
      rewrite map_length, Ly, <- Hlen.
      pose proof (euler_fields_mode t (ode_derived hs ys []) (ode_derived_length ys hs []) rs [] ys eq_refl Ly) as EF. cbn [length] in EF. rewrite EF.
      eexists. split; [reflexivity|]. cbn [e_fields e_derived]. split; [|rewrite map_length; apply (ode_derived_length ys hs [])].
      rewrite map_map. rewrite (map_ext (fun x => to_real ft (mode x)) (uniform dom)) by (intros; apply to_real_mode). reflexivity.
    Qed.
    Theorem reaction_steps : forall m k ys e, length ys = nf -> e_fields e = map (uniform dom) ys -> length (e_derived e) = length hs ->
      exists e1, euler_propagate p ft filt dt m k e = Some (e1, (k + m)%nat) /\ e_fields e1 = map (uniform dom) (ode_steps dt filt hs rs m ys).
    Proof.
      induction m as [|m IH]; intros k ys e Ly He Ld; cbn [euler_propagate ode_steps]; [exists e; rewrite Nat.add_0_r; split; [reflexivity|exact He]|].
      destruct (reaction_step (time_of dt k) ys e Ly He Ld) as (e1 & E1 & H1 & L1). rewrite E1.
      destruct (IH (S k) (ode_step dt filt hs rs ys) e1) as (e2 & E2 & H2); [unfold ode_step; rewrite ode_fields_length; exact Ly|exact H1|exact L1|].
      exists e2. rewrite E2. split; [do 2 f_equal; lia|exact H2].
    Qed.

    (** The reactions are the same before and after every motion. *)
    Lemma nth_calcs : forall l i j c, nth_error (reaction_calcs dom nf i l) j = Some c -> exists h, c = node_by_node dom nf (fun _ => h) (i + j).
    Proof.
      clear Hlen Hidx. induction l as [|h l IH]; intros i [|j] c H; cbn in H; try discriminate.
      - injection H as <-. exists h. rewrite Nat.add_0_r. reflexivity.
      - destruct (IH (S i) j c H) as (h' & ->). exists h'. f_equal. lia.
    Qed.
    Theorem reaction_moved g : motion dom g -> moved_model dom g nf p p.
    Proof.
      intros Mo. clear Hlen. destruct (motion_symmetry dom Hv g Hs Mo) as (tau & w & Sy). constructor.
      - reflexivity.
      - intros i c c' H1 H2. rewrite H1 in H2. injection H2 as <-. destruct (nth_calcs _ _ _ _ H1) as (h & ->).
        apply (node_by_node_moved dom g tau w Hv Mo Sy); [intros ? ? ? _ _ _; reflexivity|lia].
      - unfold p, reaction_model. cbn [p_calc p_eqns]. rewrite calcs_length.
        assert (H : forall l, (forall r, In r l -> In r rs) -> Forall2 (moved_eqn dom g nf (length hs)) (map (reaction_eqn dom) l) (map (reaction_eqn dom) l)).
        { induction l as [|r l IH]; intros Hl; constructor; [|apply IH; intros; apply Hl; right; assumption]. constructor; cbn [reaction_eqn q_terms q_denum q_sources].
          - assert (Hr : forall x, In x (re_explicit r) -> match snd x with of_field i => (i < nf)%nat | of_derived i => (i < length hs)%nat end) by (intros x Hx; exact (Hidx r x (Hl r (or_introl eq_refl)) Hx)).
            induction (re_explicit r) as [|x xs IHx]; constructor; [|apply IHx; intros; apply Hr; right; assumption].
            apply (brick_term_moved dom g tau w Hv Mo Sy). specialize (Hr x (or_introl eq_refl)). destruct (snd x); [apply field_brick_moved|apply derived_brick_moved]; exact Hr.
          - induction (re_implicit r) as [|x xs IHx]; constructor; [|exact IHx]. apply (coeff_term_moved dom g tau w Hv Mo Sy).
          - constructor. }
        apply H. intros r Hr. exact Hr.
      - constructor.
    Qed.
  End Reactions.
End Uniform.
