(** Energies of equilibrium strains: the work identity, the symmetry of the
    response, uniqueness, and the derivative of the energy. *)
From Verif Require Import StrainSpec ElasticProofs EnergyProofs EnergyProofs3 DftProofs StepProofs Vec CVec.
From Verif Require Import Complex.
From Coq Require Import Lra Lia.
Open Scope R_scope.

(** ** The bilinear form of a stiffness tensor *)
Definition bil (c : tensor) (e f : matrix) : R :=
  rsum 3 (fun i => rsum 3 (fun j => rsum 3 (fun p => rsum 3 (fun q => c i j p q * e i j * f p q)))).

Lemma rsum4_ext (a b : nat -> nat -> nat -> nat -> R) :
  (forall i j p q, (i < 3)%nat -> (j < 3)%nat -> (p < 3)%nat -> (q < 3)%nat -> a i j p q = b i j p q) ->
  rsum 3 (fun i => rsum 3 (fun j => rsum 3 (fun p => rsum 3 (fun q => a i j p q)))) =
  rsum 3 (fun i => rsum 3 (fun j => rsum 3 (fun p => rsum 3 (fun q => b i j p q)))).
Proof. intros H. repeat (apply rsum_ext; intros). apply H; assumption. Qed.
Lemma bil_ext c e e' f f' : (forall i j, (i < 3)%nat -> (j < 3)%nat -> e i j = e' i j) -> (forall i j, (i < 3)%nat -> (j < 3)%nat -> f i j = f' i j) ->
  bil c e f = bil c e' f'.
Proof. intros H1 H2. apply rsum4_ext. intros. rewrite H1, H2 by assumption. reflexivity. Qed.
Lemma bil_lin_r c e f g t : bil c e (fun i j => f i j + t * g i j) = bil c e f + t * bil c e g.
Proof.
  unfold bil. rewrite <- rsum_mul_l, <- rsum_plus. apply rsum_ext; intros i _. rewrite <- rsum_mul_l, <- rsum_plus. apply rsum_ext; intros j _.
  rewrite <- rsum_mul_l, <- rsum_plus. apply rsum_ext; intros p _. rewrite <- rsum_mul_l, <- rsum_plus. apply rsum_ext; intros q _. ring.
Qed.
Lemma bil_lin_l c e f g t : bil c (fun i j => f i j + t * g i j) e = bil c f e + t * bil c g e.
Proof.
  unfold bil. rewrite <- rsum_mul_l, <- rsum_plus. apply rsum_ext; intros i _. rewrite <- rsum_mul_l, <- rsum_plus. apply rsum_ext; intros j _.
  rewrite <- rsum_mul_l, <- rsum_plus. apply rsum_ext; intros p _. rewrite <- rsum_mul_l, <- rsum_plus. apply rsum_ext; intros q _. ring.
Qed.
Lemma bil_sym c e f : sym_major c -> bil c e f = bil c f e.
Proof.
  intros H. unfold bil. rewrite (swap_pairs (fun i j p q => c i j p q * e i j * f p q)).
  apply rsum4_ext. intros. rewrite (H p q i j) by assumption. ring.
Qed.
Lemma bil_energy c e : energy_density c e = / 2 * bil c e e.
Proof. unfold energy_density, bil. lra. Qed.

(** stress against strain *)
Lemma stress_work c misfit e h f :
  rsum 3 (fun a => rsum 3 (fun b => node_stress c misfit e h a b * f a b)) = bil c f e - h * bil c f misfit.
Proof.
  unfold node_stress, bil. rewrite <- rsum_mul_l, <- rsum_minus. apply rsum_ext; intros i _. rewrite <- rsum_mul_l, <- rsum_minus. apply rsum_ext; intros j _.
  rewrite <- rsum_mul_r, <- rsum_mul_l, <- rsum_minus. apply rsum_ext; intros p _. rewrite <- rsum_mul_r, <- rsum_mul_l, <- rsum_minus. apply rsum_ext; intros q _. ring.
Qed.
Lemma node_stress_lin c misfit e e' h h' t a b :
  node_stress c misfit (fun i j => e i j + t * e' i j) (h + t * h') a b = node_stress c misfit e h a b + t * node_stress c misfit e' h' a b.
Proof.
  unfold node_stress. rewrite <- rsum_mul_l, <- rsum_plus. apply rsum_ext; intros p _. rewrite <- rsum_mul_l, <- rsum_plus. apply rsum_ext; intros q _. ring.
Qed.
Lemma node_stress_sym c misfit e h a b : sym_first c -> (a < 3)%nat -> (b < 3)%nat -> node_stress c misfit e h a b = node_stress c misfit e h b a.
Proof. intros H Ha Hb. unfold node_stress. apply rsum_ext; intros p Hp. apply rsum_ext; intros q Hq. rewrite (H a b p q) by assumption. reflexivity. Qed.

Lemma nine_zero (e : matrix) : (forall i j, (i < 3)%nat -> (j < 3)%nat -> e i j = 0) \/ (exists i j, (i < 3)%nat /\ (j < 3)%nat /\ e i j <> 0).
Proof.
  destruct (Req_dec (e 0%nat 0%nat) 0); [|right; exists 0%nat, 0%nat; split; [lia|split; [lia|assumption]]].
  destruct (Req_dec (e 0%nat 1%nat) 0); [|right; exists 0%nat, 1%nat; split; [lia|split; [lia|assumption]]].
  destruct (Req_dec (e 0%nat 2%nat) 0); [|right; exists 0%nat, 2%nat; split; [lia|split; [lia|assumption]]].
  destruct (Req_dec (e 1%nat 0%nat) 0); [|right; exists 1%nat, 0%nat; split; [lia|split; [lia|assumption]]].
  destruct (Req_dec (e 1%nat 1%nat) 0); [|right; exists 1%nat, 1%nat; split; [lia|split; [lia|assumption]]].
  destruct (Req_dec (e 1%nat 2%nat) 0); [|right; exists 1%nat, 2%nat; split; [lia|split; [lia|assumption]]].
  destruct (Req_dec (e 2%nat 0%nat) 0); [|right; exists 2%nat, 0%nat; split; [lia|split; [lia|assumption]]].
  destruct (Req_dec (e 2%nat 1%nat) 0); [|right; exists 2%nat, 1%nat; split; [lia|split; [lia|assumption]]].
  destruct (Req_dec (e 2%nat 2%nat) 0); [|right; exists 2%nat, 2%nat; split; [lia|split; [lia|assumption]]].
  left. intros [|[|[|i]]] [|[|[|j]]] Hi Hj; try lia; assumption.
Qed.

Lemma rsum_zero_term n f : (forall i, (i < n)%nat -> 0 <= f i) -> rsum n f = 0 -> forall i, (i < n)%nat -> f i = 0.
Proof.
  induction n as [|n IH]; intros H Z i Hi; [lia|]. cbn [rsum] in Z.
  assert (0 <= rsum n f) by (apply rsum_nonneg; intros; apply H; lia). assert (0 <= f n) by (apply H; lia).
  destruct (Nat.eq_dec i n) as [->|N]; [lra|]. apply IH; [intros; apply H; lia|lra|lia].
Qed.

Section Grid.
  Variables (n : nat) (ft : transform).
  Hypothesis U : unitary_transform n ft.
  Hypothesis Hn : (0 < n)%nat.
  Let G : good_transform n ft := ut_good n ft U.
  Notation mode := (mode n ft).
  Notation equilibrium := (equilibrium_strain n ft).

  Definition reals_of (g : nat -> R) : data := map (fun i => RtoC (g i)) (seq 0 n).
  Lemma reals_len g : length (reals_of g) = n.
  Proof. unfold reals_of. rewrite map_length, seq_length. reflexivity. Qed.
  Lemma reals_nth g i : (i < n)%nat -> nth i (reals_of g) C0 = RtoC (g i).
  Proof. intros H. unfold reals_of. exact (EnergyProofs3.nth_map_seq (fun i => RtoC (g i)) C0 n i H). Qed.

  Lemma mode_ext a b k : (forall i, (i < n)%nat -> a i = b i) -> mode a k = mode b k.
  Proof.
    intros H. unfold StrainSpec.mode. f_equal. f_equal. apply map_ext_in. intros i Hi. apply in_seq in Hi. rewrite H by lia. reflexivity.
  Qed.
  Lemma mode_lin a b t k : (k < n)%nat -> mode (fun i => a i + t * b i) k = Cadd (mode a k) (Cmul (RtoC t) (mode b k)).
  Proof.
    intros Hk. unfold StrainSpec.mode. fold (reals_of a) (reals_of b).
    assert (E : map (fun i => RtoC (a i + t * b i)) (seq 0 n) = map2 (fun u v => Cadd u (Cmul (RtoC t) v)) (reals_of a) (reals_of b)).
    { apply (nth_ext _ _ C0 C0).
      - rewrite map_length, seq_length, (StepProofs.map2_length _ _ _ n) by apply reals_len. reflexivity.
      - intros i Hi. rewrite map_length, seq_length in Hi. rewrite nth_map2 by (rewrite ?reals_len; lia).
        rewrite !reals_nth by exact Hi. rewrite (EnergyProofs3.nth_map_seq (fun i => RtoC (a i + t * b i)) C0 n i Hi). csolve. }
    rewrite E, (ut_fft_add _ _ U) by apply reals_len.
    rewrite nth_map2; [reflexivity| |]; rewrite !(gt_fft_len _ _ G) by apply reals_len; [exact Hk|reflexivity].
  Qed.
  Lemma mode_zero k : (k < n)%nat -> mode (fun _ => 0) k = C0.
  Proof.
    intros Hk. assert (E := mode_lin (fun _ => 0) (fun _ => 0) 1 k Hk). cbv beta in E.
    rewrite (mode_ext (fun _ => 0 + 1 * 0) (fun _ => 0) k) in E by (intros; ring).
    set (z := mode (fun _ : nat => 0) k) in *. transitivity (Csub (Cadd z (Cmul (RtoC 1) z)) z); [|rewrite <- E; csolve]. csolve.
  Qed.
  Lemma parseval_real a b : rsum n (fun i => a i * b i) = / INR n * rsum n (fun k => Re (Cmul (mode a k) (Cconj (mode b k)))).
  Proof.
    assert (P := ut_parseval _ _ U (reals_of a) (reals_of b) (reals_len a) (reals_len b)).
    assert (N : INR n <> 0) by (apply not_0_INR; lia).
    apply (f_equal Re) in P. unfold inner in P. rewrite csum_re in P.
    replace (Re (Cmul (RtoC (INR n)) (csum n (fun i => Cmul (nth i (reals_of a) C0) (Cconj (nth i (reals_of b) C0))))))
      with (INR n * rsum n (fun i => a i * b i)) in P.
    - change (rsum n (fun k => Re (Cmul (mode a k) (Cconj (mode b k)))) = INR n * rsum n (fun i => a i * b i)) in P.
      rewrite P. field. exact N.
    - set (s := csum _ _). transitivity (INR n * Re s); [|destruct s; cbn; ring]. f_equal. unfold s. rewrite csum_re. apply rsum_ext. intros i Hi.
      rewrite !reals_nth by exact Hi. cbn. ring.
  Qed.
  Lemma mode_inj a : (forall k, (k < n)%nat -> mode a k = C0) -> forall i, (i < n)%nat -> a i = 0.
  Proof.
    intros H. apply rsum_sq_zero. rewrite parseval_real, (rsum_ext n _ (fun _ => 0)), rsum_0; [ring|].
    intros k Hk. rewrite H by exact Hk. cbn. ring.
  Qed.

  (** sums over pairs of axes and nodes *)
  Lemma pair_parseval (s e : nat -> matrix) :
    rsum n (fun i => rsum 3 (fun a => rsum 3 (fun b => s i a b * e i a b))) =
    / INR n * rsum n (fun k => Re (csum 3 (fun a => csum 3 (fun b => Cmul (mode (fun i => s i a b) k) (Cconj (mode (fun i => e i a b) k)))))).
  Proof.
    rewrite rsum_swap. rewrite (rsum_ext 3 _ (fun a => rsum 3 (fun b => / INR n * rsum n (fun k => Re (Cmul (mode (fun i => s i a b) k) (Cconj (mode (fun i => e i a b) k))))))).
    2:{ intros a _. rewrite rsum_swap. apply rsum_ext. intros b _. exact (parseval_real (fun i => s i a b) (fun i => e i a b)). }
    rewrite (rsum_ext n _ (fun k => rsum 3 (fun a => rsum 3 (fun b => Re (Cmul (mode (fun i => s i a b) k) (Cconj (mode (fun i => e i a b) k))))))).
    2:{ intros k _. rewrite csum_re. apply rsum_ext. intros a _. apply csum_re. }
    rewrite (rsum_swap n 3). rewrite <- rsum_mul_l. apply rsum_ext. intros a _. rewrite (rsum_swap n 3). rewrite <- rsum_mul_l. reflexivity.
  Qed.

  (** symmetric stresses without divergence do no work on compatible strains *)
  Lemma no_work (s e : nat -> matrix) (u : nat -> nat -> C) :
    (forall i a b, (a < 3)%nat -> (b < 3)%nat -> s i a b = s i b a) ->
    (forall k m, (k < n)%nat -> (m < 3)%nat -> divergence_mode (wave ft k) (fun a b => mode (fun i => s i a b) k) m = C0) ->
    (forall k a b, (k < n)%nat -> (a < 3)%nat -> (b < 3)%nat ->
      mode (fun i => e i a b) k = Cmul (RtoC (/ 2)) (Cadd (Cmul (0, 2 * PI * wave ft k b) (u k a)) (Cmul (0, 2 * PI * wave ft k a) (u k b)))) ->
    rsum n (fun i => rsum 3 (fun a => rsum 3 (fun b => s i a b * e i a b))) = 0.
  Proof.
    intros Hs Hd He. rewrite pair_parseval, (rsum_ext n _ (fun _ => 0)), rsum_0; [ring|]. intros k Hk.
    set (S := fun a b => mode (fun i => s i a b) k).
    assert (SS : forall a b, (a < 3)%nat -> (b < 3)%nat -> S a b = S b a) by (intros a b Ha Hb; apply mode_ext; intros i _; apply Hs; assumption).
    assert (E : csum 3 (fun a => csum 3 (fun b => Cmul (S a b) (Cconj (mode (fun i => e i a b) k)))) =
                Copp (csum 3 (fun a => Cmul (Cconj (u k a)) (divergence_mode (wave ft k) S a)))).
    { rewrite (csum_ext 3 _ (fun a => csum 3 (fun b => Cmul (S a b)
        (Cmul (RtoC (/ 2)) (Cadd (Cmul (0, - (2 * PI * wave ft k b)) (Cconj (u k a))) (Cmul (0, - (2 * PI * wave ft k a)) (Cconj (u k b)))))))).
      2:{ intros a Ha. apply csum_ext. intros b Hb. rewrite He by assumption. f_equal. csolve. }
      set (w := wave ft k). set (v := fun a => Cconj (u k a)). unfold divergence_mode. 
      assert (H2 : forall z, Cmul (RtoC (/ 2)) (Cadd z z) = z) by (intros z; apply C_eq; cbn [Re Im Cmul RtoC Cadd fst snd]; field).
      set (A := csum 3 (fun a => csum 3 (fun b => Cmul (S a b) (Cmul (0, - (2 * PI * w b)) (v a))))).
      assert (B : csum 3 (fun a => csum 3 (fun b => Cmul (S a b) (Cmul (0, - (2 * PI * w a)) (v b)))) = A).
      { rewrite csum_swap. unfold A. apply csum_ext; intros a Ha. apply csum_ext; intros b Hb. rewrite (SS b a) by assumption. reflexivity. }
      transitivity (Cmul (RtoC (/ 2)) (Cadd A A)).
      - rewrite <- B at 2. unfold A. rewrite <- csum_plus, <- csum_mul_l. apply csum_ext; intros a Ha. rewrite <- csum_plus, <- csum_mul_l. apply csum_ext; intros b Hb.
        unfold v. ring.
      - rewrite H2. unfold A. replace (Copp (csum 3 (fun a => Cmul (Cconj (u k a)) (csum 3 (fun j => Cmul (0, 2 * PI * w j) (S a j))))))
          with (Cmul (RtoC (-1)) (csum 3 (fun a => Cmul (Cconj (u k a)) (csum 3 (fun j => Cmul (0, 2 * PI * w j) (S a j)))))) by csolve.
        rewrite <- csum_mul_l. apply csum_ext; intros a Ha. rewrite <- !csum_mul_l. apply csum_ext; intros b Hb. unfold v.
        replace ((0, - (2 * PI * w b)) : C) with (Cmul (RtoC (-1)) (0, 2 * PI * w b)) by csolve. ring. }
    unfold S in E at 1. rewrite E.
    rewrite (csum_ext 3 _ (fun _ => C0)), csum_zero; [cbn; ring|].
    intros a Ha. unfold S. rewrite Hd by assumption. ring.
  Qed.

  Section Body.
    Variables (c : tensor) (misfit : matrix).
    Hypothesis S1 : sym_first c.
    Hypothesis S3 : sym_major c.

    (** the work identity *)
    Lemma work h eps h' eps' : equilibrium c misfit h eps -> equilibrium c misfit h' eps' ->
      rsum n (fun i => bil c (eps i) (eps' i)) = rsum n (fun i => h i * bil c misfit (eps' i)).
    Proof.
      intros (u & _ & Hd) (u' & Hc & _).
      assert (W := no_work (fun i => node_stress c misfit (eps i) (h i)) eps' u' (fun i a b Ha Hb => node_stress_sym c misfit (eps i) (h i) a b S1 Ha Hb) Hd Hc).
      rewrite (rsum_ext n _ (fun i => bil c (eps i) (eps' i) - h i * bil c misfit (eps' i))) in W.
      2:{ intros i _. rewrite stress_work, (bil_sym c (eps' i) (eps i) S3), (bil_sym c (eps' i) misfit S3). reflexivity. }
      rewrite rsum_minus in W. lra.
    Qed.
    Lemma response_symmetric h eps h' eps' : equilibrium c misfit h eps -> equilibrium c misfit h' eps' ->
      rsum n (fun i => h i * bil c misfit (eps' i)) = rsum n (fun i => h' i * bil c misfit (eps i)).
    Proof.
      intros H H'. rewrite <- (work h eps h' eps' H H'), <- (work h' eps' h eps H' H).
      apply rsum_ext. intros i _. apply bil_sym, S3.
    Qed.
    Lemma total_energy_bil h eps : total_energy n c misfit h eps =
      rsum n (fun i => / 2 * bil c (eps i) (eps i) - h i * bil c misfit (eps i) + / 2 * (h i * h i * bil c misfit misfit)).
    Proof.
      unfold total_energy. apply rsum_ext. intros i _.
      change (rsum 3 _) with (bil c (fun a b => eps i a b - misfit a b * h i) (fun a b => eps i a b - misfit a b * h i)).
      rewrite (bil_ext c _ (fun a b => eps i a b + (- h i) * misfit a b) _ (fun a b => eps i a b + (- h i) * misfit a b)) by (intros; ring).
      rewrite bil_lin_r, !bil_lin_l, (bil_sym c (eps i) misfit S3). field.
    Qed.
    Theorem energy_formula h eps : equilibrium c misfit h eps ->
      total_energy n c misfit h eps = rsum n (fun i => / 2 * (h i * (h i * bil c misfit misfit - bil c misfit (eps i)))).
    Proof.
      intros H. rewrite total_energy_bil. assert (W := work h eps h eps H H).
      rewrite (rsum_ext n _ (fun i => (/ 2 * bil c (eps i) (eps i) - / 2 * (h i * bil c misfit (eps i))) + / 2 * (h i * (h i * bil c misfit misfit - bil c misfit (eps i))))).
      2:{ intros i _. field. }
      rewrite rsum_plus, rsum_minus, !rsum_mul_l, W. ring.
    Qed.

    (** linear combinations *)
    Lemma equilibrium_lin h eps h' eps' t : equilibrium c misfit h eps -> equilibrium c misfit h' eps' ->
      equilibrium c misfit (fun i => h i + t * h' i) (fun i a b => eps i a b + t * eps' i a b).
    Proof.
      intros (u & Hc & Hd) (u' & Hc' & Hd'). exists (fun k a => Cadd (u k a) (Cmul (RtoC t) (u' k a))). split.
      - intros k a b Hk Ha Hb. rewrite mode_lin, Hc, Hc' by assumption. ring.
      - intros k m Hk Hm. unfold divergence_mode in *.
        rewrite (csum_ext 3 _ (fun j => Cadd (Cmul (0, 2 * PI * wave ft k j) (mode (fun i => node_stress c misfit (eps i) (h i) m j) k))
          (Cmul (RtoC t) (Cmul (0, 2 * PI * wave ft k j) (mode (fun i => node_stress c misfit (eps' i) (h' i) m j) k))))).
        + rewrite csum_plus, csum_mul_l, Hd, Hd' by assumption. ring.
        + intros j Hj. rewrite (mode_ext _ (fun i => node_stress c misfit (eps i) (h i) m j + t * node_stress c misfit (eps' i) (h' i) m j)).
          * rewrite mode_lin by exact Hk. ring.
          * intros i _. apply node_stress_lin.
    Qed.
    Lemma equilibrium_ext h h' eps eps' : (forall i, (i < n)%nat -> h i = h' i) ->
      (forall i a b, (i < n)%nat -> (a < 3)%nat -> (b < 3)%nat -> eps i a b = eps' i a b) -> equilibrium c misfit h eps -> equilibrium c misfit h' eps'.
    Proof.
      intros Eh Ee (u & Hc & Hd). exists u. split.
      - intros k a b Hk Ha Hb. rewrite <- (Hc k a b Hk Ha Hb). apply mode_ext. intros i Hi. symmetry. apply Ee; assumption.
      - intros k m Hk Hm. rewrite <- (Hd k m Hk Hm). unfold divergence_mode. apply csum_ext. intros j Hj. f_equal. apply mode_ext. intros i Hi.
        unfold node_stress. apply rsum_ext. intros p Hp. apply rsum_ext. intros q Hq. rewrite (Eh i Hi), (Ee i p q Hi Hp Hq). reflexivity.
    Qed.
  End Body.

  (** compatible strains are symmetric *)
  Lemma equilibrium_symmetric c misfit h eps : equilibrium c misfit h eps -> forall i, (i < n)%nat -> symmetric3 (eps i).
  Proof.
    intros (u & Hc & _) i Hi a b Ha Hb.
    assert (E : (fun i => eps i a b + (-1) * eps i b a) i = 0).
    { apply (mode_inj (fun i => eps i a b + (-1) * eps i b a)); [|exact Hi]. intros k Hk. rewrite mode_lin, !Hc by assumption. csolve. }
    cbv beta in E. lra.
  Qed.
  Lemma energy_nonneg c e : stiff c -> symmetric3 e -> 0 <= energy_density c e.
  Proof.
    intros (_ & _ & _ & P) Se.
    destruct (nine_zero e) as [Z|N].
    - right. unfold energy_density. rewrite (rsum4_ext _ (fun _ _ _ _ => 0)); [cbn [rsum]; ring|]. intros. rewrite !Z by assumption. ring.
    - left. apply P; assumption.
  Qed.

  (** uniqueness *)
  Theorem equilibrium_unique c misfit h eps eps' : stiff c -> equilibrium c misfit h eps -> equilibrium c misfit h eps' ->
    forall i a b, (i < n)%nat -> (a < 3)%nat -> (b < 3)%nat -> eps i a b = eps' i a b.
  Proof.
    intros St H H' i a b Hi Ha Hb. pose proof St as (S1 & S2 & S3 & P).
    pose (d := fun i a b => eps i a b + (-1) * eps' i a b).
    assert (D : equilibrium c misfit (fun _ => 0) d).
    { apply (equilibrium_ext c misfit (fun i => h i + (-1) * h i) _ d d); [intros; ring|reflexivity|].
      exact (equilibrium_lin c misfit h eps h eps' (-1) H H'). }
    assert (W := work c misfit S1 S3 _ d _ d D D). rewrite (rsum_ext n (fun i => 0 * _) (fun _ => 0)), rsum_0 in W by (intros; ring).
    assert (NN : forall q, (q < n)%nat -> 0 <= bil c (d q) (d q)).
    { intros q Hq. pose proof (energy_nonneg c (d q) St (equilibrium_symmetric c misfit _ d D q Hq)) as E. rewrite bil_energy in E. lra. }
    assert (Z : bil c (d i) (d i) = 0) by exact (rsum_zero_term n (fun q => bil c (d q) (d q)) NN W i Hi).
    destruct (nine_zero (d i)) as [E|E].
    - specialize (E a b Ha Hb). unfold d in E. lra.
    - apply (P _ (equilibrium_symmetric c misfit _ d D i Hi)) in E. rewrite bil_energy, Z in E. lra.
  Qed.

  (** bounds *)
  Theorem energy_bounds c misfit h eps : stiff c -> symmetric3 misfit -> equilibrium c misfit h eps ->
    0 <= total_energy n c misfit h eps <= rsum n (fun i => h i * h i * energy_density c misfit).
  Proof.
    intros St Hm H. pose proof St as (S1 & S2 & S3 & P). split.
    - unfold total_energy. apply rsum_nonneg. intros i Hi.
      assert (Sy : symmetric3 (fun a b => eps i a b - misfit a b * h i)).
      { intros a b Ha Hb. rewrite (equilibrium_symmetric c misfit h eps H i Hi a b Ha Hb), (Hm a b Ha Hb). reflexivity. }
      pose proof (energy_nonneg c _ St Sy) as E. unfold energy_density in E. lra.
    - rewrite (energy_formula c misfit S1 S3 h eps H).
      assert (W := work c misfit S1 S3 h eps h eps H H).
      assert (NN : 0 <= rsum n (fun i => bil c (eps i) (eps i))).
      { apply rsum_nonneg. intros i Hi. pose proof (energy_nonneg c (eps i) St (equilibrium_symmetric c misfit h eps H i Hi)) as E. rewrite bil_energy in E. lra. }
      rewrite (rsum_ext n (fun i => h i * h i * energy_density c misfit) (fun i => / 2 * (h i * (h i * bil c misfit misfit - bil c misfit (eps i))) + / 2 * (h i * bil c misfit (eps i)))).
      2:{ intros i _. rewrite bil_energy. field. }
      rewrite (rsum_plus n (fun i => / 2 * (h i * (h i * bil c misfit misfit - bil c misfit (eps i)))) (fun i => / 2 * (h i * bil c misfit (eps i)))), (rsum_mul_l n (/ 2) (fun i => h i * bil c misfit (eps i))). rewrite <- W. lra.
  Qed.

  (** the derivative *)
  Section Derivative.
    Variables (c : tensor) (misfit : matrix).
    Hypothesis S1 : sym_first c.
    Hypothesis S3 : sym_major c.
    Variables (h0 h1 h2 h3 : nat -> R) (e0 e1 e2 e3 : nat -> matrix).
    Hypothesis E0 : equilibrium c misfit h0 e0.
    Hypothesis E1 : equilibrium c misfit h1 e1.
    Hypothesis E2 : equilibrium c misfit h2 e2.
    Hypothesis E3 : equilibrium c misfit h3 e3.
    Definition path_h (t : R) (i : nat) : R := h0 i + t * (h1 i + t * (h2 i + t * h3 i)).
    Definition path_e (t : R) (i : nat) : matrix := fun a b => e0 i a b + t * (e1 i a b + t * (e2 i a b + t * e3 i a b)).
    Lemma path_equilibrium t : equilibrium c misfit (path_h t) (path_e t).
    Proof.
      apply (equilibrium_lin c misfit h0 e0 (fun i => h1 i + t * (h2 i + t * h3 i)) (fun i a b => e1 i a b + t * (e2 i a b + t * e3 i a b)) t E0).
      apply (equilibrium_lin c misfit h1 e1 (fun i => h2 i + t * h3 i) (fun i a b => e2 i a b + t * e3 i a b) t E1).
      apply (equilibrium_lin c misfit h2 e2 h3 e3 t E2 E3).
    Qed.
    Lemma path_bil t i : bil c misfit (path_e t i) =
      bil c misfit (e0 i) + t * (bil c misfit (e1 i) + t * (bil c misfit (e2 i) + t * bil c misfit (e3 i))).
    Proof.
      unfold path_e.
      rewrite (bil_lin_r c misfit (e0 i) (fun a b => e1 i a b + t * (e2 i a b + t * e3 i a b)) t).
      rewrite (bil_lin_r c misfit (e1 i) (fun a b => e2 i a b + t * e3 i a b) t), (bil_lin_r c misfit (e2 i) (e3 i) t). reflexivity.
    Qed.
    Theorem path_derivative : derivable_pt_lim (fun t => total_energy n c misfit (path_h t) (path_e t)) 0
      (rsum n (fun i => h1 i * (h0 i * bil c misfit misfit - bil c misfit (e0 i)))).
    Proof.
      set (w := fun (e : nat -> matrix) i => bil c misfit (e i)). set (q := bil c misfit misfit).
      refine (dlim_ext (fun t => rsum n (fun i =>
        (/ 2 * h0 i + / 2 * h1 i * t + / 2 * h2 i * t ^ 2 + / 2 * h3 i * t ^ 3 + 0 * t ^ 4) *
        ((h0 i * q - w e0 i) + (h1 i * q - w e1 i) * t + (h2 i * q - w e2 i) * t ^ 2 + (h3 i * q - w e3 i) * t ^ 3 + 0 * t ^ 4))) _ 0
        (rsum n (fun i => / 2 * h1 i * (h0 i * q - w e0 i) + / 2 * h0 i * (h1 i * q - w e1 i))) _ _ _ _).
      - intros t. rewrite (energy_formula c misfit S1 S3 _ _ (path_equilibrium t)). apply rsum_ext. intros i _.
        rewrite path_bil. fold q. unfold path_h, w. ring.
      - assert (Sym := response_symmetric c misfit S1 S3 h0 e0 h1 e1 E0 E1).
        rewrite (rsum_ext n _ (fun i => h1 i * (h0 i * q - w e0 i) + / 2 * (h1 i * w e0 i - h0 i * w e1 i))).
        2:{ intros i _. field. }
        rewrite rsum_plus, rsum_mul_l, rsum_minus. unfold w in *. rewrite Sym. fold q. unfold Rminus. rewrite Rplus_opp_r. ring.
      - apply dlim_rsum. intros i _.
        refine (dlim_ext _ _ _ _ _ (fun y => eq_refl) _ (derivable_pt_lim_mult _ _ 0 _ _
          (dlim_poly4 (/ 2 * h0 i) (/ 2 * h1 i) (/ 2 * h2 i) (/ 2 * h3 i) 0 0)
          (dlim_poly4 (h0 i * q - w e0 i) (h1 i * q - w e1 i) (h2 i * q - w e2 i) (h3 i * q - w e3 i) 0 0))).
        ring.
    Qed.
  End Derivative.
End Grid.

(** ** Stiff tensors are elliptic *)
Lemma det3_kernel (m : matrix) : det3 m = 0 -> exists x : nat -> R, (exists i, (i < 3)%nat /\ x i <> 0) /\
  forall i, (i < 3)%nat -> rsum 3 (fun j => m i j * x j) = 0.
Proof.
  unfold det3, ent. intros D.
  pose (vec := fun (a b c : R) (i : nat) => match i with 0%nat => a | 1%nat => b | _ => c end).
  pose (cross := fun p q : nat => vec (m p 1%nat * m q 2%nat - m p 2%nat * m q 1%nat) (m p 2%nat * m q 0%nat - m p 0%nat * m q 2%nat) (m p 0%nat * m q 1%nat - m p 1%nat * m q 0%nat)).
  assert (Dec : forall x : nat -> R, (exists i, (i < 3)%nat /\ x i <> 0) \/ (x 0%nat = 0 /\ x 1%nat = 0 /\ x 2%nat = 0)).
  { intros x. destruct (Req_dec (x 0%nat) 0); [|left; exists 0%nat; split; [lia|assumption]]. destruct (Req_dec (x 1%nat) 0); [|left; exists 1%nat; split; [lia|assumption]].
    destruct (Req_dec (x 2%nat) 0); [|left; exists 2%nat; split; [lia|assumption]]. right. auto. }
  assert (K : forall p q, (p = 0 /\ q = 1 \/ p = 0 /\ q = 2 \/ p = 1 /\ q = 2)%nat -> forall i, (i < 3)%nat -> rsum 3 (fun j => m i j * cross p q j) = 0).
  { intros p q Hpq i Hi. unfold cross, vec. cbn [rsum].
    destruct Hpq as [[-> ->]|[[-> ->]|[-> ->]]]; destruct i as [|[|[|i]]]; try lia; try ring; lra. }
  destruct (Dec (cross 0 1)%nat) as [N|(A1 & A2 & A3)]; [exists (cross 0 1)%nat; split; [exact N|apply K; auto]|].
  destruct (Dec (cross 0 2)%nat) as [N|(B1 & B2 & B3)]; [exists (cross 0 2)%nat; split; [exact N|apply K; auto]|].
  destruct (Dec (cross 1 2)%nat) as [N|(C1' & C2' & C3')]; [exists (cross 1 2)%nat; split; [exact N|apply K; auto]|].
  unfold cross, vec in *. 
  (* all rows are parallel *)
  assert (Row : forall r, (r < 3)%nat -> (exists j, (j < 3)%nat /\ m r j <> 0) ->
    exists x : nat -> R, (exists i, (i < 3)%nat /\ x i <> 0) /\ forall i, (i < 3)%nat -> rsum 3 (fun j => m i j * x j) = 0).
  { intros r Hr (j & Hj & N).
    destruct (Req_dec (m r 0%nat) 0) as [Z0|N0].
    - destruct (Req_dec (m r 1%nat) 0) as [Z1|N1].
      + exists (vec 1 0 0). split; [exists 0%nat; split; [lia|cbn; lra]|]. intros i Hi. unfold vec. cbn [rsum].
        assert (N2 : m r 2%nat <> 0) by (destruct j as [|[|[|j]]]; [contradiction|contradiction|exact N|lia]).
        assert (Q : m r 2%nat * m i 0%nat = 0) by (destruct r as [|[|[|r]]], i as [|[|[|i]]]; try lia; rewrite ?Z0, ?Z1 in *; nra).
        apply Rmult_integral in Q. destruct Q as [Q|Q]; [contradiction|]. rewrite Q. ring.
      + exists (vec (m r 1%nat) (- m r 0%nat) 0). split; [exists 0%nat; split; [lia|cbn; exact N1]|]. intros i Hi. unfold vec. cbn [rsum].
        destruct r as [|[|[|r]]], i as [|[|[|i]]]; try lia; lra.
    - exists (vec (m r 1%nat) (- m r 0%nat) 0). split; [exists 1%nat; split; [lia|cbn; lra]|]. intros i Hi. unfold vec. cbn [rsum].
      destruct r as [|[|[|r]]], i as [|[|[|i]]]; try lia; lra. }
  destruct (Dec (m 0%nat)) as [N|(P1 & P2 & P3)]; [exact (Row 0%nat ltac:(lia) N)|].
  destruct (Dec (m 1%nat)) as [N|(Q1 & Q2 & Q3)]; [exact (Row 1%nat ltac:(lia) N)|].
  destruct (Dec (m 2%nat)) as [N|(R1 & R2 & R3)]; [exact (Row 2%nat ltac:(lia) N)|].
  exists (vec 1 0 0). split; [exists 0%nat; split; [lia|cbn; lra]|]. intros i Hi. unfold vec. cbn [rsum].
  destruct i as [|[|[|i]]]; try lia; rewrite ?P1, ?Q1, ?R1; ring.
Qed.

Theorem stiff_elliptic c f : stiff c -> (exists i, (i < 3)%nat /\ f i <> 0) -> det3 (displacement_matrix c f) <> 0.
Proof.
  intros (S1 & S2 & S3 & P) (a & Ha & Fa) D. destruct (det3_kernel _ D) as (x & (b & Hb & Xb) & K).
  pose (e := fun i j : nat => / 2 * (x i * f j + x j * f i)).
  assert (Se : symmetric3 e) by (intros i j _ _; unfold e; ring).
  assert (Ne : exists i j, (i < 3)%nat /\ (j < 3)%nat /\ e i j <> 0).
  { destruct (nine_zero e) as [Z|N]; [exfalso|exact N].
    (* x_a f_a = 0, x_b f_b = 0 and x_a f_b + x_b f_a = 0 *)
    assert (Z1 := Z a a Ha Ha). assert (Z2 := Z b b Hb Hb). assert (Z3 := Z a b Ha Hb). unfold e in *.
    assert (X : x a = 0) by (apply (Rmult_eq_reg_r (f a)); [lra|exact Fa]).
    assert (Y : x b * f a = 0) by (rewrite X in Z3; lra). apply Rmult_integral in Y. destruct Y; contradiction. }
  assert (E := P e Se Ne). rewrite bil_energy in E.
  assert (Q : bil c e e = / (2 * PI) ^ 2 * rsum 3 (fun i => x i * rsum 3 (fun j => displacement_matrix c f i j * x j))).
  {     assert (E1 : bil c e e = bil c (fun p q => x p * f q) (fun p q => x p * f q)).
    { transitivity (bil c e (fun p q => x p * f q)).
      - rewrite (bil_ext c e e e (fun p q => / 2 * (x p * f q) + / 2 * (x q * f p))) by (intros; unfold e; ring).
        rewrite (bil_lin_r c e (fun p q => / 2 * (x p * f q)) (fun p q => x q * f p) (/ 2)).
        rewrite (bil_ext c e e (fun p q => / 2 * (x p * f q)) (fun p q => 0 + / 2 * (x p * f q))) by (intros; ring).
        rewrite (bil_lin_r c e (fun p q => 0) (fun p q => x p * f q) (/ 2)).
        assert (Zr : bil c e (fun _ _ => 0) = 0) by (unfold bil; rewrite (rsum4_ext _ (fun _ _ _ _ => 0)); [cbn [rsum]; ring|intros; ring]).
        assert (T : bil c e (fun p q => x q * f p) = bil c e (fun p q => x p * f q)).
        { unfold bil. apply rsum_ext; intros i Hi. apply rsum_ext; intros j Hj. rewrite rsum_swap. apply rsum_ext; intros p Hp. apply rsum_ext; intros q Hq. rewrite (S2 i j p q) by assumption. ring. }
        rewrite Zr, T. field.
      - set (g := fun p q : nat => x p * f q).
        rewrite (bil_ext c e (fun p q => / 2 * (x p * f q) + / 2 * (x q * f p)) g g) by (intros; unfold e; ring).
        rewrite (bil_lin_l c g (fun p q => / 2 * (x p * f q)) (fun p q => x q * f p) (/ 2)).
        rewrite (bil_ext c (fun p q => / 2 * (x p * f q)) (fun p q => 0 + / 2 * (x p * f q)) g g) by (intros; ring).
        rewrite (bil_lin_l c g (fun p q => 0) (fun p q => x p * f q) (/ 2)).
        assert (Zr : bil c (fun _ _ => 0) g = 0) by (unfold bil; rewrite (rsum4_ext _ (fun _ _ _ _ => 0)); [cbn [rsum]; ring|intros; ring]).
        assert (T : bil c (fun p q => x q * f p) g = bil c g g).
        { unfold bil. rewrite rsum_swap. apply rsum_ext; intros i Hi. apply rsum_ext; intros j Hj. apply rsum_ext; intros p Hp. apply rsum_ext; intros q Hq. rewrite (S1 i j p q) by assumption. unfold g. ring. }
        rewrite Zr, T. unfold g. field. }
    rewrite E1. unfold bil. rewrite <- rsum_mul_l. apply rsum_ext; intros i _.
    unfold displacement_matrix. rewrite rsum_swap. rewrite <- !rsum_mul_l. apply rsum_ext; intros p _.
    assert (HP := PI_RGT_0).
    transitivity (x i * x p * rsum 3 (fun j => rsum 3 (fun q => c i j p q * f j * f q))); [|field; lra].
    rewrite <- rsum_mul_l. apply rsum_ext; intros j _. rewrite <- rsum_mul_l. apply rsum_ext; intros q _. ring. }
  rewrite Q, (rsum_ext 3 _ (fun _ => 0)), rsum_0 in E; [lra|]. intros i Hi. rewrite K by exact Hi. ring.
Qed.

(** ** The solution of a regular system is unique *)
Lemma regular_unique (m : matrix) x y : det3 m <> 0 -> (forall i, (i < 3)%nat -> rsum 3 (fun j => m i j * x j) = rsum 3 (fun j => m i j * y j)) ->
  forall i, (i < 3)%nat -> x i = y i.
Proof.
  intros D H i Hi. apply (Rmult_eq_reg_l (det3 m)); [|exact D]. pose proof (H 0%nat ltac:(lia)) as A. pose proof (H 1%nat ltac:(lia)) as B. pose proof (H 2%nat ltac:(lia)) as E.
  cbn [rsum] in A, B, E. unfold det3, ent.
  set (a := m 0%nat 0%nat) in *. set (b := m 0%nat 1%nat) in *. set (c := m 0%nat 2%nat) in *.
  set (d := m 1%nat 0%nat) in *. set (e := m 1%nat 1%nat) in *. set (f := m 1%nat 2%nat) in *.
  set (g := m 2%nat 0%nat) in *. set (h := m 2%nat 1%nat) in *. set (k := m 2%nat 2%nat) in *.
  set (p := x 0%nat) in *. set (q := x 1%nat) in *. set (r := x 2%nat) in *. set (s := y 0%nat) in *. set (t := y 1%nat) in *. set (w := y 2%nat) in *.
  assert (A' : a * p + b * q + c * r = a * s + b * t + c * w) by lra.
  assert (B' : d * p + e * q + f * r = d * s + e * t + f * w) by lra.
  assert (E' : g * p + h * q + k * r = g * s + h * t + k * w) by lra. clear - A' B' E' Hi p q r s t w.
  destruct i as [|[|[|i]]]; [| | |lia].
  - change (x 0%nat) with p. change (y 0%nat) with s.
    transitivity ((e * k - f * h) * (a * p + b * q + c * r) - (b * k - c * h) * (d * p + e * q + f * r) + (b * f - c * e) * (g * p + h * q + k * r)); [ring|].
    rewrite A', B', E'. ring.
  - change (x 1%nat) with q. change (y 1%nat) with t.
    transitivity (- (d * k - f * g) * (a * p + b * q + c * r) + (a * k - c * g) * (d * p + e * q + f * r) - (a * f - c * d) * (g * p + h * q + k * r)); [ring|].
    rewrite A', B', E'. ring.
  - change (x 2%nat) with r. change (y 2%nat) with w.
    transitivity ((d * h - e * g) * (a * p + b * q + c * r) - (a * h - b * g) * (d * p + e * q + f * r) + (a * e - b * d) * (g * p + h * q + k * r)); [ring|].
    rewrite A', B', E'. ring.
Qed.
