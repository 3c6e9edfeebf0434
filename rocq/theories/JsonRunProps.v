(** C119, continued: the JSON text after a run of Solve. *)
From Verif Require Import ListAux SolverSpec SolverProps JsonRunModel JsonSpec JsonProofs JsonProps CliModel.
From Coq Require Import Reals String Lia List. Import ListNotations.

Lemma history_same {S} (sp : stepper S) h g n : h 0 = g 0 -> history sp h n -> history sp g n -> forall k, k <= n -> h k = g k.
Proof.
  intros H0 Hh Hg. induction k as [|k IH]; intros Hk; [exact H0|]. assert (E := IH ltac:(lia)). assert (A := Hh k ltac:(lia)). assert (B := Hg k ltac:(lia)). rewrite E, B in A. injection A as A. auto.
Qed.
Lemma add_monitors ks : forall sv, sv_monitors (fold_left add_monitor ks sv) = sv_monitors sv ++ ks.
Proof. induction ks as [|k ks IH]; intros sv; cbn [fold_left]; [rewrite app_nil_r; reflexivity|]. rewrite IH. cbn [add_monitor sv_monitors]. rewrite <- app_assoc. reflexivity. Qed.

(** Monitors are added to a solver without monitors and Solve is run.  The text of
    JSONifyMonitors holds, for the monitors in the order in which they were
    added, the field, the site and one value per epoch: the real part of the
    brick at the site at the end of that epoch. *)
Theorem C119_after_solve : forall (S : Type) (sp : stepper S) sv nepochs nsteps (s s' : S) tr brick (pms : list (nat * str)) fmt parse text,
  sv_monitors sv = [] -> writes_back fmt parse -> Forall (fun pm => ascii_text (snd pm)) pms ->
  let sv' := fold_left add_monitor (seq 0 (List.length pms)) sv in
  solve sp sv' nepochs nsteps s = Some (s', tr) -> solver_json fmt brick pms sv' tr = Some text ->
  exists hist vs, hist 0 = s /\ history sp hist (nepochs * nsteps) /\ read_json text = Some (JArray vs)
    /\ Forall2 (fun v pm => exists ts t,
         member "Data" v = Some (JArray (map JNumber ts)) /\ map parse ts = map (fun k => Some (Re (brick (snd pm) (hist ((k + 1) * nsteps)) (fst pm)))) (seq 0 nepochs)
         /\ member "Site" v = Some (JNumber t) /\ atoi t = Some (Z.of_nat (fst pm)) /\ member "Field" v = Some (JString (snd pm))) vs pms.
Proof.
  intros S sp sv nepochs nsteps s s' tr brick pms fmt parse text H0 HW HA sv' ES EJ.
  assert (EM : sv_monitors sv' = seq 0 (List.length pms)) by (unfold sv'; rewrite add_monitors, H0; reflexivity).
  destruct (proj1 (C25_run_of_solve S sp sv' nepochs nsteps s s' tr) ES) as (hist & B0 & _ & BH & _). exists hist.
  unfold solver_json in EJ. rewrite EM in EJ. match type of EJ with jsonify_monitors _ ?ms = _ => set (MS := ms) in * end.
  assert (HN : ascii_names MS).
  { unfold ascii_names, MS. rewrite Forall_map. apply Forall_forall. intros k Hk. apply in_seq in Hk. cbn [jm_field jm_name new_jmonitor]. split; [|repeat constructor].
    rewrite Forall_forall in HA. apply HA, nth_In. lia. }
  destruct (C119_read_back R fmt parse HW MS text HN EJ) as (vs & R1 & F). exists vs. split; [exact B0|]. split; [exact BH|]. split; [exact R1|].
  assert (PL : pms = map (fun k => nth k pms (0, [])) (seq 0 (List.length pms))).
  { clear. assert (G : forall l (b : list (nat * str)), map (fun k => nth k (b ++ l) (0, [])) (seq (List.length b) (List.length l)) = l).
    { induction l as [|x l IH]; intros b; [reflexivity|]. cbn [List.length seq map]. rewrite app_nth2, Nat.sub_diag by lia. cbn [nth]. f_equal.
      specialize (IH (b ++ [x])). rewrite app_length, Nat.add_comm in IH. cbn [List.length plus] in IH. rewrite <- app_assoc in IH. exact IH. }
    symmetry. exact (G pms []). }
  assert (Q : forall ks vs, (forall k, In k ks -> k < List.length pms) -> Forall2 (describes parse) vs (map (fun k => let pm := nth k pms (0, []) in
      {| jm_data := Some (point_monitor_run (brick (snd pm)) (fst pm) k tr []); jm_site := Z.of_nat (fst pm); jm_field := snd pm; jm_name := jm_name (new_jmonitor (V := R) 0 (snd pm)) |}) ks) ->
    Forall2 (fun v pm => exists ts t,
         member "Data" v = Some (JArray (map JNumber ts)) /\ map parse ts = map (fun k => Some (Re (brick (snd pm) (hist ((k + 1) * nsteps)) (fst pm)))) (seq 0 nepochs)
         /\ member "Site" v = Some (JNumber t) /\ atoi t = Some (Z.of_nat (fst pm)) /\ member "Field" v = Some (JString (snd pm))) vs (map (fun k => nth k pms (0, [])) ks)).
  { clear F R1. intros ks. induction ks as [|k ks IH]; intros ws Hks F; cbn [map] in *; inversion F as [|v x ws' l' Hv F2]; subst; constructor.
    - destruct Hv as ((ts & D1 & D2) & (t & S1 & S2) & Fd & _). cbn [jm_data jm_site jm_field] in *. exists ts, t. split; [exact D1|]. split; [|tauto]. rewrite D2.
      destruct (C25_point_monitor S sp sv' nepochs nsteps (hist 0) s' tr (brick (snd (nth k pms (0, [])))) (fst (nth k pms (0, []))) k []) as (h & E0 & EH & ->).
      { rewrite EM. apply seq_NoDup. } { rewrite EM. apply in_seq. specialize (Hks k (or_introl eq_refl)). lia. } { exact ES. }
      cbn [app]. rewrite map_map. apply map_ext_in. intros j Hj. apply in_seq in Hj. rewrite (history_same sp h hist (nepochs * nsteps) ltac:(congruence) EH BH) by nia. reflexivity.
    - apply IH; [intros j Hj; apply Hks; right; exact Hj|exact F2]. }
  rewrite PL at 1. apply Q; [intros k Hk; apply in_seq in Hk; lia|exact F].
Qed.
Print Assumptions C119_after_solve.

(** Two monitors, two epochs of three steps that count, whole numbers. *)
Example C119_after_solve_nonvacuous :
  let sp := {| st_step := fun k => Some (S k); st_time := INR |} in
  let sv := {| sv_terms := []; sv_callbacks := []; sv_monitors := []; sv_start := 0%Z |} in
  let pms := [(0, lit "a"); (4, lit "b")] in
  let sv' := fold_left add_monitor (seq 0 2) sv in
  exists tr, solve sp sv' 2 3 0 = Some (6, tr) /\ sv_monitors sv' = [0; 1] /\ Forall (fun pm => ascii_text (snd pm)) pms
    /\ forall fmt t0 t1, fmt 0%R = Some t0 -> fmt 1%R = Some t1 -> solver_json fmt (fun f s site => if str_eqb f (lit "a") then Complex.C0 else Complex.C1) pms sv' tr <> None.
Proof.
  intros sp sv pms sv'. eexists. split; [reflexivity|]. split; [reflexivity|]. split; [repeat constructor|]. intros fmt t0 t1 H0 H1.
  unfold solver_json. rewrite C119_panics. intros (m & d & v & Hm & Hd & Hv & E). cbn [sv_monitors sv' fold_left seq add_monitor sv app map In] in Hm.
  destruct Hm as [<-|[<-|[]]]; cbn in Hd; injection Hd as <-; cbn in Hv; destruct Hv as [<-|[<-|[]]]; congruence.
Qed.
