(** * Concrete PSO and CBOMemory runs without noise *)
From Coq Require Import String List Arith Bool Reals Permutation Lia Lra.
From Verif Require Import Scalar Np NpFacts State Pdyn PdynFacts PdynStep PdynOk Exec Script RVec RVecFacts Consensus ConsSpec ConsFacts PostProc PolarSpec PolarFacts Cbo CboSpec CboFacts ExCbo
  Memory MemSpec MemFacts2 MemFacts3 MemRaise MemMove MemReal ExMemR MemRunSpec PolarRestSpec ExPolarRest MemRun.
Import ListNotations.
Open Scope R_scope.

Definition ecfg (pp : vec -> vec) : cfg R vec := cbo_cfg sqf NIso pp NoCorr 3 false false [CMaxIt (Some 10%nat)] false.
Definition epar (lm : R) : mpar R := mkmpar (Fin lm) (Fin 0) (Fin 1) (Fin 2).
Definition ez2 : nat -> nat -> vec := fun _ _ => floats [1; 1].
(** parameter values of the run *)
Definition eset (s : st R vec) : st R vec := set_alpha (repeat [Fin 5] (s_M s)) (set_sigma (Fin 0) (set_lamda (Fin 1) (set_dt (Fin (/ 10)) s))).

Lemma ems : forall pp, exists ms, mem_constructed (ecfg pp) ms /\ s_M (m_s ms) = 2%nat /\ s_N (m_s ms) = 3%nat /\ s_active (m_s ms) = [0; 1]%nat /\ ensemble_at (m_s ms) 0 2 cX.
Proof.
  intros pp. set (c := ecfg pp). destruct (cinit_ok c 5 1 (/ 10) 0) as (s & Hs & _ & H1 & H2 & H3 & H4 & H5 & H6 & H7 & H8 & H9 & H10); [cbn; lia|lra|].
  assert (Hm : exists ms, mem_init c cx0 false (Fin 5) (Fin 0) (Fin 1) (Fin (/ 10)) (fun _ => [2; 0; 1]%nat) None [] None = Ok ms /\
     m_s ms = set_energy (map (map (c_f c)) (s_x s)) (set_fcalls (s_fcalls s + npoints (s_x s)) (set_nfe (map (fun n => (n + s_N s)%nat) (s_nfe s)) s))).
  { unfold mem_init. unfold cinit in Hs. rewrite Hs. cbn [bind]. eexists. split; [reflexivity|]. reflexivity. }
  destruct Hm as (ms & Em & Es). exists ms.
  split. { exists cx0, false, (Fin 5), (Fin 0), (Fin 1), (Fin (/ 10)), (fun _ => [2; 0; 1]%nat), None, [], None.
    split; [split; [reflexivity|repeat constructor]|]. split; [cbn; lia|]. split; [cbn; lia|].
    split; [intros; apply (perm_b_ok 3); reflexivity|]. split; [discriminate|exact Em]. }
  rewrite Es. split; [exact H1|]. split; [exact H2|]. split; [exact H3|]. exact H7.
Qed.

Lemma eset_changed : forall s, params_changed s (eset s).
Proof.
  intros s. exists (repeat [Fin 5] (s_M s)), (Fin 0), (Fin 1), (Fin (/ 10)). split; [|reflexivity].
  intros _. split; [apply repeat_length|]. apply Forall_forall. intros r Hr. apply repeat_spec in Hr. subst. reflexivity.
Qed.
Lemma eset_par : forall s, s_M s = 2%nat -> finite_alpha (eset s) /\ parameters 1 (/ 10) 0 (eset s) /\ nth_error (s_alpha (eset s)) 0 = Some [Fin 5].
Proof.
  intros s HM. unfold eset, parameters, finite_alpha. sst. rewrite HM. split; [|split; [repeat split; auto; lra|reflexivity]].
  intros [|[|m]] Hm; [exists 5; auto|exists 5; auto|lia].
Qed.

(** runs of any length *)
Lemma eruns : forall kd pp p (P : mpar R -> st R vec -> Prop) (Q : mst R vec -> Prop) ms, mem_constructed (ecfg pp) ms -> s_M (m_s ms) = 2%nat -> s_N (m_s ms) = 3%nat -> s_active (m_s ms) = [0; 1]%nat ->
  (forall s, s_M s = 2%nat -> P p (eset s)) -> (forall ms', s_x (m_s ms') = map (map pp) (m_ev ms') -> Q ms') ->
  forall n, exists ms', mem_steps kd P Q (ecfg pp) 2 ms n ms' /\ (exists log, mem_exec kd (ecfg pp) ms' log) /\ s_M (m_s ms') = 2%nat /\ s_N (m_s ms') = 3%nat /\ s_active (m_s ms') = [0; 1]%nat.
Proof.
  intros kd pp p P Q ms HC HM HN HA HP HQ n. induction n as [|n (ms1 & S1 & (l & E1) & M1 & N1 & A1)].
  - exists ms. split; [constructor|]. split; [eexists; apply mx_init; auto|auto].
  - set (ms2 := mkmst (eset (m_s ms1)) (m_y ms1) (m_v ms1) (m_ev ms1)).
    assert (S2 : mem_steps kd P Q (ecfg pp) 2 ms n ms2) by (apply mss_params; auto; apply eset_changed).
    assert (E2 : mem_exec kd (ecfg pp) ms2 l) by (apply mx_params; auto; apply eset_changed).
    assert (M2 : s_M (m_s ms2) = 2%nat) by exact M1. assert (N2 : s_N (m_s ms2) = 3%nat) by exact N1. assert (A2 : s_active (m_s ms2) = [0; 1]%nat) by exact A1.
    assert (PV : perms_valid corc (m_s ms2)). { intros m _. rewrite N2. apply (perm_b_ok 3). reflexivity. }
    destruct (mem_works kd (ecfg pp) p corc ez2 ms2 l E2 PV (cbo_one_point _ _ _ _ _ _ _ _)) as (ms3 & Hst).
    { rewrite A2. discriminate. } { rewrite A2, M2. reflexivity. } { left. rewrite N2. reflexivity. }
    destruct (mem_step_ok _ _ _ _ _ _ _ (mem_exec_wf _ _ _ _ E2) (perms_valid_ok _ _ PV) ltac:(rewrite A2; discriminate) Hst) as (_ & _ & _ & B4 & B5 & B6 & _ & _ & _ & _ & B11 & _).
    exists ms3. split; [|split; [eexists; eapply mx_step; eauto; rewrite A2; discriminate|split; [congruence|split; congruence]]].
    eapply mss_step; eauto; [rewrite A2; discriminate|apply corc_finite|intros i j; eexists; split; reflexivity|]. apply HP; auto.
Qed.

Lemma epso : forall lm s, s_M s = 2%nat -> pso_quiet (/ 120) lm (epar lm) (eset s).
Proof.
  intros lm s HM. destruct (eset_par s HM) as (A & B & C). split; auto. exists 1, (/ 10), 1, 2. split; [reflexivity|]. split; auto. repeat split; lra.
Qed.
Lemma emem : forall lm s, 0 <= lm <= 1 -> s_M s = 2%nat -> mem_quiet (epar lm) (eset s).
Proof.
  intros lm s Hl HM. destruct (eset_par s HM) as (A & B & C). split; auto. exists 1, (/ 10), lm. split; [reflexivity|]. split; [reflexivity|]. split; auto. split; lra.
Qed.
Lemma eid : forall ms' m, s_x (m_s ms') = map (map (fun v : vec => v)) (m_ev ms') -> untouched m ms'.
Proof.
  intros ms' m E. unfold untouched. rewrite E, nth_error_map. destruct (nth_error (m_ev ms') m) as [r|]; cbn; auto. rewrite map_id. auto.
Qed.

(** runs without memory drift and without post-processing, of any length n *)
Lemma ex_spreads : forall n, exists ms ms', mem_constructed (ecfg (fun v => v)) ms /\ ensemble_at (m_s ms) 0 2 cX /\ finite_obj 2 sqf /\ 3%nat = s_N (m_s ms) /\
  mem_steps Pso (pso_quiet (/ 120) 0) (untouched 0) (ecfg (fun v => v)) 2 ms n ms'.
Proof.
  intros n. destruct (ems (fun v => v)) as (ms & HC & HM & HN & HA & HX). 
  destruct (eruns Pso (fun v => v) (epar 0) (pso_quiet (/ 120) 0) (untouched 0) ms HC HM HN HA (epso 0) (fun ms' => eid ms' 0) n) as (ms' & S & _).
  exists ms, ms'. split; auto. split; auto. split; [apply sqf_finite|]. auto.
Qed.
(** with memory drift *)
Lemma ex_rising : forall x, In x cX -> rising sqf (gibbs_point 5 (map sqf (map floats cX)) 2 cX) x.
Proof.
  assert (HA : admissible 5 (map sqf (map floats cX))). { apply (finite_admissible sqf 2 cX 5 (sqf_finite 2)); [cbn; lia|]. intros p [<-|[<-|[<-|[]]]]; reflexivity. }
  assert (HE : ensemble (length (map sqf (map floats cX))) 2 cX). { split; [reflexivity|]. intros p [<-|[<-|[<-|[]]]]; reflexivity. }
  assert (G0 : -1 <= coord 0 (gibbs_point 5 (map sqf (map floats cX)) 2 cX) <= 2). { apply hull_coord; auto. intros p [<-|[<-|[<-|[]]]]; cbn; lra. }
  assert (G1 : 1 <= coord 1 (gibbs_point 5 (map sqf (map floats cX)) 2 cX) <= 1). { apply hull_coord; auto. intros p [<-|[<-|[<-|[]]]]; cbn; lra. }
  assert (L := gibbs_point_length 5 (map sqf (map floats cX)) 2 cX).
  set (g := gibbs_point 5 (map sqf (map floats cX)) 2 cX) in *. clearbody g.
  destruct g as [|g0 [|g1 [|]]]; try discriminate. unfold coord in G0, G1. cbn in G0, G1. assert (g1 = 1) by lra. subst g1.
  intros x Hx s Hs. exists (sqnorm x), (sqnorm (vadd [g0; 1] (vscal s (vsub x [g0; 1])))). rewrite !sqf_floats. split; auto. split; auto.
  destruct Hx as [<-|[<-|[<-|[]]]]; unfold sqnorm, dot; cbn.
  - assert (Q := Rle_0_sqr (g0 + s * (0 - g0))). unfold Rsqr in Q. lra.
  - assert (2 <= g0 + s * (2 - g0)) by nra. nra.
  - assert (g0 + s * (-1 - g0) <= -1) by nra. nra.
Qed.
Lemma ex_leaves : forall n, exists ms ms', mem_constructed (ecfg (fun v => v)) ms /\ ensemble_at (m_s ms) 0 2 cX /\ finite_obj 2 sqf /\ 3%nat = s_N (m_s ms) /\
  (forall x, In x cX -> rising sqf (gibbs_point 5 (map sqf (map floats cX)) 2 cX) x) /\
  mem_steps Pso (fun p s => (exists lm, 0 <= lm /\ pso_quiet (/ 120) lm p s) /\ nth_error (s_alpha s) 0 = Some [Fin 5]) (untouched 0) (ecfg (fun v => v)) 2 ms n ms'.
Proof.
  intros n. destruct (ems (fun v => v)) as (ms & HC & HM & HN & HA & HX).
  destruct (eruns Pso (fun v => v) (epar (2 / 5)) (fun p s => (exists lm, 0 <= lm /\ pso_quiet (/ 120) lm p s) /\ nth_error (s_alpha s) 0 = Some [Fin 5]) (untouched 0) ms HC HM HN HA) with (n := n) as (ms' & S & _).
  { intros s Hs. split; [exists (2 / 5); split; [lra|apply epso; auto]|]. apply (eset_par s Hs). } { intros ms'. apply eid. }
  exists ms, ms'. split; auto. split; auto. split; [apply sqf_finite|]. split; auto. split; auto. apply ex_rising.
Qed.
(** with the default post-processing; the particles differ *)
Lemma ex_clips : forall n, exists ms ms', mem_constructed (ecfg (pp_point 100000000 false)) ms /\ ensemble_at (m_s ms) 0 2 cX /\ finite_obj 2 sqf /\ 3%nat = s_N (m_s ms) /\
  In [0; 1] cX /\ In [2; 1] cX /\ [0; 1] <> [2; 1] /\ mem_steps Pso (pso_quiet (/ 120) 0) (fun _ => True) (ecfg (pp_point 100000000 false)) 2 ms n ms'.
Proof.
  intros n. destruct (ems (pp_point 100000000 false)) as (ms & HC & HM & HN & HA & HX).
  destruct (eruns Pso (pp_point 100000000 false) (epar 0) (pso_quiet (/ 120) 0) (fun _ => True) ms HC HM HN HA (epso 0) (fun _ _ => I) n) as (ms' & S & _).
  exists ms, ms'. split; auto. split; auto. split; [apply sqf_finite|]. split; auto. split; [cbn; auto|]. split; [cbn; auto|]. split; auto. intros Q. injection Q as Q. lra.
Qed.
(** CBOMemory; the strip -1 <= x0 <= 2 *)
Definition strip (p : list R) : Prop := -1 <= coord 0 p <= 2.
Lemma ex_hull : forall n, exists ms ms', mem_constructed (ecfg (fun v => v)) ms /\ ensemble_at (m_s ms) 0 2 cX /\ finite_obj 2 sqf /\ 3%nat = s_N (m_s ms) /\
  convex_region 2 strip /\ (forall x, In x cX -> strip x) /\ mem_steps CBOMem mem_quiet (fun _ => True) (ecfg (fun v => v)) 2 ms n ms'.
Proof.
  intros n. destruct (ems (fun v => v)) as (ms & HC & HM & HN & HA & HX).
  destruct (eruns CBOMem (fun v => v) (epar (2 / 5)) mem_quiet (fun _ => True) ms HC HM HN HA (fun s => emem (2 / 5) s ltac:(lra)) (fun _ _ => I) n) as (ms' & S & _).
  exists ms, ms'. split; auto. split; auto. split; [apply sqf_finite|]. split; auto. split; [|split; auto].
  - intros ws X HW HL HX'. assert (Hl : forall x, In x X -> length x = 2%nat) by (intros; apply HX'; auto).
    assert (1 * coord 0 (combination ws 2 X) <= 2). { apply coord_hull; auto. intros x Hx. destruct (HX' x Hx) as [_ HH]. unfold strip in HH. lra. }
    assert (-1 * coord 0 (combination ws 2 X) <= 1). { apply coord_hull; auto. intros x Hx. destruct (HX' x Hx) as [_ HH]. unfold strip in HH. lra. }
    unfold strip. lra.
  - intros x [<-|[<-|[<-|[]]]]; unfold strip; cbn; lra.
Qed.
