(** * Concrete sessions of CBO; irrelevant coordinates *)
From Coq Require Import String List Arith Bool Reals Permutation Lia Lra.
From Verif Require Import Scalar Np NpFacts State Pdyn PdynFacts PdynStep PdynOk PdynRun Exec RunFacts Script TermSpec TermFacts MoveFacts RVec RVecFacts Consensus ConsSpec ConsFacts PostProc Cbo CboSpec CboFacts ExCbo
  Memory MemSpec TwinSpec SimSpec MemSymSpec SessSpec CoordSpec ExMemRun ExMemSym.
Import ListNotations.
Open Scope R_scope.

(** mini-batches of two out of three particles, two runs *)
Definition bcfg (f : vec -> fl R) (k : noise_model) (ks : list (crit R vec)) : cfg R vec := cbo_cfg f k (fun v => v) NoCorr 2 true false ks false.
(** new parameters, n steps, one termination check and a reset *)
Definition bcalls (o : orc vec) (n : nat) : list (call (K := R) (V := vec)) :=
  CaParameters (Fin 7) (Fin 1) (Fin 1) (Fin (/ 5)) :: repeat (CaStep o) n ++ [CaTerminate; CaReset].
Definition bsession (c : cfg R vec) (x : arr vec) (l : list (call (K := R) (V := vec))) : res (st R vec) :=
  cbo_session c x false (Fin 5) (Fin 1) (Fin 1) (Fin (/ 10)) (fun _ => [2; 0; 1]%nat) (Some ["x"; "energy"]%string) [] None l.

Lemma bsensible : forall d x0, shape1 x0 = 3%nat -> length x0 = 2%nat -> (forall row, In row x0 -> length row = 3%nat) -> (forall row v, In row x0 -> In v row -> real_point d v) ->
  sensible d 2 x0 (Fin 5) (Fin 1) (Fin 1) (Fin (/ 10)) (fun _ => [2; 0; 1]%nat) None.
Proof.
  intros d x0 H1 H2 H3 H4. unfold sensible. rewrite H1, H2. split; [split; [auto|apply Forall_forall; auto]|]. split; [lia|]. split; [lia|].
  split; [intros; apply (perm_b_ok 3); reflexivity|]. split; [discriminate|]. split; [auto|].
  unfold finite_scalar, time_step. repeat split; eauto. eexists. split; eauto. lra.
Qed.
Lemma bcalls_sensible : forall d o n, (forall i j, real_point d (o_z o i j)) -> (forall m, Permutation (o_perm o m) (seq 0 3)) -> sensible_calls d 2 3 (bcalls o n).
Proof.
  intros d o n H1 H2. cbn [bcalls sensible_calls]. split.
  { unfold finite_scalar, time_step. repeat split; eauto. eexists. split; eauto. lra. }
  induction n as [|n IH]; [exact I|]. cbn [repeat app sensible_calls]. auto.
Qed.

Section Runs.
  Variables (f : vec -> fl R) (k : noise_model) (ks : list (crit R vec)) (o : orc vec).
  Hypothesis Hb : Forall builtin ks.
  Hypothesis Ho : forall m, Permutation (o_perm o m) (seq 0 3).
  Let c : cfg R vec := bcfg f k ks.

  Lemma bsteps : forall n s log, exec c s log -> s_N s = 3%nat ->
    forall l, (forall s' log', exec c s' log' -> exists r, cbo_play c l s' = Ok r) -> exists r, cbo_play c (repeat (CaStep o) n ++ l) s = Ok r.
  Proof.
    induction n as [|n IH]; intros s log E HN l Hl; [apply (Hl s log E)|].
    cbn [repeat app cbo_play cbo_do].
    assert (P : perms_valid o s). { intros m _. rewrite HN. apply Ho. }
    destruct (exec_step_good c s log o E (cbo_plain _ _ _ _ _ _ _ _ _) P) as (s2 & HS). rewrite HS. cbn [bind].
    destruct (step_keeps _ _ _ _ _ _ _ _ _ _ _ _ E P HS) as (_ & N1 & _).
    eapply (IH s2); [eapply ex_step; eauto|congruence|auto].
  Qed.
  Lemma bruns : forall a1 a2 a3 a4 a5 a6 n, exists s, bsession c [[a1; a2; a3]; [a4; a5; a6]] (bcalls o n) = Ok s.
  Proof.
    intros a1 a2 a3 a4 a5 a6 n. set (x0 := [[a1; a2; a3]; [a4; a5; a6]]). unfold bsession, cbo_session.
    assert (Hi : exists s, init c x0 false (Fin 5) (Fin 1) (Fin 1) (Fin (/ 10)) (fun _ => [2; 0; 1]%nat) (Some ["x"; "energy"]%string) [] None = Ok s /\ s_M s = 2%nat /\ s_N s = 3%nat).
    { eexists. split; [reflexivity|]. split; reflexivity. }
    destruct Hi as (s & Ei & HM & HN). rewrite Ei. cbn [bind bcalls cbo_play cbo_do].
    eapply bsteps.
    - eapply ex_params; [apply ex_init|].
      + exists x0, false, (Fin 5), (Fin 1), (Fin 1), (Fin (/ 10)), (fun _ => [2; 0; 1]%nat), (Some ["x"; "energy"]%string), [], None.
        split; [split; [reflexivity|repeat constructor]|]. split; [cbn; lia|]. split; [cbn; lia|].
        split; [intros; apply (perm_b_ok 3); reflexivity|]. split; [discriminate|exact Ei].
      + eexists _, _, _, _. split; [|reflexivity].
        split; [apply repeat_length|]. apply Forall_forall. intros r Hr. apply repeat_spec in Hr. subst. reflexivity.
    - sst. auto.
    - intros s' log' E. cbn [cbo_play cbo_do]. destruct (terminate_total c s' (exec_wf _ _ _ E) Hb) as (bb & s2 & ->). cbn [bind]. eauto.
  Qed.
End Runs.

Lemma ex_cbo_shift : forall n, Forall builtin scrit /\ finite_corr NoCorr /\ finite_obj 2 sqf /\
  sensible 2 2 cx0 (Fin 5) (Fin 1) (Fin 1) (Fin (/ 10)) (fun _ => [2; 0; 1]%nat) None /\ sensible_calls 2 (length cx0) (shape1 cx0) (bcalls corc n) /\
  exists s, bsession (bcfg sqf NAniso scrit) cx0 (bcalls corc n) = Ok s.
Proof.
  intros n. split; [apply scrit_builtin|]. split; [exact I|]. split; [apply sqf_finite|]. split; [|split].
  - apply bsensible; [reflexivity|reflexivity| |exact cx0_real]. intros row [<-|[<-|[]]]; reflexivity.
  - apply bcalls_sensible; [intros; eexists; split; reflexivity|intros; apply (perm_b_ok 3); reflexivity].
  - apply bruns; [apply scrit_builtin|intros; apply (perm_b_ok 3); reflexivity].
Qed.

(** ** a third coordinate which the objective ignores *)
Definition flat_sqf (v : vec) : fl R := sqf (firstn 2 v).
Definition tx0 : arr vec := [map floats [[0; 1; 5]; [2; 1; -4]; [-1; 1; 100]]; map floats [[3; 4; 0]; [3; 4; 1]; [3; 4; 2]]].
Definition torc : orc vec := {| o_z := fun k n => floats [INR n + 1; -1; 3]; o_perm := fun _ => [1; 0; 2]%nat |}.
Definition ncrit : list (crit R vec) := [CEnergyTol (Fin (/ 100)); CMaxEval 100%nat; CMaxIt (Some 10%nat)].
Lemma tx0_real : forall row v, In row tx0 -> In v row -> real_point 3 v.
Proof.
  intros row v [<-|[<-|[]]] Hv; apply in_map_iff in Hv; destruct Hv as (p & <- & Hp); exists p; split; auto; destruct Hp as [<-|[<-|[<-|[]]]]; auto.
Qed.
Lemma ex_flat : forall n, Forall no_norm ncrit /\ finite_corr NoCorr /\ finite_obj 2 sqf /\ (forall p, length p = 3%nat -> flat_sqf (floats p) = sqf (floats (firstn 2 p))) /\
  sensible 3 2 tx0 (Fin 5) (Fin 1) (Fin 1) (Fin (/ 10)) (fun _ => [2; 0; 1]%nat) None /\ sensible_calls 3 (length tx0) (shape1 tx0) (bcalls torc n) /\
  map (map (firstn 2)) tx0 = cx0 /\ exists s, bsession (bcfg flat_sqf NAniso ncrit) tx0 (bcalls torc n) = Ok s.
Proof.
  intros n. split; [repeat constructor|]. split; [exact I|]. split; [apply sqf_finite|]. split.
  { intros p Hp. unfold flat_sqf, floats. rewrite firstn_map. auto. }
  split; [|split; [|split]].
  - apply bsensible; [reflexivity|reflexivity| |exact tx0_real]. intros row [<-|[<-|[]]]; reflexivity.
  - apply bcalls_sensible; [intros; eexists; split; reflexivity|intros; apply (perm_b_ok 3); reflexivity].
  - reflexivity.
  - apply bruns; [repeat constructor|intros; apply (perm_b_ok 3); reflexivity].
Qed.

(** ** (x, y) |-> (2y + 5, -x, 3y) *)
Definition exm : list coordinate := [(1%nat, (2, 5)); (0%nat, (-1, 0)); (1%nat, (3, 0))].
Definition units_sqf (v : vec) : fl R := match v with [Fin a; Fin b; Fin _] => sqf (floats [- b; (a - 5) / 2]) | _ => NaN end.
Lemma ex_units : reads 2 exm /\ (forall p, length p = 2%nat -> units_sqf (floats (coord_map exm p)) = sqf (floats p)) /\ coord_map exm [7; 8] = [21; -7; 24] /\
  coord_map (linear_part exm) [7; 8] = [16; -7; 24] /\ coord_map (selection exm) [7; 8] = [8; 7; 8].
Proof.
  split; [intros t [<-|[<-|[<-|[]]]]; cbn; lia|]. split.
  - intros [|x [|y [|]]] Hp; try discriminate. unfold coord_map, exm, units_sqf. cbn [map fst snd nth floats]. f_equal. unfold floats. cbn [map]. f_equal; [f_equal; lra|f_equal; f_equal; lra].
  - unfold coord_map, linear_part, selection, exm. cbn [map fst snd nth]. repeat split; repeat (f_equal; try lra).
Qed.

(** ** isotropic noise *)
Definition zero_f (v : vec) : fl R := Fin 0.
Local Notation iso_cfg := (cbo_cfg zero_f NIso (fun v => v) NoCorr 2 true false [] false).
Definition iso_x (d : nat) : arr vec := [[floats (repeat 1 d); floats (repeat (-1) d)]].
Definition iso_o (d : nat) : orc vec := {| o_z := fun _ _ => floats (repeat 1 d); o_perm := fun _ => [0; 1]%nat |}.
Local Notation iso_session x l := (cbo_session iso_cfg x false (Fin 1) (Fin 1) (Fin 1) (Fin 1) (fun _ => [0; 1]%nat) None [] None l).
Lemma repeat_coord : forall j d a, (j < d)%nat -> coord j (repeat a d) = a.
Proof. intros j d a H. unfold coord. revert j H. induction d; intros [|j] H; cbn; try lia; auto. apply IHd. lia. Qed.
Lemma repeat_sqnorm : forall d, sqnorm (repeat 1 d) = INR d.
Proof. induction d; [reflexivity|]. rewrite S_INR. unfold sqnorm, dot in *. cbn [repeat map2 Rsum fold_right]. unfold Rsum in IHd. rewrite IHd. ring. Qed.

Lemma iso_step : forall d, exists s, iso_session (iso_x d) [CaStep (iso_o d)] = Ok s /\
  exists q, nth_error (s_x s) 0 = Some [floats (repeat (sqrt (INR d)) d); q].
Proof.
  intros d. unfold cbo_session. set (x0 := iso_x d).
  assert (Hi : exists s, init iso_cfg x0 false (Fin 1) (Fin 1) (Fin 1) (Fin 1) (fun _ => [0; 1]%nat) None [] None = Ok s /\ s_M s = 1%nat /\ s_N s = 2%nat /\ s_active s = [0]%nat /\ s_x s = x0 /\
    s_alpha s = [[Fin 1]] /\ parameters 1 1 1 s).
  { eexists. split; [reflexivity|]. repeat split; try reflexivity. lra. }
  destruct Hi as (s & Ei & HM & HN & HA & HX & Hal & HP). rewrite Ei. cbn [bind cbo_play cbo_do].
  assert (E : exec iso_cfg s []).
  { apply ex_init. exists x0, false, (Fin 1), (Fin 1), (Fin 1), (Fin 1), (fun _ => [0; 1]%nat), None, [], None.
    split; [split; [reflexivity|repeat constructor]|]. split; [cbn; lia|]. split; [cbn; lia|].
    split; [intros; apply (perm_b_ok 2); reflexivity|]. split; [discriminate|exact Ei]. }
  assert (P : perms_valid (iso_o d) s). { intros m _. rewrite HN. apply (perm_b_ok 2). reflexivity. }
  destruct (exec_step_good iso_cfg s [] (iso_o d) E (cbo_plain _ _ _ _ _ _ _ _ _) P) as (s2 & HS). rewrite HS. cbn [bind]. exists s2. split; auto.
  set (X := [repeat 1 d; repeat (-1) d]).
  destruct (step_positions iso_cfg s [] (iso_o d) s2 0 0 (map floats X) (Fin 1) E P (cbo_one_point _ _ _ _ _ _ _ _) eq_refl HS) as (xb & cp & xr' & _ & _ & _ & HC & Hx' & _ & _ & HU).
  { rewrite HA. reflexivity. } { rewrite HX. reflexivity. } { rewrite Hal. reflexivity. }
  destruct (HU ltac:(rewrite HN; reflexivity)) as [-> HY].
  assert (HXd : forall p, In p X -> length p = d) by (intros p [<-|[<-|[]]]; apply repeat_length).
  assert (CF := ccrow_finite zero_f NIso (fun v => v) 2 true false [] false d X 1 ltac:(intros p Hp; exists 0; reflexivity) ltac:(cbn; lia) HXd).
  set (g := gibbs_point 1 (map zero_f (map floats X)) d X) in *.
  assert (Hcp : cp = floats g) by (apply (f_equal (fun l => nth 0 l [])) in CF; apply (f_equal (fun l => nth 0 l [])) in HC; exact (eq_trans (eq_sym HC) CF)).
  assert (Hg : g = repeat 0 d).
  { apply (coord_ext _ _ d); [apply gibbs_point_length|apply repeat_length|]. intros j Hj. rewrite repeat_coord by auto. unfold g, gibbs_point, coord. rewrite nth_map_seq by auto.
    unfold gibbs_mean, X. cbn [map combine fst snd]. fold (coord j). rewrite !repeat_coord by auto. unfold zero_f, Rdiv. cbn [Rsum fold_right]. ring. }
  rewrite Hx', HY, Hcp. clearbody g. exists (floats (rmove NIso 1 1 1 g (repeat (-1) d) (repeat 1 d))). do 2 f_equal.
  unfold X. cbn [map mapi mapi_from]. cbn [iso_o o_z].
  change (c_pp iso_cfg) with (fun v : vec => v). cbv beta. rewrite !(moved_floats zero_f NIso (fun v => v) 2 true false [] false s 1 1 1) by auto. f_equal. f_equal.
  apply (coord_ext _ _ d); [apply length_rmove; rewrite ?Hg; apply repeat_length|apply repeat_length|]. intros j Hj.
  rewrite (coord_rmove _ _ _ _ _ _ _ _ d) by (rewrite ?Hg; apply repeat_length). rewrite Hg, !repeat_coord by auto.
  unfold rnoise. rewrite !coord_vscal, repeat_coord, sqrt_1 by auto.
  replace (vsub (repeat 1 d) (repeat 0 d)) with (repeat 1 d).
  - unfold vnorm. rewrite repeat_sqnorm. ring.
  - apply (coord_ext _ _ d); [apply repeat_length|apply length_vsub; apply repeat_length|]. intros i Hi. rewrite coord_vsub by (rewrite !repeat_length; auto). rewrite !repeat_coord by auto. ring.
Qed.
Lemma iso_refuted : exists (f f' : vec -> fl R) x0 l s s',
  finite_obj 1 f' /\ (forall p, length p = 2%nat -> f (floats p) = f' (floats (firstn 1 p))) /\
  sensible 2 2 x0 (Fin 1) (Fin 1) (Fin 1) (Fin 1) (fun _ => [0; 1]%nat) None /\ sensible_calls 2 (length x0) (shape1 x0) l /\
  cbo_session (cbo_cfg f NIso (fun v => v) NoCorr 2 true false [] false) x0 false (Fin 1) (Fin 1) (Fin 1) (Fin 1) (fun _ => [0; 1]%nat) None [] None l = Ok s /\
  cbo_session (cbo_cfg f' NIso (fun v => v) NoCorr 2 true false [] false) (map (map (firstn 1)) x0) false (Fin 1) (Fin 1) (Fin 1) (Fin 1) (fun _ => [0; 1]%nat) None [] None (map (change_draws (firstn 1)) l) = Ok s' /\
  s_x s' <> map (map (firstn 1)) (s_x s).
Proof.
  destruct (iso_step 2) as (s & HS & q & Hq). destruct (iso_step 1) as (s' & HS' & q' & Hq').
  exists zero_f, zero_f, (iso_x 2), [CaStep (iso_o 2)], s, s'.
  split; [intros p _; exists 0; reflexivity|]. split; [reflexivity|]. split.
  { split; [split; [reflexivity|repeat constructor]|]. split; [cbn; lia|]. split; [cbn; lia|]. split; [intros; apply (perm_b_ok 2); reflexivity|]. split; [discriminate|].
    split; [intros row v [<-|[]] [<-|[<-|[]]]; eexists; split; reflexivity|]. unfold finite_scalar, time_step. repeat split; eauto. eexists. split; eauto. lra. }
  split. { cbn [sensible_calls]. split; [intros; eexists; split; reflexivity|]. split; [intros; apply (perm_b_ok 2); reflexivity|exact I]. }
  split; [exact HS|]. split.
  { change (map (map (firstn 1)) (iso_x 2)) with (iso_x 1). change (map (change_draws (firstn 1)) [CaStep (iso_o 2)]) with [CaStep (K := R) (iso_o 1)]. exact HS'. }
  intros Heq.
  assert (H1 := map_nth_error (map (firstn 1)) _ _ Hq). rewrite <- Heq in H1. rename Heq into H0. assert (Heq := eq_trans (eq_sym H1) Hq').
  cbn [option_map map] in Heq. clear - Heq. set (r1 := sqrt (INR 1)) in *. set (r2 := sqrt (INR 2)) in *. cbn [repeat floats map firstn] in Heq.
  assert (H : r1 = r2) by congruence. unfold r1, r2 in H. apply sqrt_inj in H; cbn; cbn in H; lra.
Qed.
