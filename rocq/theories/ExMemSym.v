(** * Concrete sessions of CBOMemory and PSO *)
From Coq Require Import String List Arith Bool Reals Permutation Lia Lra.
From Verif Require Import Scalar Np NpFacts State Pdyn PdynFacts PdynStep PdynOk Exec Script TermSpec TermFacts RVec RVecFacts Consensus ConsSpec ConsFacts PostProc Cbo CboSpec CboFacts ExCbo
  Memory MemSpec MemFacts2 MemFacts3 MemRaise TwinSpec SimSpec MemSymSpec ExMemRun.
Import ListNotations.
Open Scope R_scope.

(** correction factor 1 or 0, all four built-in criteria, two runs of three particles *)
Definition sfac (z : fl R) : fl R := if fltb (Fin 0) z then Fin 1 else Fin 0.
Definition scrit : list (crit R vec) := [CEnergyTol (Fin (/ 100)); CDiffTol (Fin (/ 100)); CMaxEval 100%nat; CMaxIt (Some 10%nat)].
Definition scfg (f : vec -> fl R) (k : noise_model) (ks : list (crit R vec)) : cfg R vec := cbo_cfg f k (fun v => v) (Heavi sfac) 3 false false ks false.
Definition sstep : mcall (K := R) (V := vec) := McStep (epar (2 / 5)) corc ez2.
(** new parameters, n steps, one termination check and a reset *)
Definition scalls (n : nat) : list (mcall (K := R) (V := vec)) :=
  McParameters (Fin 7) (Fin 1) (Fin 1) (Fin (/ 5)) :: repeat sstep n ++ [McTerminate; McReset].
Definition ssession (kd : mkind) (c : cfg R vec) (x : arr vec) (l : list (mcall (K := R) (V := vec))) : res (mst R vec) :=
  mem_session kd c x false (Fin 5) (Fin 1) (Fin 1) (Fin (/ 10)) (fun _ => [2; 0; 1]%nat) (Some ["x"; "energy"]%string) [] None l.

Lemma scrit_builtin : Forall builtin scrit.
Proof. repeat constructor. Qed.
Lemma sfac_finite : finite_corr (Heavi sfac).
Proof. intros z _. unfold sfac, finite_scalar. destruct (fltb (Fin 0) z); eauto. Qed.
Lemma cx0_real : forall row v, In row cx0 -> In v row -> real_point 2 v.
Proof.
  intros row v [<-|[<-|[]]] Hv.
  - apply in_map_iff in Hv. destruct Hv as (p & <- & Hp). exists p. split; auto. destruct Hp as [<-|[<-|[<-|[]]]]; auto.
  - apply repeat_spec in Hv. subst. exists [3; 4]. auto.
Qed.
Lemma ssensible : sensible 2 3 cx0 (Fin 5) (Fin 1) (Fin 1) (Fin (/ 10)) (fun _ => [2; 0; 1]%nat) None.
Proof.
  split; [split; [reflexivity|repeat constructor]|]. split; [cbn; lia|]. split; [cbn; lia|].
  split; [intros; apply (perm_b_ok 3); reflexivity|]. split; [discriminate|]. split; [apply cx0_real|].
  unfold finite_scalar, time_step. repeat split; eauto. eexists. split; eauto. lra.
Qed.
Lemma scalls_finite : forall kd n, finite_calls kd 2 (length cx0) (shape1 cx0) (Fin (/ 10)) (scalls n).
Proof.
  intros kd n. cbn [scalls finite_calls]. split.
  { unfold finite_scalar, time_step. repeat split; eauto. eexists. split; eauto. lra. }
  induction n as [|n IH]; [exact I|]. cbn [repeat app finite_calls sstep].
  split. { exists (2 / 5), 0, 1, 2. split; [reflexivity|]. intros _ t E. injection E as <-. lra. }
  split. { intros i j. eexists. split; reflexivity. }
  split. { intros i j. eexists. split; reflexivity. }
  split; auto. intros m _. apply (perm_b_ok 3). reflexivity.
Qed.

Section Runs.
  Variables (kd : mkind) (f : vec -> fl R) (k : noise_model) (ks : list (crit R vec)).
  Hypothesis Hb : Forall builtin ks.
  Let c : cfg R vec := scfg f k ks.

  Lemma steps_run : forall n ms log, mem_exec kd c ms log -> s_M (m_s ms) = 2%nat -> s_N (m_s ms) = 3%nat -> s_active (m_s ms) = [0; 1]%nat ->
    forall l, (forall ms' log', mem_exec kd c ms' log' -> exists r, mem_play kd c l ms' = Ok r) -> exists r, mem_play kd c (repeat sstep n ++ l) ms = Ok r.
  Proof.
    induction n as [|n IH]; intros ms log E HM HN HA l Hl; [apply (Hl ms log E)|].
    cbn [repeat app mem_play mem_do sstep]. rewrite HA.
    assert (PV : perms_valid corc (m_s ms)). { intros m _. rewrite HN. apply (perm_b_ok 3). reflexivity. }
    destruct (mem_works kd c (epar (2 / 5)) corc ez2 ms log E PV ltac:(intros ? ? ?; reflexivity)) as (ms3 & Hst).
    { rewrite HA. discriminate. } { rewrite HA, HM. reflexivity. } { left. rewrite HN. reflexivity. }
    rewrite Hst. cbn [bind].
    destruct (mem_step_ok _ _ _ _ _ _ _ (mem_exec_wf _ _ _ _ E) (perms_valid_ok _ _ PV) ltac:(rewrite HA; discriminate) Hst) as (_ & _ & _ & B4 & B5 & B6 & _ & _ & _ & _ & B11 & _).
    eapply (IH ms3); [eapply mx_step; eauto; rewrite HA; discriminate| | | |auto]; congruence.
  Qed.

  Lemma srun : forall n, exists ms, ssession kd c cx0 (scalls n) = Ok ms.
  Proof.
    intros n. unfold ssession, mem_session.
    assert (Hm : exists ms, mem_init c cx0 false (Fin 5) (Fin 1) (Fin 1) (Fin (/ 10)) (fun _ => [2; 0; 1]%nat) (Some ["x"; "energy"]%string) [] None = Ok ms /\
      s_M (m_s ms) = 2%nat /\ s_N (m_s ms) = 3%nat /\ s_active (m_s ms) = [0; 1]%nat).
    { unfold mem_init. assert (Hi : exists s, init c cx0 false (Fin 5) (Fin 1) (Fin 1) (Fin (/ 10)) (fun _ => [2; 0; 1]%nat) (Some ["x"; "energy"]%string) [] None = Ok s /\ s_M s = 2%nat /\ s_N s = 3%nat /\ s_active s = [0; 1]%nat).
      { eexists. split; [reflexivity|]. split; [reflexivity|]. split; reflexivity. }
      destruct Hi as (s & -> & H1 & H2 & H3). cbn [bind]. eexists. split; [reflexivity|]. cbn [m_s]. sst. auto. }
    destruct Hm as (ms & Em & HM & HN & HA). rewrite Em. cbn [bind scalls mem_play mem_do].
    assert (HC : mem_constructed c ms).
    { exists cx0, false, (Fin 5), (Fin 1), (Fin 1), (Fin (/ 10)), (fun _ => [2; 0; 1]%nat), (Some ["x"; "energy"]%string), [], None.
      split; [split; [reflexivity|repeat constructor]|]. split; [cbn; lia|]. split; [cbn; lia|].
      split; [intros; apply (perm_b_ok 3); reflexivity|]. split; [discriminate|exact Em]. }
    unfold on_state. eapply steps_run.
    - apply mx_params; [apply mx_init; exact HC|]. eexists _, _, _, _. split; [|reflexivity].
      intros _. split; [apply repeat_length|]. apply Forall_forall. intros r Hr. apply repeat_spec in Hr. subst. reflexivity.
    - cbn [m_s]. sst. auto.
    - cbn [m_s]. sst. auto.
    - cbn [m_s]. sst. auto.
    - intros ms' log' E. cbn [mem_play mem_do].
      destruct (mem_exec_wf _ _ _ _ E) as [W _ _]. destruct (terminate_total c (m_s ms') W Hb) as (bb & s' & ->). cbn [bind]. eauto.
  Qed.
End Runs.

Lemma ex_shift : forall kd n, Forall builtin scrit /\ finite_corr (Heavi sfac) /\ finite_obj 2 sqf /\
  sensible 2 3 cx0 (Fin 5) (Fin 1) (Fin 1) (Fin (/ 10)) (fun _ => [2; 0; 1]%nat) None /\ finite_calls kd 2 (length cx0) (shape1 cx0) (Fin (/ 10)) (scalls n) /\
  exists ms, ssession kd (scfg sqf NAniso scrit) cx0 (scalls n) = Ok ms.
Proof.
  intros kd n. split; [apply scrit_builtin|]. split; [apply sfac_finite|]. split; [apply sqf_finite|]. split; [apply ssensible|]. split; [apply scalls_finite|].
  apply srun. apply scrit_builtin.
Qed.

(** the quadratic moved to (5,6); post-processing: clipping to [-3,3]^2 and to the moved square *)
Definition clip (lo hi : R) (a : fl R) : fl R := match a with Fin r => Fin (Rmax lo (Rmin hi r)) | z => z end.
Definition box (v : vec) : vec := map (clip (-3) 3) v.
Definition moved_box (v : vec) : vec := match v with [a; b] => [clip 2 8 a; clip 3 9 b] | _ => v end.
Definition moved_sqf (v : vec) : fl R := match v with [Fin a; Fin b] => sqf [Fin (a - 5); Fin (b - 6)] | _ => Fin 0 end.
Lemma ex_translation : length [5; 6] = 2%nat /\ (forall p, length p = 2%nat -> moved_sqf (floats (vadd p [5; 6])) = sqf (floats p)) /\
  (forall p, length p = 2%nat -> exists q, box (floats p) = floats q /\ length q = 2%nat /\ moved_box (floats (vadd p [5; 6])) = floats (vadd q [5; 6])).
Proof.
  split; [reflexivity|]. split.
  - intros [|a [|b [|]]] Hp; try discriminate. cbn [vadd map2 floats map moved_sqf]. change (sqf (floats [a + 5 - 5; b + 6 - 6]) = sqf (floats [a; b])).
    replace (a + 5 - 5) with a by ring. replace (b + 6 - 6) with b by ring. reflexivity.
  - intros [|a [|b [|]]] Hp; try discriminate. exists [Rmax (-3) (Rmin 3 a); Rmax (-3) (Rmin 3 b)]. split; [reflexivity|]. split; [reflexivity|].
    assert (Q : forall lo hi lo' hi' u t, lo' = lo + t -> hi' = hi + t -> Rmax lo' (Rmin hi' (u + t)) = Rmax lo (Rmin hi u) + t).
    { intros lo hi lo' hi' u t -> ->. unfold Rmin. destruct (Rle_dec (hi + t) (u + t)), (Rle_dec hi u); try lra; unfold Rmax; destruct (Rle_dec (lo + t) _), (Rle_dec lo _); lra. }
    cbn [vadd map2 floats map moved_box clip]. rewrite (Q (-3) 3 2 8), (Q (-3) 3 3 9) by lra. reflexivity.
Qed.

(** a quarter turn keeps the quadratic and the square [-3,3]^2 *)
Definition turn : list (list R) := [[0; -1]; [1; 0]].
Lemma ex_rotation : isometry 2 turn /\ (forall p, length p = 2%nat -> sqf (floats (map (fun r => dot r p) turn)) = sqf (floats p)) /\
  (forall p, length p = 2%nat -> exists q, box (floats p) = floats q /\ length q = 2%nat /\ box (floats (map (fun r => dot r p) turn)) = floats (map (fun r => dot r q) turn)).
Proof.
  split; [|split].
  - split; [reflexivity|]. split; [intros r [<-|[<-|[]]]; reflexivity|].
    intros [|a [|b [|]]] Hp; try discriminate. unfold sqnorm, dot. cbn. ring.
  - intros [|a [|b [|]]] Hp; try discriminate. rewrite !sqf_floats. f_equal. unfold sqnorm, dot. cbn. ring.
  - intros [|a [|b [|]]] Hp; try discriminate. exists [Rmax (-3) (Rmin 3 a); Rmax (-3) (Rmin 3 b)]. split; [reflexivity|]. split; [reflexivity|].
    assert (Q : forall u, Rmax (-3) (Rmin 3 (- u)) = - Rmax (-3) (Rmin 3 u)).
    { intros u. unfold Rmin. destruct (Rle_dec 3 (- u)), (Rle_dec 3 u); try lra; unfold Rmax; destruct (Rle_dec (-3) _); try destruct (Rle_dec (-3) _); lra. }
    unfold box, floats, turn, dot. cbn [map map2 Rsum fold_right clip].
    replace (0 * a + (-1 * b + 0)) with (- b) by ring. replace (1 * a + (0 * b + 0)) with a by ring. rewrite Q.
    f_equal; [f_equal; ring|f_equal; f_equal; ring].
Qed.
