(** * CBO with a projection as post-processing: examples *)
From Coq Require Import String List Arith Bool Reals Lia Lra.
From Verif Require Import Scalar Np NpFacts RFacts State Pdyn PdynFacts PdynStep PdynRun PdynOk Exec BestFacts RunFacts MoveFacts RVec RVecFacts
  Consensus ConsSpec ConsFacts PostProc Cbo CboSpec CboFacts ExCbo MirrorMaps MirrorSpec MirrorFacts MirrorProj MirrorDyn Prox ProxSpec ProxFacts.
Import ListNotations.
Open Scope R_scope.

(** squared distance to (3,4); no NaN *)
Definition pf (v : vec) : fl R := match fsum (map2 (fun a b => fmul (fsub a b) (fsub a b)) v (floats [3; 4])) with NaN => PInf | y => y end.
Lemma pf_floats : forall a b, pf (floats [a; b]) = Fin ((a - 3) * (a - 3) + ((b - 4) * (b - 4) + 0)).
Proof. reflexivity. Qed.
Lemma two : forall p : list R, length p = 2%nat -> exists a b, p = [a; b].
Proof. intros [|a [|b [|]]] H; try discriminate. eauto. Qed.
Lemma pf_finite : finite_obj 2 pf.
Proof. intros p Hp. destruct (two p Hp) as (a & b & ->). rewrite pf_floats. eauto. Qed.
Definition pc (r : R) : cfg R vec := prox_cfg pf NAniso (ProjectionBall r [0]) 3 false false [] false.
Lemma pf_no_nan : forall r, no_nan (pc r).
Proof. intros r v. cbn. unfold pf. destruct (fsum _); reflexivity. Qed.
Lemma ball2 : forall r a b, 0 <= r -> (ball r (along 2 [0]) [a; b] <-> a * a + b * b <= r * r).
Proof.
  intros r a b Hr. unfold ball, dist, vnorm, sqnorm, dot, vsub, Rsum. cbn.
  replace ((a - 0) * (a - 0) + ((b - 0) * (b - 0) + 0)) with (a * a + b * b) by ring.
  assert (H0 : 0 <= a * a + b * b) by nra. split; intros H.
  - rewrite <- (sqrt_sqrt (a * a + b * b)) by auto. pose proof (sqrt_pos (a * a + b * b)). nra.
  - rewrite <- (sqrt_square r) by auto. apply sqrt_le_1; auto. nra.
Qed.
Lemma pf_beats : forall p, length p = 2%nat -> ball 1 (along 2 [0]) p -> fltb (pf (floats [3; 4])) (pf (floats p)) = true.
Proof.
  intros p Hp B. destruct (two p Hp) as (a & b & ->). apply ball2 in B; [|lra]. rewrite !pf_floats. cbn [fltb kltb KOps_R].
  apply Rltb_true. assert (b <= 1) by nra. nra.
Qed.

Lemma ex_start : forall r, exists s, constructed (pc r) s /\ perms_valid corc s /\ finite_alpha s /\ finite_parameters s /\ s_M s = 2%nat /\
  ensemble_at s 0 2 cX /\ ensemble_at s 1 2 (repeat [3; 4] 3) /\ s_active s = [0; 1]%nat.
Proof.
  intros r. destruct (cinit_ok (pc r) 1 1 (1/2) 1) as (s & Hi & E & HM & HN & HA & HP & HF & HPa & H0 & H1 & _ & Hx); [cbn; lia|lra|].
  exists s. split; [|split; [auto|split; [auto|split; [exists 1, (1/2), 1; auto|split; [auto|split; [auto|split; [|auto]]]]]]].
  - exists cx0, false, (Fin 1), (Fin 1), (Fin 1), (Fin (1/2)), (fun _ => [2; 0; 1]%nat), None, [], None.
    split; [split; [reflexivity|repeat constructor]|]. split; [cbn; lia|]. split; [cbn; lia|].
    split; [intros m _; apply (Script.perm_b_ok 3); reflexivity|]. split; [discriminate|]. exact Hi.
  - split; [rewrite Hx; reflexivity|]. split; [rewrite HN; reflexivity|]. intros p Hp. apply repeat_spec in Hp. subst. reflexivity.
Qed.

Lemma ex_step_of : forall r s, constructed (pc r) s -> perms_valid corc s -> exists s', step (pc r) corc s = Ok s'.
Proof. intros r s HC HP. apply (exec_step_good (pc r) s [] corc); auto. apply ex_init; auto. apply cbo_plain. Qed.

(** start outside the ball of radius 1, one step: all particles are in the ball, the best particle is not *)
Lemma ex_outside : exists s log bp, exec (pc 1) s log /\ all_in (ball 1 (along 2 [0])) s 2 /\ In (1%nat, floats [3; 4]) log /\
  nth_error (s_bp s) 1 = Some bp /\ ~ point_of (ball 1 (along 2 [0])) 2 bp.
Proof.
  destruct (ex_start 1) as (s & HC & HP & HA & HPa & HM & H0 & H1 & Hact). destruct (ex_step_of 1 s HC HP) as (s' & HS).
  pose proof (ex_init _ _ HC) as E. pose proof (exec_wf _ _ _ E) as W.
  assert (E' : exec (pc 1) s' ([] ++ evaluated s s')) by (eapply ex_step; eauto).
  assert (Hin : In (1%nat, floats [3; 4]) (evaluated s s')).
  { apply (in_evaluated (pc 1) corc s s' 1 _ W (perms_valid_ok _ _ HP) HS). split; [rewrite Hact; cbn; auto|].
    destruct H1 as [H1 L1]. exists (map floats (repeat [3; 4] 3)). eexists. split; [exact H1|]. split.
    - unfold run_sel. replace (c_bsize (pc 1) =? s_N s)%nat with true. 2:{ symmetry. apply Nat.eqb_eq. rewrite <- (proj1 L1). reflexivity. }
      rewrite <- (proj1 L1). reflexivity.
    - cbn. auto. }
  assert (Hbp : exists be bp, nth_error (s_be s') 1 = Some be /\ nth_error (s_bp s') 1 = Some bp).
  { pose proof (exec_wf _ _ _ E') as W'. destruct (step_keeps _ _ _ _ _ _ _ _ s [] corc s' E HP HS) as (K1 & _).
    destruct (row_at_Some (pc 1) s' 1 W') as (rr & Hr & _); [lia|]. unfold row_at in Hr.
    destruct (nth_error (s_x s') 1); [|discriminate]. destruct (nth_error (s_energy s') 1); [|discriminate].
    destruct (nth_error (s_alpha s') 1); [|discriminate]. destruct (nth_error (s_be s') 1); [|discriminate].
    destruct (nth_error (s_bp s') 1); [|discriminate]. eauto. }
  destruct Hbp as (be & bp & Hbe & Hbp). exists s', ([] ++ evaluated s s'), bp. split; auto. split; [|split; [auto|split; [auto|]]].
  - apply (step_all pf NAniso (apply_prox (ProjectionBall 1 [0])) 3 false false [] false (ball 1 (along 2 [0])) 2 s [] corc s' (fun _ => True)); auto.
    + exact corc_finite. + exact pf_finite. + apply ball_lands; [lra|auto].
    + intros m Hm. rewrite HM in Hm. destruct m as [|[|m]]; [eexists; split; [exact H0|auto]|eexists; split; [exact H1|auto]|lia].
  - eapply (best_outside pf NAniso (apply_prox (ProjectionBall 1 [0])) 3 false false [] false); eauto. apply pf_no_nan. exact pf_beats.
Qed.

(** start inside the ball of radius 5, one step *)
Lemma ex_inside : exists s0 s log, constructed (pc 5) s0 /\ finite_alpha s0 /\ finite_parameters s0 /\ finite_obj 2 pf /\
  lands_in (ball 5 (along 2 [0])) 2 (apply_prox (ProjectionBall 5 [0])) /\ no_nan (pc 5) /\ all_in (ball 5 (along 2 [0])) s0 2 /\
  history_from (pc 5) 2 s0 s log /\ In (1%nat, floats [3; 4]) log.
Proof.
  destruct (ex_start 5) as (s & HC & HP & HA & HPa & HM & H0 & H1 & Hact). destruct (ex_step_of 5 s HC HP) as (s' & HS).
  pose proof (ex_init _ _ HC) as E. pose proof (exec_wf _ _ _ E) as W.
  exists s, s', ([] ++ evaluated s s'). split; auto. split; auto. split; auto. split; [exact pf_finite|]. split; [apply ball_lands; [lra|auto]|].
  split; [apply pf_no_nan|]. split; [|split].
  - intros m Hm. rewrite HM in Hm. destruct m as [|[|m]]; [eexists; split; [exact H0|]|eexists; split; [exact H1|]|lia].
    + intros p [<-|[<-|[<-|[]]]]; apply ball2; lra.
    + intros p Hp. apply repeat_spec in Hp. subst. apply ball2; lra.
  - eapply hf_step; [apply hf_start|exact HP|exact corc_finite|exact HS].
  - apply (in_evaluated (pc 5) corc s s' 1 _ W (perms_valid_ok _ _ HP) HS). split; [rewrite Hact; cbn; auto|].
    destruct H1 as [H1 L1]. exists (map floats (repeat [3; 4] 3)). eexists. split; [exact H1|]. split.
    + unfold run_sel. replace (c_bsize (pc 5) =? s_N s)%nat with true. 2:{ symmetry. apply Nat.eqb_eq. rewrite <- (proj1 L1). reflexivity. }
      rewrite <- (proj1 L1). reflexivity.
    + cbn. auto.
Qed.

(** one run started at the origin, post-processed to the unit sphere *)
Definition oc : cfg R vec := prox_cfg sqf NAniso (ProjectionSphere 1) 3 false false [] false.
Lemma ex_origin : exists s s', exec oc s [] /\ perms_valid corc s /\ finite_draws 2 corc /\ finite_alpha s /\ finite_parameters s /\
  (exists y, sqf (floats (repeat 0 2)) = Fin y) /\ step oc corc s = Ok s' /\ all_at s 0 (repeat 0 2).
Proof.
  assert (H : exists s, init oc [repeat (floats [0; 0]) 3] false (Fin 1) (Fin 1) (Fin 1) (Fin (1/2)) (fun _ => [2; 0; 1]%nat) None [] None = Ok s /\
    perms_valid corc s /\ finite_alpha s /\ finite_parameters s /\ all_at s 0 [0; 0]).
  { eexists. split; [reflexivity|]. split; [|split; [|split]].
    - intros m _. apply (Script.perm_b_ok 3). reflexivity.
    - intros m Hm. cbn in Hm. replace m with 0%nat by lia. exists 1; reflexivity.
    - exists 1, (1/2), 1. split; [reflexivity|]. split; [reflexivity|]. split; [reflexivity|lra].
    - reflexivity. }
  destruct H as (s & Hi & HP & HA & HPa & Hat).
  assert (HC : constructed oc s).
  { exists [repeat (floats [0; 0]) 3], false, (Fin 1), (Fin 1), (Fin 1), (Fin (1/2)), (fun _ => [2; 0; 1]%nat), None, [], None.
    split; [split; [reflexivity|repeat constructor]|]. split; [cbn; lia|]. split; [cbn; lia|].
    split; [intros m _; apply (Script.perm_b_ok 3); reflexivity|]. split; [discriminate|]. exact Hi. }
  destruct (exec_step_good oc s [] corc (ex_init _ _ HC) (cbo_plain _ _ _ _ _ _ _ _ _) HP) as (s' & HS).
  exists s, s'. split; [apply ex_init; auto|]. split; auto. split; [exact corc_finite|]. split; auto. split; auto.
  split; [rewrite sqf_floats; eauto|]. split; auto.
Qed.
