(** * Cases for what optimize prints *)
From Coq Require Import String List Arith Bool Reals ZArith Permutation Lia Lra.
From Verif Require Import Scalar Np State Pdyn Exec TermSpec TermFacts RunFacts PdynOk Script RVec ConsSpec Cbo CboSpec CboFacts ExZ Optimize OptimizeSpec OptimizeFacts Printing PrintSpec PrintFacts.
Import ListNotations.
Open Scope nat_scope.
Open Scope list_scope.

(** the square of a real number, +inf for anything else *)
Definition pf (v : vec) : fl R := match v with [Fin a] => Fin (a * a)%R | _ => PInf end.
Definition pcfg : cfg R vec := cbo_cfg pf NIso (fun v => v) NoCorr 2 true false [CMaxIt (Some 3)] false.
Definition px0 : arr vec := [[[Fin 3]; [Fin (-1)]; [Fin 2]]; [[Fin 0]; [Fin 4]; [Fin 5]]]%R.
Definition porc : orc vec := {| o_z := fun k n => [Fin (INR n)]; o_perm := fun _ => [1; 0; 2] |}.
Lemma pf_no_nan : no_nan pcfg.
Proof. intros v. cbn. destruct v as [|[] [|]]; reflexivity. Qed.
Lemma pstart : exists s, exec pcfg s [] /\ s_M s = 2 /\ s_N s = 3 /\ s_it s = 0 /\ s_t s = Fin 0%R /\ s_dt s = Fin (/ 10)%R /\ plain pcfg (s_N s) /\ in_range (fun _ => porc) s.
Proof.
  eexists. split; [|split; [|split; [|split; [|split; [|split; [|split]]]]]].
  - apply ex_init. exists px0, false, (Fin 1%R), (Fin 1%R), (Fin 1%R), (Fin (/ 10)%R), (fun _ => [2; 0; 1]), None, [], None.
    split; [split; [reflexivity|repeat constructor]|]. split; [cbn; lia|]. split; [cbn; lia|]. split; [|split; [discriminate|reflexivity]]. intros m _. apply (perm_b_ok 3). reflexivity.
  - reflexivity.
  - reflexivity.
  - reflexivity.
  - reflexivity.
  - reflexivity.
  - apply cbo_plain; reflexivity.
  - intros i m _. apply (perm_b_ok 3). reflexivity.
Qed.
(** three steps; times printed after the first and the third *)
Lemma prun : forall pi, pi <> Some 0 -> exists s s' l, exec pcfg s [] /\ no_nan pcfg /\ s_it s = 0 /\ s_t s = Fin 0%R /\ s_dt s = Fin (/ 10)%R /\ in_range (fun _ => porc) s /\
  optimize_shown pcfg (step pcfg) true 2 pi SDefault (fun _ => porc) 3 s = (l, Some (Ok (s_bp s', s'))) /\ s_it s' = 3 /\ length (s_be s) = 2 /\ length (s_be s') = 2.
Proof.
  intros pi Hpi. destruct pstart as (s & E & HM & HN & I & T & D & G & IR).
  assert (HP : 1 <= match pi with Some p => p | None => s_save s end). { destruct pi as [[|]|]; [congruence|lia|]. pose proof (exec_wf _ _ _ E) as W. apply PdynStep.w_save in W. lia. }
  destruct (default_term pcfg true (fun _ => porc) 3 s [] 3 E ltac:(lia) G IR eq_refl ltac:(lia)) as (s' & H & I').
  assert (H2 : optimize pcfg (step pcfg) true pi SDefault (fun _ => porc) 3 s = Some (Ok (s_bp s', s'))).
  { rewrite optimize_is_loop by auto. rewrite optimize_is_loop in H by (pose proof (exec_wf _ _ _ E) as W; apply PdynStep.w_save in W; lia). exact H. }
  rewrite <- (shown_result pcfg (step pcfg) true 2) in H2. destruct (optimize_shown pcfg (step pcfg) true 2 pi SDefault (fun _ => porc) 3 s) as [l r] eqn:EQ. cbn [snd] in H2. subst r.
  exists s, s', l. split; auto. split; [exact pf_no_nan|]. split; auto. split; auto. split; auto. split; auto. split; auto. rewrite I in I'. split; [exact I'|].
  destruct (optimize_frame _ _ _ _ _ _ _ _ _ _ (Logic.I : standard SDefault) E IR H) as (log & X' & HM' & _).
  split; [rewrite (PdynStep.w_be _ _ (exec_wf _ _ _ E)); auto|rewrite (PdynStep.w_be _ _ (exec_wf _ _ _ X')); congruence].
Qed.
Lemma prun_times : exists s s' l, exec pcfg s [] /\ optimize_shown pcfg (step pcfg) true 2 (Some 2) SDefault (fun _ => porc) 3 s = (l, Some (Ok (s_bp s', s'))) /\ times l = [Fin (/ 10)%R; Fin (3 / 10)%R].
Proof.
  destruct (prun (Some 2) ltac:(discriminate)) as (s & s' & l & E & _ & I & T & D & _ & H & I' & _). exists s, s', l. split; auto. split; auto.
  rewrite (shown_times pcfg 2 (Some 2) SDefault (fun _ => porc) 3 s s' l _ _ _ Logic.I ltac:(lia) T D H). rewrite I, I'. cbn [seq Nat.sub Nat.add filter Nat.modulo Nat.divmod snd Nat.eqb map]. cbn.
  f_equal; [f_equal; lra|]. f_equal. f_equal. lra.
Qed.

Lemma prun_raises : exists s l, exec pcfg s [] /\ optimize_shown pcfg (step pcfg) true 2 (Some 0) SDefault (fun _ => porc) 3 s = (l, Some (Err ZeroDivision)).
Proof.
  destruct pstart as (s & E & HM & HN & I & T & D & G & IR).
  destruct (terminate_total pcfg s (exec_wf _ _ _ E)) as (b & s1 & HT); [repeat constructor|].
  assert (b = false).
  { destruct b; auto. destruct (terminate_spec _ _ _ _ (exec_wf _ _ _ E) HT) as (_ & Hb & _). destruct Hb as [Hb _]. specialize (Hb eq_refl 0 ltac:(lia)).
    unfold meets_some in Hb. cbn in Hb. rewrite I in Hb. discriminate Hb. }
  subst b. destruct (iteration pcfg (default_sched true) s false s1 porc (exec_wf _ _ _ E) G) as (s3 & s4 & E3 & E4 & _); try apply default_total; auto.
  { eapply perms_valid_frame; [| |apply (IR 0)]; apply (term_frame _ _ _ _ HT). }
  pose proof (print_zero pcfg (step pcfg) true SDefault (fun _ => porc) 2 s s1 s3 s4 HT E3 E4) as R0. rewrite <- (shown_result pcfg (step pcfg) true 2) in R0.
  destruct (optimize_shown pcfg (step pcfg) true 2 (Some 0) SDefault (fun _ => porc) 3 s) as [l0 r0] eqn:EQ. cbn [snd] in R0. exists s, l0. split; auto. rewrite EQ. congruence.
Qed.

(** lamda dt = 2: the particle at 4 jumps over the consensus 0 to -4 *)
Definition zc1 : cfg Z Z := zcfg (fun v => Fin v) NoCorr 2 true false [].
Lemma zstep1 : exists s s', constructed zc1 s /\ perms_valid (zorc 0 [0; 1]) s /\ c_bsize zc1 = s_N s /\ s_active s = [0] /\ step zc1 (zorc 0 [0; 1]) s = Ok s' /\
  s_x s = [[4%Z; 0%Z]] /\ s_fmin s' = [Fin 0%Z] /\ s_x s' = [[(-4)%Z; 0%Z]].
Proof.
  destruct (init zc1 [[4%Z; 0%Z]] false (Fin 1%Z) (Fin 0%Z) (Fin 2%Z) (Fin 1%Z) (fun _ => [0; 1]) None [] None) as [s|] eqn:I; [|discriminate I].
  destruct (step zc1 (zorc 0 [0; 1]) s) as [s'|] eqn:S1; [|vm_compute in I; injection I as <-; vm_compute in S1; discriminate S1].
  exists s, s'. split. { exists [[4%Z; 0%Z]], false, (Fin 1%Z), (Fin 0%Z), (Fin 2%Z), (Fin 1%Z), (fun _ => [0; 1]), None, [], None.
    split; [split; [reflexivity|repeat constructor]|]. split; [cbn; lia|]. split; [cbn; lia|]. split; [intros; apply (perm_b_ok 2); reflexivity|]. split; [discriminate|exact I]. }
  vm_compute in I. injection I as <-. vm_compute in S1. injection S1 as <-. split; [intros m _; apply (perm_b_ok 2); reflexivity|]. repeat split.
Qed.
