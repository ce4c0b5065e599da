(** * The stagnation criterion: examples *)
From Coq Require Import List Arith Bool Reals Lra Lia.
From Verif Require Import Scalar Np State Pdyn PdynFacts PdynStep Exec RVec RVecFacts CboSpec CboFacts Script Stagnation StagSpec StagTermFacts.
Import ListNotations.
Open Scope nat_scope.

(** positions are booleans: particles stay at false with energy +inf, the consensus point is true with energy 0 *)
Definition gc (bs : nat) (row : list bool) : cfg R bool :=
  {| c_f := fun b : bool => if b then Fin 0%R else PInf; c_vadd := fun a _ => a; c_vsub := fun a _ => a; c_vscale := fun _ a => a;
     c_norm := fun _ => Fin 0%R; c_dmean := fun _ => Fin 0%R; c_ccrow := fun e x a => row; c_noise := fun dt d z => z; c_pp := fun v => v;
     c_corr := NoCorr; c_bsize := bs; c_partial := false; c_concat := false; c_crit := []; c_savepts := false |}.
Definition gorc : orc bool := {| o_z := fun _ _ => false; o_perm := fun _ => [0] |}.
Definition ginit (M : nat) : res (st R bool) := init (gc 1 [true]) (repeat [false] M) false (Fin 0%R) (Fin 1%R) (Fin 1%R) (Fin 1%R) (fun _ => [0]) None [] None.

Lemma ginit_constructed : forall M s, 0 < M -> ginit M = Ok s -> constructed (gc 1 [true]) s.
Proof.
  intros M s HM H. exists (repeat [false] M), false, (Fin 0%R), (Fin 1%R), (Fin 1%R), (Fin 1%R), (fun _ => [0]), None, [], None.
  split. { split. destruct M; [lia|reflexivity]. apply Forall_forall. intros r Hr. apply repeat_spec in Hr. subst. destruct M; [lia|reflexivity]. }
  destruct M; [lia|]. split; [cbn; lia|]. split; [cbn; lia|]. split; [intros; apply (perm_b_ok 1); reflexivity|]. split; [discriminate|]. auto.
Qed.
Lemma gone : one_consensus_point (gc 1 [true]).
Proof. intros e x a. reflexivity. Qed.

Lemma gvalid : forall s : st R bool, s_N s = 1 -> perms_valid gorc s.
Proof. intros s H m _. rewrite H. apply (perm_b_ok 1). reflexivity. Qed.
Lemma same_params : forall s : st R bool, is_array (s_M s) 1 (s_alpha s) -> params_changed s s.
Proof. intros s H. exists (s_alpha s), (s_sigma s), (s_lamda s), (s_dt s). split; auto. destruct s; reflexivity. Qed.

Lemma rstd_00 : rstd [0%R; 0%R] = 0%R.
Proof.
  unfold rstd. assert (E : rmean [0%R; 0%R] = 0%R) by (unfold rmean, Rsum; cbn [fold_right length INR]; field). rewrite E. unfold Rsum. cbn [map fold_right length INR].
  replace (((0 - 0) ^ 2 + ((0 - 0) ^ 2 + 0)) / (1 + 1))%R with 0%R by field. apply sqrt_0.
Qed.
(** two rounds with patience 2: the second check is negative, the third one positive *)
Lemma ex_watched : exists s b es s1 b1, watched (gc 1 [true]) 2 1%R 2 s b es /\ stag_call 2 1%R (gc 1 [true]) s b = Ok ([true], s1, b1) /\
  es ++ consensus_energy (gc 1 [true]) s = [Fin 0%R; Fin 0%R].
Proof.
  destruct (ginit 1) as [s0|] eqn:E0; [|discriminate]. assert (W0 : watched (gc 1 [true]) 2 1%R 0 s0 None []).
  { constructor. apply (ginit_constructed 1); auto. injection E0 as <-. reflexivity. }
  injection E0 as E0. subst s0.
  assert (W1 : exists s b es, watched (gc 1 [true]) 2 1%R 1 s b es /\ es = [] /\
     exists r s1 b1, stag_call 2 1%R (gc 1 [true]) s b = Ok ([r], s1, b1) /\ exists s2, step (gc 1 [true]) gorc s1 = Ok s2 /\ s_N s1 = 1 /\ is_array (s_M s2) 1 (s_alpha s2) /\
       consensus_energy (gc 1 [true]) s = [Fin 0%R] /\ consensus_energy (gc 1 [true]) s2 = [Fin 0%R]).
  { do 3 eexists. split; [|split].
    - eapply (wa_round _ _ _ 0); [exact W0|vm_compute; reflexivity|apply gvalid; vm_compute; reflexivity|vm_compute; reflexivity|apply same_params].
      split; [vm_compute; reflexivity|vm_compute; repeat constructor].
    - vm_compute; reflexivity.
    - do 3 eexists. split; [vm_compute; reflexivity|]. eexists. split; [vm_compute; reflexivity|]. split; [vm_compute; reflexivity|].
      split; [|split; vm_compute; reflexivity]. split; [vm_compute; reflexivity|vm_compute; repeat constructor]. }
  destruct W1 as (s & b & es & W1 & -> & r & s1 & b1 & E1 & s2 & E2 & HN & HR & C1 & C2).
  assert (r = false). { destruct (stagnation_fires _ 2 1%R 1 s b [] ltac:(lia) gone W1) as (r' & s1' & b1' & E1' & _ & F). rewrite E1 in E1'. injection E1' as <- _ _. destruct r; auto. destruct (proj1 F eq_refl). lia. }
  subst r. assert (W2 : watched (gc 1 [true]) 2 1%R 2 s2 b1 ([] ++ consensus_energy (gc 1 [true]) s)).
  { eapply wa_round; [exact W1|exact E1|apply gvalid; auto|exact E2|apply same_params; auto]. }
  rewrite C1 in W2. cbn [app] in W2. destruct (stagnation_fires _ 2 1%R 2 s2 b1 _ ltac:(lia) gone W2) as (r' & s3 & b3 & E3 & _ & F). rewrite C2 in F.
  assert (r' = true). { apply F. split; auto. exists [0%R; 0%R]. split. reflexivity. rewrite rstd_00. lra. }
  subst r'. exists s2, b1, [Fin 0%R], s3, b3. rewrite C2. auto.
Qed.

Lemma ex_two_runs : exists s s', exec (gc 1 [true]) s [] /\ perms_valid gorc s /\ step (gc 1 [true]) gorc s = Ok s' /\ s_active s = [0; 1] /\ s_M s = 2.
Proof.
  destruct (ginit 2) as [s0|] eqn:E0; [|discriminate]. pose proof (ginit_constructed 2 s0 ltac:(lia) E0) as H. injection E0 as E0. subst s0.
  do 2 eexists. split; [apply ex_init; exact H|]. split; [apply gvalid; reflexivity|]. split; [vm_compute; reflexivity|]. split; reflexivity.
Qed.

(** one run of two particles with a consensus point per particle *)
Definition pc : cfg R bool :=
  {| c_f := fun b : bool => if b then Fin 0%R else PInf; c_vadd := fun a _ => a; c_vsub := fun a _ => a; c_vscale := fun _ a => a;
     c_norm := fun _ => Fin 0%R; c_dmean := fun _ => Fin 0%R; c_ccrow := fun e x a => x; c_noise := fun dt d z => z; c_pp := fun v => v;
     c_corr := NoCorr; c_bsize := 2; c_partial := false; c_concat := false; c_crit := []; c_savepts := false |}.
Definition porc : orc bool := {| o_z := fun _ _ => false; o_perm := fun _ => [0; 1] |}.
Lemma ex_polar : exists s s', exec pc s [] /\ perms_valid porc s /\ step pc porc s = Ok s' /\ s_active s <> [] /\ c_bsize pc = 2 /\ consensus_per_particle pc.
Proof.
  destruct (init pc [[false; false]] false (Fin 0%R) (Fin 1%R) (Fin 1%R) (Fin 1%R) (fun _ => [0; 1]) None [] None) as [s0|] eqn:E0; [|discriminate].
  assert (H : constructed pc s0).
  { exists [[false; false]], false, (Fin 0%R), (Fin 1%R), (Fin 1%R), (Fin 1%R), (fun _ => [0; 1]), None, [], None.
    split; [split; [reflexivity|repeat constructor]|]. split; [cbn; lia|]. split; [cbn; lia|]. split; [intros; apply (perm_b_ok 2); reflexivity|]. split; [discriminate|]. auto. }
  injection E0 as E0. subst s0. do 2 eexists. split; [apply ex_init; exact H|]. split. { intros m _. apply (perm_b_ok 2). reflexivity. }
  split; [vm_compute; reflexivity|]. split; [discriminate|]. split; [reflexivity|]. intros e x a. reflexivity.
Qed.
