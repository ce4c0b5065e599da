(** * C47: energy_stagnation *)
From Coq Require Import List Arith Bool Reals.
From Verif Require Import Scalar Np State Pdyn Exec RVec CboSpec Stagnation StagSpec StagTermFacts ExStag.
Import ListNotations.
Open Scope nat_scope.

(** C47. One run: at the check after n steps, n energies are recorded, and the criterion fires exactly when there are
    at least [patience] of them, the last [patience] are finite and their standard deviation is below the threshold.
    It never raises. *)
Theorem C47_fires_exactly : forall (V : Type) (c : cfg R V) p th n s b es, 0 < p -> one_consensus_point c -> watched c p th n s b es ->
  exists r s1 b1, stag_call p th c s b = Ok ([r], s1, b1) /\
    length (es ++ consensus_energy c s) = n /\
    (r = true <-> p <= n /\ exists ys, lastn p (es ++ consensus_energy c s) = map Fin ys /\ (rstd ys < th)%R).
Proof. exact @stagnation_fires. Qed.
Print Assumptions C47_fires_exactly.
Example C47_fires_example : exists s b es s1 b1, watched (gc 1 [true]) 2 1%R 2 s b es /\ stag_call 2 1%R (gc 1 [true]) s b = Ok ([true], s1, b1) /\
  es ++ consensus_energy (gc 1 [true]) s = [Fin 0%R; Fin 0%R].
Proof. exact ex_watched. Qed.

(** C47. Two or more active runs: the check after any step raises, whatever the memory; with all runs active it is numpy's
    shape error. *)
Theorem C47_raises_for_several_runs : forall (V : Type) (c : cfg R V) s log o s' p th b, exec c s log -> perms_valid o s -> step c o s = Ok s' ->
  one_consensus_point c -> 2 <= length (s_active s) -> 0 < p ->
  exists e, stag_call p th c s' b = Err e /\ (s_active s = seq 0 (s_M s) -> e = ShapeError).
Proof. exact @stagnation_raises. Qed.
Print Assumptions C47_raises_for_several_runs.
Example C47_raises_example : exists s s', exec (gc 1 [true]) s [] /\ perms_valid gorc s /\ step (gc 1 [true]) gorc s = Ok s' /\ s_active s = [0; 1] /\ s_M s = 2.
Proof. exact ex_two_runs. Qed.

(** C47. The check before the first step passes for every M: the failure only shows after a step has been made. *)
Theorem C47_first_check : forall (V : Type) (c : cfg R V) s p th, constructed c s ->
  exists b, stag_call p th c s None = Ok (repeat false (s_M s), s, Some b).
Proof. exact @stagnation_first_check. Qed.
Print Assumptions C47_first_check.

(** C47. With a consensus point per particle (PolarCBO) it raises even for one run, for batches of two or more. *)
Theorem C47_raises_for_polar : forall (V : Type) (c : cfg R V) s log o s' p th b, exec c s log -> perms_valid o s -> step c o s = Ok s' ->
  consensus_per_particle c -> 2 <= c_bsize c -> s_active s <> [] -> 0 < p -> exists e, stag_call p th c s' b = Err e.
Proof. exact @stagnation_raises_polar. Qed.
Print Assumptions C47_raises_for_polar.
Example C47_polar_example : exists s s', exec pc s [] /\ perms_valid porc s /\ step pc porc s = Ok s' /\ s_active s <> [] /\ c_bsize pc = 2 /\ consensus_per_particle pc.
Proof. exact ex_polar. Qed.

(** C47, refuted after a reset: the memory is kept, so that a criterion that fired when n was a multiple of the patience
    fires again at the first check after reset, before any new energy is recorded. *)
Theorem C47_never_before_patience_after_reset_refuted : forall (V : Type) (c : cfg R V) p th n s b es s1 b1, 0 < p -> one_consensus_point c ->
  watched c p th n s b es -> stag_call p th c s b = Ok ([true], s1, b1) -> n mod p = 0 ->
  exists s2 b2, stag_call p th c (reset s1) b1 = Ok ([true], s2, b2).
Proof. exact @stagnation_stale. Qed.
Print Assumptions C47_never_before_patience_after_reset_refuted.
Example C47_stale_example : exists s b es s1 b1, watched (gc 1 [true]) 2 1%R 2 s b es /\ stag_call 2 1%R (gc 1 [true]) s b = Ok ([true], s1, b1) /\ 2 mod 2 = 0.
Proof. destruct ex_watched as (s & b & es & s1 & b1 & H1 & H2 & _). exists s, b, es, s1, b1. auto. Qed.
