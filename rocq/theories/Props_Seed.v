(** C100: seeds and random streams *)
From Coq Require Import String List Arith Bool ZArith Permutation Lia.
From Verif Require Import Scalar Np State Pdyn Exec ExZ Seed SeedSpec SeedFacts ExSeed.
Import ListNotations.
Open Scope nat_scope.
Open Scope list_scope.

(** A dynamic with given ensemble and seed depends on its own commands only: whatever the script does besides (other dynamics, uses or reseedings of
    np.random, in any order), in whatever process it runs and whichever name it has. *)
Theorem C100_isolated : forall (K V G : Type) (O : KOps K) (R : numpy G V) j k (l l' : list (cmd K V G)) w w', reproducible k l ->
  filter (about j) l' = map (redirect j) (filter (about k) l) -> snd (run_script R l' w') j = snd (run_script R l w) k.
Proof. intros K V G O. exact isolated. Qed.
Print Assumptions C100_isolated.
Example C100_isolated_case : script_ok zscriptB /\ reproducible 0 zscriptB /\ filter (about 0) zscriptA = map (redirect 0) (filter (about 0) zscriptB) /\
  (exists x, positions 0 zscriptA (zw 0 0) = Some x /\ positions 0 zscriptB (zw 5 6) = Some x /\ x <> zx1) /\ positions 1 zscriptB (zw 5 6) <> positions 1 zscriptB (zw 6 6).
Proof. exact zscripts. Qed.

(** REFUTED without one of the conditions: a seed without ensemble, *)
Theorem C100_seed_without_ensemble_refuted : exists (R : numpy nat Z) (l : list (cmd Z Z nat)) w w', numpy_ok R /\ (forall a, In (CNew 0 a) l -> a_seed a <> None /\ a_global a = false) /\
  snd (run_script R l w) 0 <> snd (run_script R l w') 0.
Proof.
  exists znp, [CNew 0 (zargs None (Some 7) false false)], (zw 0 0), (zw 1 0). split; [exact znp_ok|]. split; [intros a [H|[]]; injection H as <-; split; [discriminate|reflexivity]|].
  intros H. apply znone. unfold positions. now rewrite H.
Qed.
Print Assumptions C100_seed_without_ensemble_refuted.
(** an ensemble without seed, *)
Theorem C100_no_seed_refuted : exists (R : numpy nat Z) (l : list (cmd Z Z nat)) w w', numpy_ok R /\ (forall a, In (CNew 0 a) l -> a_x a <> None /\ a_global a = false) /\
  snd (run_script R l w) 0 <> snd (run_script R l w') 0.
Proof.
  exists znp, [CNew 0 (zargs (Some zx1) None false false); CStep 0], (zw 0 0), (zw 0 1). split; [exact znp_ok|].
  split; [intros a [H|[H|[]]]; [injection H as <-; split; [discriminate|reflexivity]|discriminate]|]. intros H. apply znoseed. unfold positions. now rewrite H.
Qed.
Print Assumptions C100_no_seed_refuted.
(** a sampler over np.random: already the order of the steps of two dynamics matters *)
Theorem C100_global_sampler_refuted : exists (R : numpy nat Z) (l l' : list (cmd Z Z nat)) w, numpy_ok R /\ (forall a, In (CNew 0 a) l -> a_x a <> None /\ a_seed a <> None) /\
  (forall k, filter (about k) l = filter (about k) l') /\ snd (run_script R l w) 0 <> snd (run_script R l' w) 0.
Proof.
  exists znp, [CNew 0 (zargs (Some zx1) (Some 7) false true); CNew 1 (zargs (Some zx1) (Some 7) false true); CStep 0; CStep 1],
    [CNew 0 (zargs (Some zx1) (Some 7) false true); CNew 1 (zargs (Some zx1) (Some 7) false true); CStep 1; CStep 0], (zw 0 0). split; [exact znp_ok|].
  split; [intros a [H|[H|[H|[H|[]]]]]; try discriminate; injection H as <-; split; discriminate|]. split; [intros [|[|k]]; reflexivity|].
  intros H. apply zglob. unfold positions. now rewrite H.
Qed.
Print Assumptions C100_global_sampler_refuted.

(** The check of the objective's dimensions draws from the sampler: with it the run continues one array later in the stream *)
Theorem C100_check_draws : forall (K V G : Type) (O : KOps K) (R : numpy G V) (a : args K V) w w1 w2 d d' sd, reproducible_args a -> a_seed a = Some sd -> a_check a = true ->
  construct R a w = (Ok d, w1) -> construct R (unchecked a) w = (Ok d', w2) ->
  d_rng d' = np_rng R sd /\ d_rng d = snd (np_normal R (np_rng R sd) (runs_of a) (particles_of a)) /\ s_x (d_s d) = s_x (d_s d') /\ d_batch d = d_batch d' /\ s_ind (d_s d) = s_ind (d_s d').
Proof. intros K V G O. exact check_draws. Qed.
Print Assumptions C100_check_draws.
Example C100_check_draws_case : reproducible_args zgood /\ a_seed zgood = Some 7 /\ a_check zgood = true /\ (exists d w1, construct znp zgood (zw 0 0) = (Ok d, w1)) /\
  exists d' w2, construct znp (unchecked zgood) (zw 0 0) = (Ok d', w2).
Proof. split; [apply zgood_ok|]. split; [reflexivity|]. split; [reflexivity|]. split; eexists _, _; reflexivity. Qed.
(** REFUTED: that switching the check off changes nothing but the check *)
Theorem C100_check_changes_run_refuted : exists (R : numpy nat Z) (a : args Z Z) w, numpy_ok R /\ reproducible_args a /\ a_check a = true /\
  option_map (fun p => match snd p with Ok d => s_x (d_s d) | Err _ => [] end) (snd (run_script R [CNew 0 a; CStep 0] w) 0) <>
  option_map (fun p => match snd p with Ok d => s_x (d_s d) | Err _ => [] end) (snd (run_script R [CNew 0 (unchecked a); CStep 0] w) 0).
Proof. exists znp, zgood, (zw 0 0). split; [exact znp_ok|]. split; [apply zgood_ok|]. split; [reflexivity|]. vm_compute. discriminate. Qed.
Print Assumptions C100_check_changes_run_refuted.

(** Batches do not depend on [seed]: dynamics with equal sizes and batch seed (42 by default) have the same indices after equally many steps *)
Theorem C100_batches_refuted : forall (K V G : Type) (O : KOps K) (R : numpy G V) (a a' : args K V) n d d', numpy_ok R -> args_ok a -> args_ok a' -> same_batching a a' -> life R a n d -> life R a' n d' ->
  s_ind (d_s d) = s_ind (d_s d') /\ d_batch d = d_batch d'.
Proof. intros K V G O. exact batches_same. Qed.
Print Assumptions C100_batches_refuted.
(** and the same batch of every run active in both *)
Theorem C100_same_batch_refuted : forall (K V G : Type) (O : KOps K) (R : numpy G V) (a a' : args K V) n d d' d1 d1' w w1 w' w1' m b b', numpy_ok R -> args_ok a -> args_ok a' -> same_batching a a' ->
  life R a n d -> life R a' n d' -> seeded_step R a w d = (Ok d1, w1) -> seeded_step R a' w' d' = (Ok d1', w1') -> batch_of (d_s d1) m b -> batch_of (d_s d1') m b' -> b = b'.
Proof. intros K V G O. exact batches_same_run. Qed.
Print Assumptions C100_same_batch_refuted.
Example C100_batches_case : args_ok zgood /\ args_ok zother /\ same_batching zgood zother /\ (exists d d' d1 d1' w w', life znp zgood 2 d /\ life znp zother 2 d' /\ s_x (d_s d) <> s_x (d_s d') /\
  seeded_step znp zgood (zw 0 0) d = (Ok d1, w) /\ seeded_step znp zother (zw 4 4) d' = (Ok d1', w') /\
  batch_of (d_s d1) 1 [2; 1] /\ batch_of (d_s d1') 1 [2; 1] /\ batch_of (d_s d1) 0 [0; 1]).
Proof. exact zbatches. Qed.

(** Every state of every dynamic of every script is one of the executions the other properties speak of *)
Theorem C100_executions : forall (K V G : Type) (O : KOps K) (R : numpy G V) (l : list (cmd K V G)) w k a d, numpy_ok R -> script_ok l ->
  snd (run_script R l w) k = Some (a, Ok d) -> exists log, exec (a_c a) (d_s d) log.
Proof. intros K V G O. exact script_exec. Qed.
Print Assumptions C100_executions.
(** and the array drawn in a step has exactly the shape of the drift *)
Theorem C100_one_draw : forall (K V : Type) (O : KOps K) (c : cfg K V) o s log s', exec c s log -> plain c (s_N s) -> perms_valid o s -> step c o s = Ok s' ->
  exists D, s_drift s' = Some D /\ is_array (length (s_active s)) (width c s) D.
Proof. intros K V O. exact (@drift_shape K V O). Qed.
Print Assumptions C100_one_draw.
Example C100_executions_case : numpy_ok znp /\ script_ok zscriptB /\ exists a d, snd (run_script znp zscriptB (zw 5 6)) 1 = Some (a, Ok d).
Proof.
  split; [exact znp_ok|]. split; [apply zscripts|].
  destruct (snd (run_script znp zscriptB (zw 5 6)) 1) as [[a [d|e]]|] eqn:E; [eauto| |]; (assert (P : positions 1 zscriptB (zw 5 6) = None) by (unfold positions; now rewrite E)); vm_compute in P; discriminate.
Qed.
Example C100_one_draw_case : exists s log s', exec zc1 s log /\ plain zc1 (s_N s) /\ perms_valid (zorc 1 [1; 2; 0]) s /\ step zc1 (zorc 1 [1; 2; 0]) s = Ok s' /\ width zc1 s = 2.
Proof. exact zdraw. Qed.
