(** * Concrete runs of HyperSurfaceCBO *)
From Coq Require Import String List Arith Bool Reals Permutation Lia Lra.
From Verif Require Import Scalar Np NpFacts State Pdyn PdynRun PdynOk Exec Script RVec RVecFacts Consensus ConsSpec MirrorSpec HyperMaps HyperSpec Cbo CboSpec CboFacts ExCbo
  Variant VarSpec HyperRun HyperMoveSpec HyperMoveMore.
Import ListNotations.
Open Scope R_scope.

(** two runs of three particles in the plane; run 1 is in consensus at p *)
Definition hx0 (p : list R) : arr vec := [map floats cX; repeat (floats p) 3].
Definition hinit (c : cfg R vec) (p : list R) : res (st R vec) :=
  init c (hx0 p) false (Fin 1) (Fin 2) (Fin 1) (Fin (1 / 2)) (fun _ => [2; 0; 1]%nat) None [] None.

Lemma hinit_ok : forall (c : cfg R vec) S p, (1 <= c_bsize c <= 3)%nat -> exists s, hinit c p = Ok s /\ vexec (hyper_inner S) (fun _ => tt) c 0 (s, tt) [] /\
  s_M s = 2%nat /\ s_N s = 3%nat /\ s_active s = [0; 1]%nat /\ perms_valid corc s /\ finite_alpha s /\ parameters 1 (1 / 2) 2 s /\ all_at s 1 p /\ s_x s = hx0 p.
Proof.
  intros c S p Hb. eexists. split; [reflexivity|]. split.
  { apply (vx_init (hyper_inner S) (fun _ => tt)). exists (hx0 p), false, (Fin 1), (Fin 2), (Fin 1), (Fin (1/2)), (fun _ => [2; 0; 1]%nat), None, [], None.
    split; [split; [reflexivity|repeat constructor]|]. split; [cbn; lia|]. split; [exact Hb|]. split; [|split; [discriminate|reflexivity]]. intros m _. apply (perm_b_ok 3). reflexivity. }
  split; [reflexivity|]. split; [reflexivity|]. split; [reflexivity|]. split; [intros m _; apply (perm_b_ok 3); reflexivity|].
  split. { intros m Hm. cbn in Hm. destruct m as [|[|m]]; [exists 1; reflexivity|exists 1; reflexivity|lia]. }
  split; [split; [reflexivity|split; [reflexivity|split; [reflexivity|lra]]]|]. split; reflexivity.
Qed.

Lemma hmoves : forall k b sd p j, (1 <= b <= 3)%nat -> let c := hyper_cfg sqf k (fun v => v) b true false [] false in
  exists s s', vexec (hyper_inner (surface_of sd k)) (fun _ => tt) c 0 (s, tt) [] /\ s_active s = [0; 1]%nat /\ length (s_active s) = s_M s /\ perms_valid corc s /\ finite_alpha s /\
    parameters 1 (1 / 2) 2 s /\ all_at s 1 p /\ moves c (surface_of sd k) 2 s j s'.
Proof.
  intros k b sd p j Hb c. destruct (hinit_ok c (surface_of sd k) p Hb) as (s & _ & E & HM & HN & HA & P & FA & PA & AA & _).
  destruct (moves_exist sqf k (fun v => v) b true false [] false sd 0 s [] 2 (fun _ => corc) j) as (s' & M & _); auto.
  - rewrite HA. discriminate.
  - rewrite HA, HM. reflexivity.
  - intros. split; auto. apply corc_finite.
  - exists s, s'. repeat split; auto; try apply PA. rewrite HA, HM. reflexivity.
Qed.
