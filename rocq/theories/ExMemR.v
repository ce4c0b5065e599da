(** * PSO over the reals: a concrete first step *)
From Coq Require Import String List Arith Bool Reals Permutation Lia Lra.
From Verif Require Import Scalar Np NpFacts State Pdyn PdynOk Exec Script RVec RVecFacts ConsSpec Cbo CboSpec CboFacts ExCbo Memory MemSpec MemFacts3 MemRaise MemMove MemReal.
Import ListNotations.
Open Scope R_scope.

Definition rpso : cfg R vec := cbo_cfg sqf NIso (fun v => v) NoCorr 3 false false [CMaxIt (Some 10%nat)] false.
Definition rpar : mpar R := mkmpar (Fin 0) (Fin 0) (Fin 1) (Fin 2).

Lemma pso_case : exists ms ms', mem_constructed rpso ms /\ perms_valid corc (m_s ms) /\ finite_alpha (m_s ms) /\ parameters 1 (/ 10) 0 (m_s ms) /\
  3%nat = s_N (m_s ms) /\ s_M (m_s ms) = 2%nat /\ ensemble_at (m_s ms) 0 2 cX /\ finite_draws 2 corc /\ finite_obj 2 sqf /\
  mem_step Pso rpso rpar corc (fun _ _ => floats [1; 1]) ms = Ok ms'.
Proof.
  destruct (cinit_ok rpso 5 1 (/ 10) 0) as (s & Hs & _ & H1 & H2 & H3 & H4 & H5 & H6 & H7 & H8 & H9 & H10); [cbn; lia|lra|].
  assert (Hm : exists ms, mem_init rpso cx0 false (Fin 5) (Fin 0) (Fin 1) (Fin (/ 10)) (fun _ => [2; 0; 1]%nat) None [] None = Ok ms /\
     m_s ms = set_energy (map (map (c_f rpso)) (s_x s)) (set_fcalls (s_fcalls s + npoints (s_x s)) (set_nfe (map (fun n => (n + s_N s)%nat) (s_nfe s)) s))).
  { unfold mem_init. unfold cinit in Hs. rewrite Hs. cbn [bind]. eexists. split; [reflexivity|]. reflexivity. }
  destruct Hm as (ms & Em & Es).
  assert (HC : mem_constructed rpso ms).
  { exists cx0, false, (Fin 5), (Fin 0), (Fin 1), (Fin (/ 10)), (fun _ => [2; 0; 1]%nat), None, [], None.
    split; [split; [reflexivity|repeat constructor]|]. split; [cbn; lia|]. split; [cbn; lia|].
    split; [intros; apply (perm_b_ok 3); reflexivity|]. split; [discriminate|exact Em]. }
  assert (P : perms_valid corc (m_s ms)) by (rewrite Es; exact H4).
  assert (A : s_active (m_s ms) = [0; 1]%nat) by (rewrite Es; exact H3).
  assert (M : s_M (m_s ms) = 2%nat) by (rewrite Es; exact H1). assert (N : s_N (m_s ms) = 3%nat) by (rewrite Es; exact H2).
  destruct (mem_works Pso rpso rpar corc (fun _ _ => floats [1; 1]) ms _ (mx_init _ _ _ HC) P (cbo_one_point _ _ _ _ _ _ _ _)) as (ms' & Hs').
  { rewrite A. discriminate. } { rewrite A, M. reflexivity. } { left. rewrite N. reflexivity. }
  exists ms, ms'. split; auto. split; auto. split; [rewrite Es; exact H5|]. split; [rewrite Es; exact H6|]. split; auto. split; auto.
  split; [rewrite Es; exact H7|]. split; [exact corc_finite|]. split; [apply sqf_finite|auto].
Qed.
