(** * CBO with a mirror map as post-processing (cbx/dynamics/mirrorcbo.py:15-24)

    MirrorMaptoPostProcessProx derives a class whose instances are called with the dynamic in post_step (pdyn.py:920)
    and replace dyn.x by grad_conj(dyn.x), for all runs.  grad_conj of each map acts on single particles. *)
From Coq Require Import List Arith Reals.
From Verif Require Import Scalar Np State Pdyn Cbo MirrorMaps.

(** apply_prox, mirrorcbo.py:16-17, on one particle *)
Definition apply_prox (mm : mirror_map) (v : vec) : vec := mm_conj mm v.
(** CBO(f, post_process = MirrorMaptoPostProcessProx(mm)(...)), no correction *)
Definition prox_cfg (f : vec -> fl R) (k : noise_model) (mm : mirror_map) (b : nat) (partial cat : bool) (ks : list (crit R vec)) (save : bool) : cfg R vec :=
  cbo_cfg f k (apply_prox mm) NoCorr b partial cat ks save.
