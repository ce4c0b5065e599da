(** * Consensus based sampling (cbx/dynamics/cbs.py)

    The constructor's checks and the step; the loop of [run] is that of optimize without a default scheduler and without
    a result.  Points are vectors; unbatched, all runs active (CovCbo.v). *)
From Coq Require Import String List Arith Bool Reals.
From Verif Require Import Scalar Np RVec Consensus Nd Cbo CovNoise CovCbo MatSqrt.
Import ListNotations.
Open Scope R_scope.

(** cbs.py:6-22 with get_noise, noise.py:9-19.  Only the arguments that matter; the result is (sigma, mode).  A noise other
    than covariance/sampling only warns. *)
Definition known_noise (name : string) : bool :=
  existsb (String.eqb name) ["isotropic"; "anisotropic"; "covariance"; "sampling"; "constant"]%string.
Definition cbs_init (noise mode : string) (sigma : fl R) (batched : bool) (ndim : nat) : res (fl R * string) :=
  if negb (known_noise noise) then Err NotImplemented else
  if batched then Err NotImplemented else
  if (3 <? ndim)%nat then Err NotImplemented else
  Ok (Fin 1, mode).
(** covariance_noise.lamda, noise.py:199-203: every mode other than 'sampling' counts as optimization *)
Definition is_sampling (mode : string) : bool := String.eqb mode "sampling".
(** one step with covariance noise *)
Definition cbs_step (f : vec -> fl R) eigh (o : fl R * string) (lamda dt : fl R) (alpha : nd (fl R)) (pp : fl R -> fl R) (x : nd (fl R)) (z : list nat -> fl R) : res (nd (fl R)) :=
  cov_cbo_step f (compute_mat_sqrt eigh) (is_sampling (snd o)) lamda dt (fst o) alpha pp x z.
