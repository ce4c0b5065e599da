(** * Specification for CBO with covariance noise *)
From Coq Require Import List Arith Reals.
From Verif Require Import Scalar Np RVec Consensus ConsSpec Nd Cbo MatSqrt CovNoise CovCbo.
Import ListNotations.
Open Scope R_scope.

(** all N particles of run m of the array are at p *)
Definition run_at (x : nd (fl R)) (m N : nat) (p : list R) : Prop :=
  forall n i, (n < N)%nat -> (i < length p)%nat -> get x [m; n; i] = Fin (coord i p).

(** [cov_steps ...]: any number of steps from x to y with finite draws; lamda, dt >= 0, sigma and the
    alpha (>= 0, one per run) may change from step to step *)
Definition alpha_array (M : nat) (alpha : nd (fl R)) : Prop :=
  shape alpha = [M; 1%nat] /\ forall m, (m < M)%nat -> exists a, get alpha [m; 0%nat] = Fin a /\ 0 <= a.
Inductive cov_steps (f : vec -> fl R) eigh (sampling : bool) (pp : fl R -> fl R) (M : nat) (x : nd (fl R)) : nd (fl R) -> Prop :=
| cs_start : cov_steps f eigh sampling pp M x x
| cs_step : forall y lamda dt sigma alpha z y', cov_steps f eigh sampling pp M x y ->
    0 <= dt -> alpha_array M alpha -> (forall i, exists v, z i = Fin v) ->
    cov_cbo_step f (compute_mat_sqrt eigh) sampling (Fin lamda) (Fin dt) (Fin sigma) alpha pp y z = Ok y' ->
    cov_steps f eigh sampling pp M x y'.
