(** * Properties: runs with covariance noise (C109) *)
From Coq Require Import String List Arith Bool Reals Lia Lra.
From Verif Require Import Scalar Np RVec Consensus ConsSpec Cbo CboSpec PostProc Nd MatSqrt MatSpec MatFacts CovNoise CovCbo MomentSpec Cbs CbsRunSpec CbsRun CbsMove ExCbo ExCbsRun.
Import ListNotations.
Open Scope R_scope.

(** C109. A step of CBS is a step with covariance noise and sigma = 1; everything below holds for both. *)
Theorem C109_cbs : forall f eigh noise mode sigma ndim o la dt alpha pp x z, cbs_init noise mode sigma false ndim = Ok o ->
  cbs_step f eigh o (Fin la) (Fin dt) alpha pp x z = one_step f eigh (String.eqb mode "sampling") pp {| i_la := la; i_dt := dt; i_sg := 1; i_alpha := alpha; i_z := z |} x.
Proof. exact cbs_is_step. Qed.
Print Assumptions C109_cbs.
Example C109_cbs_example : exists o, cbs_init "covariance" "sampling" (Fin 5) false 3 = Ok o.
Proof. eexists; reflexivity. Qed.

(** C109. A matrix has at most one positive semidefinite square root ... *)
Theorem C109_root_unique : forall d S T, mpsd d S -> mpsd d T -> meq d (mmul d S S) (mmul d T T) -> meq d S T.
Proof. exact root_unique. Qed.
Print Assumptions C109_root_unique.
Example C109_root_unique_example : mpsd 2 mid /\ meq 2 (mmul 2 mid mid) (mmul 2 mid mid).
Proof.
  split; [|intros i j _ _; reflexivity]. split. intros i j; revert i j; apply two; reflexivity. intros v. unfold mquad, msum, mid. cbn. nra.
Qed.
(** ... so the run does not depend on which eigenvectors eigh returns: for any number of steps and any finite post-processing two correct
    eigendecompositions give the same positions, and no step raises. *)
Theorem C109_any_eigendecomposition : forall f eigh eigh' smp pp M N d m, finite_obj d f -> eigh_ok d eigh -> eigh_ok d eigh' -> (1 <= N)%nat -> (m < M)%nat ->
  (forall v, exists u, pp (Fin v) = Fin u) -> forall l, (forall i, In i l -> valid_inputs M i) ->
  forall x x' X, shape x = [M; N; d] -> shape x' = [M; N; d] -> run_is x m N d X -> run_is x' m N d X ->
  exists y y' Y, steps_with f eigh smp pp l x = Ok y /\ steps_with f eigh' smp pp l x' = Ok y' /\ shape y = [M; N; d] /\ run_is y m N d Y /\ run_is y' m N d Y.
Proof. exact any_eigh. Qed.
Print Assumptions C109_any_eigendecomposition.
Example C109_any_eigendecomposition_example : finite_obj 2 sqf /\ eigh_ok 2 eigh2 /\ (forall i, In i [linput; linput] -> valid_inputs 1 i) /\ shape linex = [1; 2; 2]%nat /\ run_is linex 0 2 2 lineX.
Proof. split; [apply sqf_finite|]. split; [exact eigh2_ok|]. split; [|split; [reflexivity|exact line_run]]. intros i [<-|[<-|[]]]; exact linput_valid. Qed.

(** C109. As long as nothing is clipped all particles stay affine combinations of the N initial particles of their run, whatever the draws are:
    with N <= d particles the run never leaves an affine subspace of dimension N - 1. *)
Theorem C109_hull : forall f eigh smp pp T M N d m, finite_obj d f -> eigh_ok d eigh -> (m < M)%nat -> (1 <= N)%nat -> only_clips T pp ->
  forall x y X, shape x = [M; N; d] -> run_is x m N d X -> unclipped f eigh smp pp T M N d m x y ->
  shape y = [M; N; d] /\ exists Y, run_is y m N d Y /\ forall p, In p Y -> in_hull d X p.
Proof. exact hull_kept. Qed.
Print Assumptions C109_hull.
(** In particular no hyperplane that contains the initial particles is left. *)
Theorem C109_hyperplanes : forall f eigh smp pp T M N d m, finite_obj d f -> eigh_ok d eigh -> (m < M)%nat -> (1 <= N)%nat -> only_clips T pp ->
  forall x y X u b, shape x = [M; N; d] -> run_is x m N d X -> on_plane d u b X -> unclipped f eigh smp pp T M N d m x y ->
  shape y = [M; N; d] /\ exists Y, run_is y m N d Y /\ on_plane d u b Y.
Proof. exact plane_kept. Qed.
Print Assumptions C109_hyperplanes.
(** The default post-processing is of this kind. *)
Theorem C109_default_clips : forall T, only_clips T (pp_default T false).
Proof. exact default_clips. Qed.
Print Assumptions C109_default_clips.
Example C109_hull_example : exists T y, unclipped sqf eigh2 true (fun u => u) T 1 2 2 0 linex y /\ one_step sqf eigh2 true (fun u => u) linput linex = Ok y /\ only_clips T (fun u => u) /\
  on_plane 2 (fun i => match i with 1%nat => 1 | _ => 0 end) 1 lineX.
Proof. exact line_case. Qed.

(** C109. Turning and shifting: if the objective moves along with p -> A p + b, A orthogonal, and may change by a constant, then the run that
    starts at the moved particles with the turned draws stays the moved run. *)
Theorem C109_isometries : forall f f' eigh eigh' smp M M' N d m A b h x x' X y y', finite_obj d f -> finite_obj d f' -> eigh_ok d eigh -> eigh_ok d eigh' ->
  (m < M)%nat -> (m < M')%nat -> (1 <= N)%nat -> orthogonal d A ->
  (forall p, length p = d -> f' (floats (affine d A b p)) = fadd (f (floats p)) (Fin h)) ->
  shape x = [M; N; d] -> shape x' = [M'; N; d] -> run_is x m N d X -> run_is x' m N d (map (affine d A b) X) ->
  moved_together f f' eigh eigh' smp M M' d m A x x' y y' ->
  exists Y, run_is y m N d Y /\ run_is y' m N d (map (affine d A b) Y) /\ shape y = [M; N; d] /\ shape y' = [M'; N; d].
Proof. exact moved_run. Qed.
Print Assumptions C109_isometries.
Example C109_isometries_example : finite_obj 2 sqf /\ finite_obj 2 sqf' /\ orthogonal 2 quarter /\
  (forall p, length p = 2%nat -> sqf' (floats (affine 2 quarter shiftb p)) = fadd (sqf (floats p)) (Fin 7)) /\
  run_is linex 0 2 2 lineX /\ run_is turnx 0 2 2 (map (affine 2 quarter shiftb) lineX) /\
  exists y y', moved_together sqf sqf' eigh2 eigh2 true 1 1 2 0 quarter linex turnx y y' /\ one_step sqf eigh2 true (fun u => u) linput linex = Ok y.
Proof. exact turn_case. Qed.

(** C109. For any matrix A the mean and the covariance that determine the law of the step (C82) move along: c' = A c + b, C' = A C A^T. *)
Theorem C109_affine_mean : forall f f' N d A b h, finite_obj d f -> (forall p, length p = d -> f' (floats (affine d A b p)) = fadd (f (floats p)) (Fin h)) -> (1 <= N)%nat ->
  forall X a i, ensemble N d X -> (i < d)%nat ->
  gibbs_mean a (map f' (map floats (map (affine d A b) X))) (map (affine d A b) X) i = msum d (fun k => A i k * gibbs_mean a (map f (map floats X)) X k) + b i.
Proof. exact mean_moved. Qed.
Print Assumptions C109_affine_mean.
Theorem C109_affine_covariance : forall f f' N d A b h, finite_obj d f -> (forall p, length p = d -> f' (floats (affine d A b p)) = fadd (f (floats p)) (Fin h)) -> (1 <= N)%nat ->
  forall X a, ensemble N d X ->
  meq d (gibbs_cov a (map f' (map floats (map (affine d A b) X))) (map (affine d A b) X)) (conj d A (gibbs_cov a (map f (map floats X)) X)).
Proof. exact cov_moved. Qed.
Print Assumptions C109_affine_covariance.
