(** * C49, C50, C51, C52: the mirror maps of cbx and MirrorCBO *)
From Coq Require Import String List Arith Bool Reals Lra Lia.
From Verif Require Import Scalar Np State Pdyn Exec RVec ConsSpec Cbo CboSpec PostProc MatSqrt MatSpec MemSpec Variant VarSpec VarFacts VarMove
  MirrorMaps MirrorSpec MirrorFacts MirrorProj MirrorSquare MirrorStiefel MirrorDyn ExMirror.
Import ListNotations.
Open Scope R_scope.

(** ** C49 *)

(** C49. grad_conj (grad x) = x. *)
Theorem C49_elastic_net : forall delta lamda x, 0 < delta -> 0 <= lamda ->
  mm_conj (ElasticNet delta lamda) (mm_grad (ElasticNet delta lamda) (floats x)) = floats x.
Proof. exact elastic_inverse. Qed.
Print Assumptions C49_elastic_net.

Theorem C49_l2 : forall lamda x, lamda <> 0 -> mm_conj (L2 lamda) (mm_grad (L2 lamda) (floats x)) = floats x.
Proof. exact l2_inverse. Qed.
Print Assumptions C49_l2.

Theorem C49_nonsmooth_barrier : forall x, open_box x -> mm_conj NonsmoothBarrier (mm_grad NonsmoothBarrier (floats x)) = floats x.
Proof. exact barrier_inverse. Qed.
Print Assumptions C49_nonsmooth_barrier.

Theorem C49_log_barrier : forall x, open_box x -> all_coord (fun a => a <> 0) x ->
  mm_conj LogBarrierBox (mm_grad LogBarrierBox (floats x)) = floats x.
Proof. exact logbarrier_inverse. Qed.
Print Assumptions C49_log_barrier.

(** on the simplex away from its boundary (coordinates at least 1e-32) *)
Theorem C49_simplex : forall x, simplex x -> all_coord (fun a => simplex_floor <= a) x ->
  mm_conj EntropySimplex (mm_grad EntropySimplex (floats x)) = floats x.
Proof. exact simplex_inverse. Qed.
Print Assumptions C49_simplex.

(** C49. A point with a zero coordinate is not recovered. *)
Theorem C49_simplex_boundary_refuted : forall x, In 0 x -> mm_conj EntropySimplex (mm_grad EntropySimplex (floats x)) <> floats x.
Proof. exact simplex_boundary. Qed.
Print Assumptions C49_simplex_boundary_refuted.

Theorem C49_entropy_shift : forall x, all_coord (fun a => 0 <= a) x ->
  mm_conj Entropy (mm_grad Entropy (floats x)) = floats (map (fun a => a + float32_eps) x).
Proof. exact entropy_inverse. Qed.
Print Assumptions C49_entropy_shift.

(** the projections fix their sets *)
Theorem C49_ball : forall r center x, 0 < r -> length center = 1%nat \/ length center = length x -> ball r (along (length x) center) x ->
  mm_conj (ProjectionBall r center) (mm_grad (ProjectionBall r center) (floats x)) = floats x.
Proof. exact ball_inverse. Qed.
Print Assumptions C49_ball.

Theorem C49_hyperplane : forall a b x, sqnorm a <> 0 -> length a = length x -> plane a b x ->
  mm_conj (ProjectionHyperplane a b) (mm_grad (ProjectionHyperplane a b) (floats x)) = floats x.
Proof. exact plane_inverse. Qed.
Print Assumptions C49_hyperplane.

Theorem C49_sphere : forall r x, 0 < r -> sphere r x -> mm_conj (ProjectionSphere r) (mm_grad (ProjectionSphere r) (floats x)) = floats x.
Proof. exact sphere_inverse. Qed.
Print Assumptions C49_sphere.

Theorem C49_square : forall x, square 1 x -> mm_conj (ProjectionSquare 1) (mm_grad (ProjectionSquare 1) (floats x)) = floats x.
Proof. exact square_inverse. Qed.
Print Assumptions C49_square.

Theorem C49_stiefel : forall n k svd x U s Vh, (k <= n)%nat -> length x = (n * k)%nat -> svd (floats x) = (U, Vh) -> svd_of n k x U s Vh -> stiefel n k x ->
  mm_conj (ProjectionStiefel n k svd) (mm_grad (ProjectionStiefel n k svd) (floats x)) = floats x.
Proof. exact stiefel_inverse. Qed.
Print Assumptions C49_stiefel.

Example C49_box_point : open_box [1/2; -1/3] /\ all_coord (fun a => a <> 0) [1/2; -1/3].
Proof. split; intros a [<-|[<-|[]]]; lra. Qed.
Example C49_simplex_point : simplex [1/4; 3/4] /\ all_coord (fun a => simplex_floor <= a) [1/4; 3/4] /\ simplex [0; 1].
Proof.
  assert (simplex_floor <= 1 / 4). { unfold simplex_floor. rewrite <- (Rinv_inv (1 / 4)). apply Rinv_le_contravar. apply Rinv_0_lt_compat; lra. 
    replace (/ (1 / 4)) with 4 by lra. apply Rle_trans with (10 ^ 1). lra. apply Rle_pow. lra. lia. }
  repeat split; try (intros a [<-|[<-|[]]]; lra); unfold Rsum; cbn; lra.
Qed.
Example C49_sets : ball 2 (along 2 [0]) [1; 1] /\ plane [1; 1] 3 [1; 2] /\ sqnorm [1; 1] <> 0 /\ sphere 5 [3; 4] /\ square 1 [1; -1/2].
Proof. exact ex_sets. Qed.
Example C49_stiefel_point : svd_of 2 1 [3/5; 4/5] (fun i _ => nth i [3/5; 4/5] 0) (fun _ => 1) (fun _ _ => 1) /\ stiefel 2 1 [3/5; 4/5].
Proof. exact ex_stiefel. Qed.

(** ** C50 *)

(** C50. The projections return the nearest point of their set; in particular a point of the set. *)
Theorem C50_ball : forall r center y, 0 < r -> length center = 1%nat \/ length center = length y ->
  exists p, mm_conj (ProjectionBall r center) (floats y) = floats p /\ nearest (ball r (along (length y) center)) y p.
Proof. exact ball_projection. Qed.
Print Assumptions C50_ball.

Theorem C50_hyperplane : forall a b y, sqnorm a <> 0 -> length a = length y ->
  exists p, mm_conj (ProjectionHyperplane a b) (floats y) = floats p /\ nearest (plane a b) y p.
Proof. exact plane_projection. Qed.
Print Assumptions C50_hyperplane.

Theorem C50_sphere : forall r y, 0 <= r -> y <> repeat 0 (length y) ->
  exists p, mm_conj (ProjectionSphere r) (floats y) = floats p /\ nearest (sphere r) y p.
Proof. exact sphere_projection. Qed.
Print Assumptions C50_sphere.

Theorem C50_square : forall y, y <> repeat 0 (length y) ->
  exists p, mm_conj (ProjectionSquare 1) (floats y) = floats p /\ nearest (square 1) y p.
Proof. exact square_projection. Qed.
Print Assumptions C50_square.

(** given an exact singular value decomposition *)
Theorem C50_stiefel : forall n k svd y U s Vh, (k <= n)%nat -> length y = (n * k)%nat -> svd (floats y) = (U, Vh) -> svd_of n k y U s Vh ->
  exists p, mm_conj (ProjectionStiefel n k svd) (floats y) = floats p /\ nearest (stiefel n k) y p.
Proof. exact stiefel_projection. Qed.
Print Assumptions C50_stiefel.

Theorem C50_log_barrier : forall y, all_coord (fun a => a <> 0) y ->
  exists p, mm_conj LogBarrierBox (floats y) = floats p /\ length p = length y /\ open_box p.
Proof. exact logbarrier_feasible. Qed.
Print Assumptions C50_log_barrier.

Theorem C50_nonsmooth_barrier : forall y, exists p, mm_conj NonsmoothBarrier (floats y) = floats p /\ length p = length y /\ open_box p.
Proof. exact barrier_feasible. Qed.
Print Assumptions C50_nonsmooth_barrier.

Theorem C50_simplex : forall y, y <> [] ->
  exists p, mm_conj EntropySimplex (floats y) = floats p /\ length p = length y /\ simplex p /\ all_coord (fun a => 0 < a) p.
Proof. exact simplex_feasible. Qed.
Print Assumptions C50_simplex.

Theorem C50_entropy : forall y, exists p, mm_conj Entropy (floats y) = floats p /\ length p = length y /\ all_coord (fun a => 0 < a) p.
Proof. exact entropy_feasible. Qed.
Print Assumptions C50_entropy.

(** C50. Projecting twice is projecting once. *)
Theorem C50_ball_idempotent : forall r center y, 0 < r -> length center = 1%nat \/ length center = length y ->
  mm_conj (ProjectionBall r center) (mm_conj (ProjectionBall r center) (floats y)) = mm_conj (ProjectionBall r center) (floats y).
Proof. exact ball_idempotent. Qed.
Print Assumptions C50_ball_idempotent.

Theorem C50_hyperplane_idempotent : forall a b y, sqnorm a <> 0 -> length a = length y ->
  mm_conj (ProjectionHyperplane a b) (mm_conj (ProjectionHyperplane a b) (floats y)) = mm_conj (ProjectionHyperplane a b) (floats y).
Proof. exact plane_idempotent. Qed.
Print Assumptions C50_hyperplane_idempotent.

Theorem C50_sphere_idempotent : forall r y, 0 < r -> y <> repeat 0 (length y) ->
  mm_conj (ProjectionSphere r) (mm_conj (ProjectionSphere r) (floats y)) = mm_conj (ProjectionSphere r) (floats y).
Proof. exact sphere_idempotent. Qed.
Print Assumptions C50_sphere_idempotent.

Theorem C50_square_idempotent : forall y, y <> repeat 0 (length y) ->
  mm_conj (ProjectionSquare 1) (mm_conj (ProjectionSquare 1) (floats y)) = mm_conj (ProjectionSquare 1) (floats y).
Proof. exact square_idempotent. Qed.
Print Assumptions C50_square_idempotent.

(** the point (3, 4) outside the unit ball goes to (3/5, 4/5) *)
Example C50_case : [3; 4] <> repeat 0 (length [3; 4]) /\ mm_conj (ProjectionBall 1 [0]) (floats [3; 4]) = floats [3/5; 4/5].
Proof. exact ex_ball. Qed.

(** ** C51 *)

(** C51. ProjectionSquare(r), r < 1: every non-zero dual point is mapped outside of the square. *)
Theorem C51_square_small_refuted : forall r y, 0 < r < 1 -> y <> repeat 0 (length y) ->
  exists p, mm_conj (ProjectionSquare r) (floats y) = floats p /\ ~ square r p /\ ~ all_coord (fun a => Rabs a <= r) p.
Proof. exact square_small_conj. Qed.
Print Assumptions C51_square_small_refuted.

(** C51. r > 1: every point of the open square stays inside, so it is not on the boundary, where ProjectionSquare(1) puts it. *)
Theorem C51_square_large_refuted : forall r y, 1 < r -> y <> [] -> all_coord (fun a => Rabs a < r) y ->
  exists p, mm_conj (ProjectionSquare r) (floats y) = floats p /\ all_coord (fun a => Rabs a < r) p /\ ~ square r p.
Proof. exact square_large_conj. Qed.
Print Assumptions C51_square_large_refuted.

(** C51. The default hyperplane sum x_i = b is only hit from points which lie on it already. *)
Theorem C51_hyperplane_default_refuted : forall b (y : list R), (2 <= length y)%nat ->
  exists p, mm_conj (ProjectionHyperplane [1] b) (floats y) = floats p /\ length p = length y /\
    (plane (repeat 1 (length y)) b p <-> plane (repeat 1 (length y)) b y).
Proof. exact plane_default. Qed.
Print Assumptions C51_hyperplane_default_refuted.

(** C51. A zero dual coordinate gives NaN, which post-processing turns into the threshold. *)
Theorem C51_log_barrier_zero_refuted : forall thresh y, 0 <= thresh -> In 0 y -> exists i, nth_error y i = Some 0 /\
  nth_error (mm_conj LogBarrierBox (floats y)) i = Some NaN /\
  nth_error (pp_point thresh false (mm_conj LogBarrierBox (floats y))) i = Some (Fin thresh).
Proof. exact logbarrier_thrown. Qed.
Print Assumptions C51_log_barrier_zero_refuted.

Example C51_case : 0 < 1/2 < 1 /\ [1/4; 1/8] <> repeat 0 (length [1/4; 1/8]) /\ all_coord (fun a => Rabs a < 2) [1/4; 1/8] /\
  ~ plane (repeat 1 2) 3 [1; 1].
Proof. exact ex_defects. Qed.

(** ** C52, for the maps of cbx *)

(** C52. The default map is the identity on all floats, so MirrorCBO with the default map is CBO whenever post-processing
    changes nothing. *)
Theorem C52_default_is_cbo : forall (c : cfg R vec) n s y log, (forall v, c_pp c v = v) ->
  vexec (mirror_inner (mm_conj (L2 1))) (mirror_attr (mm_grad (L2 1))) c n (s, y) log -> exec c s log /\ y = s_x s.
Proof. exact mirror_default_cbo. Qed.
Print Assumptions C52_default_is_cbo.

(** C52. Every particle with a finite dual point is a feasible point, post-processed. *)
Theorem C52_feasible_points : forall mm (D C : list R -> Prop), (forall q, D q -> exists p, mm_conj mm (floats q) = floats p /\ C p) ->
  forall (c : cfg R vec) n s y log, vexec (mirror_inner (mm_conj mm)) (mirror_attr (mm_grad mm)) c n (s, y) log -> n <> 0%nat ->
  forall m k q, cell y m k = Some (floats q) -> D q -> exists p, cell (s_x s) m k = Some (c_pp c (floats p)) /\ C p.
Proof. exact mirror_feasible_points. Qed.
Print Assumptions C52_feasible_points.

Theorem C52_ball : forall r center, 0 < r -> forall (c : cfg R vec) n s y log,
  vexec (mirror_inner (mm_conj (ProjectionBall r center))) (mirror_attr (mm_grad (ProjectionBall r center))) c n (s, y) log -> n <> 0%nat ->
  forall m k q, cell y m k = Some (floats q) -> length q = length center ->
  exists p, cell (s_x s) m k = Some (c_pp c (floats p)) /\ ball r center p.
Proof. exact mirror_ball. Qed.
Print Assumptions C52_ball.

Theorem C52_simplex : forall (c : cfg R vec) n s y log,
  vexec (mirror_inner (mm_conj EntropySimplex)) (mirror_attr (mm_grad EntropySimplex)) c n (s, y) log -> n <> 0%nat ->
  forall m k q, cell y m k = Some (floats q) -> q <> [] ->
  exists p, cell (s_x s) m k = Some (c_pp c (floats p)) /\ simplex p.
Proof. exact mirror_simplex. Qed.
Print Assumptions C52_simplex.

(** one particle in R^1, projected to the ball of radius 1/2: starts at 2, is its own consensus, ends at 1/2 *)
Example C52_ball_case : exists (c : cfg R vec) s y log,
  vexec (mirror_inner (mm_conj (ProjectionBall (1/2) [0]))) (mirror_attr (mm_grad (ProjectionBall (1/2) [0]))) c 1 (s, y) log /\
  cell y 0 0 = Some (floats [2]) /\ cell (s_x s) 0 0 = Some (floats [1/2]).
Proof. exact ex_mirror. Qed.
