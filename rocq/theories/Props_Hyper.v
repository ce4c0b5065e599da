(** * C53: HyperSurfaceCBO and its surfaces *)
From Coq Require Import List Arith Bool Reals Lra Lia.
From Verif Require Import Scalar Np State Pdyn Exec RVec ConsSpec Cbo PostProc MatSqrt MatSpec MemSpec Variant VarSpec
  MirrorSpec Constraints ConSpec HyperMaps HyperSpec HyperFacts HyperDyn ExHyper.
Import ListNotations.
Open Scope R_scope.

(** C53. Whatever its argument, if the projection has finite coordinates it is a point of the surface. *)
Theorem C53_projection_on_surface : forall s d w p, surface_ok s d -> length p = d -> sdf_proj s w = floats p -> on_surface s p.
Proof. exact proj_on. Qed.
Print Assumptions C53_projection_on_surface.

(** C53. At finite points (not the centre of the sphere) it is the nearest point, and points of the surface stay. *)
Theorem C53_projection_nearest : forall s d y, surface_ok s d -> length y = d ->
  match s with SphereD => y <> repeat 0 (length y) | PlaneD _ _ => True | StiefelD _ _ svd => svd (floats y) <> None end ->
  exists p, sdf_proj s (floats y) = floats p /\ nearest (on_surface s) y p /\ (on_surface s y -> p = y).
Proof. exact proj_nearest. Qed.
Print Assumptions C53_projection_nearest.

(** C53. The tangent projection maps to the tangent space, fixes it, and is orthogonal. *)
Theorem C53_tangent : forall s d x z, surface_ok s d -> length x = d -> length z = d ->
  match s with SphereD => vnorm x <> 0 | PlaneD _ _ => True | StiefelD _ _ _ => on_surface s x end ->
  exists t, sdf_tan s (floats x) (floats z) = floats t /\ length t = d /\ tangent s x t /\ (tangent s x z -> t = z) /\
    forall w, length w = d -> tangent s x w -> dot (vsub z t) w = 0.
Proof. exact tangent_ok. Qed.
Print Assumptions C53_tangent.

(** the matrix of [get_proj_matrix] is the same map (sphere and plane) *)
Theorem C53_projection_matrix : forall s d x z, surface_ok s d -> (forall n k svd, s <> StiefelD n k svd) -> length x = d -> length z = d ->
  match s with SphereD => vnorm x <> 0 | _ => True end ->
  forall i, (i < d)%nat -> nth_error (sdf_tan s (floats x) (floats z)) i = Some (fsum_to d (fun j => fmul (sdf_matrix s (floats x) i j) (Fin (coord j z)))).
Proof. exact matrix_ok. Qed.
Print Assumptions C53_projection_matrix.

(** [grad] is the gradient of the signed distance, [Laplacian] the divergence of the gradient field *)
Theorem C53_sphere_gradient : forall x, vnorm x <> 0 -> exists g, sdf_grad SphereD (floats x) = floats g /\ gradient_at (fun p => vnorm p - 1) x g.
Proof. exact sphere_gradient. Qed.
Print Assumptions C53_sphere_gradient.

Theorem C53_sphere_laplacian : forall x, vnorm x <> 0 ->
  exists H, jacobian_at (fun p => vscal (/ vnorm p) p) x H /\ sdf_lap SphereD (floats x) = Fin (msum (length x) (fun i => H i i)).
Proof. exact sphere_laplacian. Qed.
Print Assumptions C53_sphere_laplacian.

Theorem C53_plane_gradient : forall a b x, length a = length x -> vnorm a <> 0 ->
  exists g, sdf_grad (PlaneD a b) (floats x) = floats g /\ gradient_at (fun p => (dot a p - b) / vnorm a) x g.
Proof. exact plane_gradient. Qed.
Print Assumptions C53_plane_gradient.

(** C53. After at least one step of any run, every particle with finite coordinates is on the surface. *)
Theorem C53_runs_on_surface : forall sd noise d, surface_ok sd d -> forall (c : cfg R vec) n s u log, (forall v, c_pp c v = v) ->
  vexec (hyper_inner (surface_of sd noise)) (fun _ => tt) c n (s, u) log -> n <> 0%nat ->
  forall m k p, cell (s_x s) m k = Some (floats p) -> length p = d -> on_surface sd p.
Proof. exact hyper_runs_on_surface. Qed.
Print Assumptions C53_runs_on_surface.

(** with the default post-processing all particles are finite; one that is not on the sphere has a coordinate equal to the threshold *)
Theorem C53_runs_default_post_processing : forall noise t (c : cfg R vec) n s u log, 1 < t -> c_pp c = pp_point t false ->
  vexec (hyper_inner (surface_of SphereD noise)) (fun _ => tt) c n (s, u) log -> n <> 0%nat ->
  forall m k v, cell (s_x s) m k = Some v -> v <> [] -> exists p, v = floats p /\ (sphere 1 p \/ In t p).
Proof. exact hyper_runs_default. Qed.
Print Assumptions C53_runs_default_post_processing.

(** C53. That case is real: a particle that reaches the centre is thrown to (t, ..., t). *)
Theorem C53_centre_refuted : forall t d, 0 < t -> pp_point t false (sdf_proj SphereD (floats (repeat 0 d))) = floats (repeat t d).
Proof. exact sphere_origin. Qed.
Print Assumptions C53_centre_refuted.

Example C53_case : surface_ok SphereD 3 /\ surface_ok (PlaneD [3; 4] 1) 2 /\
  tangent SphereD [1; 0] [0; 5] /\ ~ tangent SphereD [1; 0] [1; 5].
Proof. exact ex_surfaces. Qed.
Example C53_stiefel_case : surface_ok (StiefelD 2 1 svd35) 2 /\ svd35 (floats [3/5; 4/5]) <> None /\ on_surface (StiefelD 2 1 svd35) [3/5; 4/5].
Proof. exact svd35_ok. Qed.
Example C53_run_case : exists (c : cfg R vec) s log, (forall v, c_pp c v = v) /\
  vexec (hyper_inner (surface_of SphereD NIso)) (fun _ => tt) c 1 (s, tt) log /\ surface_ok SphereD 1 /\
  cell (s_x s) 0 0 = Some (floats [1]).
Proof. exact ex_hyper. Qed.
