(** * C103: the moves of HyperSurfaceCBO *)
From Coq Require Import List Arith Bool Reals Lia Lra.
From Verif Require Import Scalar Np State Pdyn Exec MemSpec RVec RVecFacts Consensus ConsSpec MirrorSpec HyperMaps HyperSpec Cbo CboSpec Variant VarSpec VarExactSpec MomentSpec
  HyperRun HyperMoveSpec HyperMoveFacts HyperMoveRun HyperTotal HyperMoveMore StiefelNoise MatSqrt MatSpec ExCbo ExMoment ExMs ExHyperMove ExStiefel.
Import ListNotations.
Open Scope R_scope.

(** C103. While all runs are active, no step fails, whatever the surface and the draws ... *)
Theorem C103_total : forall K V (O : KOps K) S (c : cfg K V) n s u log o, one_consensus_point c ->
  vexec (hyper_inner S) (fun _ => tt) c n (s, u) log -> perms_valid o s -> length (s_active s) = s_M s ->
  exists s', vstep (hyper_inner S) c o (s, u) = Ok (s', u).
Proof. intros K V O. exact hyper_total. Qed.
Print Assumptions C103_total.
(** ... and it moves every particle to the projection of its x_tilde. *)
Theorem C103_step : forall f k pp b partial cat ks save sd n s log o s' u', let c := hyper_cfg f k pp b partial cat ks save in
  vexec (hyper_inner (surface_of sd k)) (fun _ => tt) c n (s, tt) log -> perms_valid o s -> length (s_active s) = s_M s ->
  vstep (hyper_inner (surface_of sd k)) c o (s, tt) = Ok (s', u') ->
  forall m i v, cell (s_x s) m i = Some v -> exists cp, own_consensus c o s m cp /\
    cell (s_x s') m i = Some (pp (sdf_proj sd (x_tilde sd k (s_dt s) (s_sigma s) v cp (o_z o m i)))).
Proof. exact hyper_tilde. Qed.
Print Assumptions C103_step.

(** C103. On the sphere the correction of isotropic noise keeps the squared distance from the centre before the projection, on average, up to order dt^2. *)
Theorem C103_isotropic : forall sg x cp d, vnorm x = 1 -> length x = d -> length cp = d -> exists C, 0 <= C /\
  forall dt Om (A : average Om) xi, 0 <= dt -> white A d 1 xi -> exists q, (forall w, x_tilde SphereD NIso (Fin dt) (Fin sg) (floats x) (floats cp) (floats (xi w)) = floats (q w)) /\
    mean_is A (fun w => sqnorm (q w)) (1 + dt ^ 2 * C).
Proof. exact iso_keeps. Qed.
Print Assumptions C103_isotropic.
(** The error of first order for every noise model: none for isotropic noise, but the correction of anisotropic noise has (sum u_i x_i)^2 where sum u_i^2 x_i^2 is needed,
    and constant noise has the correction of isotropic noise. *)
Theorem C103_first_order : forall k sg x cp d, vnorm x = 1 -> length x = d -> length cp = d -> exists C, 0 <= C /\
  forall dt Om (A : average Om) xi, 0 <= dt -> white A d 1 xi -> exists q, (forall w, x_tilde SphereD k (Fin dt) (Fin sg) (floats x) (floats cp) (floats (xi w)) = floats (q w)) /\
    mean_is A (fun w => sqnorm (q w)) (1 + dt * sg ^ 2 * defect k x (vsub x cp) + dt ^ 2 * C).
Proof. exact sphere_mean. Qed.
Print Assumptions C103_first_order.
Theorem C103_anisotropic_refuted : exists x cp, vnorm x = 1 /\ vnorm cp = 1 /\ length x = 2%nat /\ length cp = 2%nat /\ exists del, del < 0 /\ forall sg, exists C, 0 <= C /\
  forall dt Om (A : average Om) xi, 0 <= dt -> white A 2 1 xi -> exists q, (forall w, x_tilde SphereD NAniso (Fin dt) (Fin sg) (floats x) (floats cp) (floats (xi w)) = floats (q w)) /\
    mean_is A (fun w => sqnorm (q w)) (1 + dt * sg ^ 2 * del + dt ^ 2 * C).
Proof. exact aniso_drifts. Qed.
Print Assumptions C103_anisotropic_refuted.
Theorem C103_constant_refuted : exists x cp, vnorm x = 1 /\ vnorm cp = 1 /\ length x = 2%nat /\ length cp = 2%nat /\ exists del, 0 < del /\ forall sg, exists C, 0 <= C /\
  forall dt Om (A : average Om) xi, 0 <= dt -> white A 2 1 xi -> exists q, (forall w, x_tilde SphereD NConst (Fin dt) (Fin sg) (floats x) (floats cp) (floats (xi w)) = floats (q w)) /\
    mean_is A (fun w => sqnorm (q w)) (1 + dt * sg ^ 2 * del + dt ^ 2 * C).
Proof. exact const_drifts. Qed.
Print Assumptions C103_constant_refuted.

(** C103. On the Stiefel manifold too: the number (2 n - k - 1) / 2 given as the Laplacian of the distance is the one for which the correction of isotropic noise keeps X^T X = I
    before the projection, on average, up to order dt^2; C does not depend on dt or on the draws. *)
Theorem C103_stiefel_isotropic : forall n k svd sg x cp, stiefel n k x -> length x = (n * k)%nat -> length cp = (n * k)%nat -> exists C : mat,
  forall dt Om (A : average Om) xi, 0 <= dt -> white A (n * k) 1 xi -> exists q,
    (forall w, x_tilde (StiefelD n k svd) NIso (Fin dt) (Fin sg) (floats x) (floats cp) (floats (xi w)) = floats (q w)) /\
    forall i j, (i < k)%nat -> (j < k)%nat -> mean_is A (fun w => mmul n (mtr (entry k (q w))) (entry k (q w)) i j) (mid i j + dt ^ 2 * C i j).
Proof. exact stiefel_iso. Qed.
Print Assumptions C103_stiefel_isotropic.
(** a rotation of the plane, three fair signs and their product as noise *)
Example C103_stiefel_case : stiefel 2 2 [3/5; -4/5; 4/5; 3/5] /\ length [3/5; -4/5; 4/5; 3/5] = (2 * 2)%nat /\ length [1; 2; 3; 4] = (2 * 2)%nat /\ white walsh (2 * 2) 1 xi4.
Proof. split; [exact rotation_stiefel|]. split; [reflexivity|]. split; [reflexivity|]. exact xi4_white. Qed.

(** C103. On a plane isotropic noise is not corrected (there is no curvature) ... *)
Theorem C103_plane_isotropic : forall a b dt sg x cp d, surface_ok (PlaneD a b) d -> length x = d -> length cp = d ->
  h_nc (surface_of (PlaneD a b) NIso) (Fin dt) (Fin sg) (floats x) (floats (vsub x cp)) = floats (repeat 0 d).
Proof. exact plane_iso. Qed.
Print Assumptions C103_plane_isotropic.
(** ... but anisotropic noise is, along the plane, with the term meant for the sphere. *)
Theorem C103_plane_anisotropic_refuted : exists a b x cp, surface_ok (PlaneD a b) 2 /\ plane a b x /\ plane a b cp /\ length x = 2%nat /\ length cp = 2%nat /\
  forall dt sg, h_nc (surface_of (PlaneD a b) NAniso) (Fin dt) (Fin sg) (floats x) (floats (vsub x cp)) = floats [0; - 6 * dt * sg ^ 2].
Proof. exact plane_aniso. Qed.
Print Assumptions C103_plane_anisotropic_refuted.

(** C103. On the sphere and the Stiefel manifold a run in consensus at a point of the surface stays there for ever (noise models that vanish with the drift). *)
Theorem C103_consensus_stays : forall (f : vec -> fl R) k (pp : vec -> vec) b partial cat ks save sd n s log d m p j s', let c := hyper_cfg f k pp b partial cat ks save in
  surface_ok sd d -> on_surface sd p -> length p = d -> k <> NConst -> (forall a b, sd <> PlaneD a b) ->
  match sd with StiefelD _ _ svd => svd (floats p) <> None | _ => True end -> (exists y, f (floats p) = Fin y) -> pp (floats p) = floats p ->
  vexec (hyper_inner (surface_of sd k)) (fun _ => tt) c n (s, tt) log -> finite_alpha s -> finite_parameters s -> all_at s m p -> moves c (surface_of sd k) d s j s' -> all_at s' m p.
Proof. exact stays. Qed.
Print Assumptions C103_consensus_stays.
(** On a plane it does not: the drift is dt P(consensus), not dt P(consensus - x), and the run leaves the foot point of the plane by a factor 1 + dt in every step. *)
Theorem C103_plane_consensus_refuted : forall (f : vec -> fl R) k (pp : vec -> vec) b partial cat ks save sd a b' n s log d m p dt j s', let c := hyper_cfg f k pp b partial cat ks save in
  sd = PlaneD a b' -> surface_ok sd d -> plane a b' p -> length p = d -> k <> NConst ->
  (forall q, length q = d -> exists y, f (floats q) = Fin y) -> (forall q, length q = d -> pp (floats q) = floats q) ->
  vexec (hyper_inner (surface_of sd k)) (fun _ => tt) c n (s, tt) log -> finite_alpha s -> finite_parameters s -> s_dt s = Fin dt -> all_at s m p -> moves c (surface_of sd k) d s j s' ->
  all_at s' m (vadd (foot a b') (vscal ((1 + dt) ^ j) (vsub p (foot a b')))).
Proof. exact runs_away. Qed.
Print Assumptions C103_plane_consensus_refuted.

(** C103. lamda, which the documentation calls the drift parameter, changes nothing. *)
Theorem C103_lamda_refuted : forall K V (O : KOps K) S (c : cfg K V) n s log o la, one_consensus_point c ->
  vexec (hyper_inner S) (fun _ => tt) c n (s, tt) log -> perms_valid o s -> s_active s <> [] -> length (s_active s) = s_M s ->
  exists s1 s2, vstep (hyper_inner S) c o (s, tt) = Ok (s1, tt) /\ vstep (hyper_inner S) c o (set_lamda la s, tt) = Ok (s2, tt) /\ s_x s1 = s_x s2.
Proof. exact lamda_nothing. Qed.
Print Assumptions C103_lamda_refuted.

(** two independent fair signs as noise; a run on the circle in consensus at (3/5, 4/5) and one on the line x_1 = 3 in consensus at (3, 4), both beside a run that is not in consensus *)
Example C103_hypotheses : vnorm [3/5; 4/5] = 1 /\ white sign_avg 2 1 sxi /\
  (exists s s', let c := hyper_cfg sqf NIso (fun v => v) 2 true false [] false in
    vexec (hyper_inner (surface_of SphereD NIso)) (fun _ => tt) c 0 (s, tt) [] /\ s_active s = [0; 1]%nat /\ length (s_active s) = s_M s /\ perms_valid corc s /\ finite_alpha s /\
    parameters 1 (1 / 2) 2 s /\ all_at s 1 [3/5; 4/5] /\ moves c (surface_of SphereD NIso) 2 s 7 s') /\ surface_ok SphereD 2 /\ on_surface SphereD [3/5; 4/5] /\
  (exists s s', let c := hyper_cfg sqf NAniso (fun v => v) 3 true false [] false in let S := surface_of (PlaneD [1; 0] 3) NAniso in
    vexec (hyper_inner S) (fun _ => tt) c 0 (s, tt) [] /\ s_active s = [0; 1]%nat /\ length (s_active s) = s_M s /\ perms_valid corc s /\ finite_alpha s /\
    parameters 1 (1 / 2) 2 s /\ all_at s 1 [3; 4] /\ moves c S 2 s 7 s') /\ surface_ok (PlaneD [1; 0] 3) 2 /\ plane [1; 0] 3 [3; 4] /\ foot [1; 0] 3 = [3; 0].
Proof.
  assert (H1 : vnorm [3/5; 4/5] = 1) by (unfold vnorm, sqnorm, dot; cbn; replace (_ + _) with 1 by field; apply sqrt_1).
  split; [exact H1|]. split; [exact sxi_white|]. split; [apply (hmoves NIso 2 SphereD [3/5; 4/5] 7); lia|]. split; [split; [lia|exact I]|]. split; [exact H1|].
  split; [apply (hmoves NAniso 3 (PlaneD [1; 0] 3) [3; 4] 7); lia|]. split.
  - split; [lia|]. split; auto. unfold vnorm, sqnorm, dot. cbn. replace (_ + _) with 1 by ring. rewrite sqrt_1. lra.
  - split; [unfold plane, dot; cbn; ring|]. unfold foot, vscal, sqnorm, dot. cbn. f_equal; [|f_equal]; field.
Qed.
