(** * Mirror maps: statements about the maps and MirrorCBO *)
From Coq Require Import List Arith Reals Lra Lia.
From Verif Require Import Scalar Np NpFacts State Pdyn Exec RVec RVecFacts ConsSpec Cbo CboSpec CboFacts PostProc PolarFacts RegFacts MatSqrt MatSpec MemSpec MemMove Variant VarSpec VarFacts VarMove
  MirrorMaps MirrorSpec MirrorFacts MirrorProj MirrorSquare MirrorStiefel.
Import ListNotations.
Open Scope R_scope.

Lemma ball_inverse : forall r center x, 0 < r -> length center = 1%nat \/ length center = length x -> ball r (along (length x) center) x ->
  mm_conj (ProjectionBall r center) (mm_grad (ProjectionBall r center) (floats x)) = floats x.
Proof. intros r center x Hr Hc HB. cbn [mm_grad]. rewrite ball_conj by auto. rewrite ball_fixed; auto. Qed.
Lemma plane_inverse : forall a b x, sqnorm a <> 0 -> length a = length x -> plane a b x ->
  mm_conj (ProjectionHyperplane a b) (mm_grad (ProjectionHyperplane a b) (floats x)) = floats x.
Proof. intros a b x Ha Hl HP. cbn [mm_grad]. rewrite plane_conj by auto. rewrite along_same, shift_fixed; auto. Qed.
Lemma sphere_nonzero : forall r x, 0 < r -> sphere r x -> x <> repeat 0 (length x).
Proof.
  intros r x Hr S E. unfold sphere in S. assert (vnorm x = 0); [|lra]. unfold vnorm. replace (sqnorm x) with 0. apply sqrt_0.
  rewrite E. unfold sqnorm. clear. induction (length x) as [|n IH]. reflexivity. cbn [repeat]. rewrite dot_cons. lra.
Qed.
Lemma sphere_inverse : forall r x, 0 < r -> sphere r x -> mm_conj (ProjectionSphere r) (mm_grad (ProjectionSphere r) (floats x)) = floats x.
Proof. intros r x Hr S. pose proof (sphere_nonzero r x Hr S). cbn [mm_grad]. rewrite sphere_conj by auto. rewrite sphere_fixed; auto. Qed.
Lemma square_nonnil : forall r x, square r x -> x <> [].
Proof. intros r x [_ (a & H & _)] ->. contradiction. Qed.
Lemma square_inverse : forall x, square 1 x -> mm_conj (ProjectionSquare 1) (mm_grad (ProjectionSquare 1) (floats x)) = floats x.
Proof. intros x S. pose proof (square_nonnil 1 x S). cbn [mm_grad]. rewrite square_conj by (auto; lra). rewrite square1_fixed; auto. Qed.
Lemma stiefel_inverse : forall n k svd x U s Vh, (k <= n)%nat -> length x = (n * k)%nat -> svd (floats x) = (U, Vh) -> svd_of n k x U s Vh -> stiefel n k x ->
  mm_conj (ProjectionStiefel n k svd) (mm_grad (ProjectionStiefel n k svd) (floats x)) = floats x.
Proof. intros n k svd x U s Vh Hk Hl E HS Sx. change (mm_grad _ _) with (floats x). rewrite (stiefel_conj n k svd x U s Vh) by auto. rewrite (polar_fixed n k x U s Vh); auto. Qed.

Lemma ball_projection : forall r center y, 0 < r -> length center = 1%nat \/ length center = length y ->
  exists p, mm_conj (ProjectionBall r center) (floats y) = floats p /\ nearest (ball r (along (length y) center)) y p.
Proof. intros r center y Hr Hc. eexists. split. apply ball_conj; auto. apply ball_nearest; auto. Qed.
Lemma plane_projection : forall a b y, sqnorm a <> 0 -> length a = length y ->
  exists p, mm_conj (ProjectionHyperplane a b) (floats y) = floats p /\ nearest (plane a b) y p.
Proof. intros a b y Ha Hl. eexists. split. apply plane_conj; auto. rewrite along_same by auto. apply shift_nearest; auto. Qed.
Lemma sphere_projection : forall r y, 0 <= r -> y <> repeat 0 (length y) ->
  exists p, mm_conj (ProjectionSphere r) (floats y) = floats p /\ nearest (sphere r) y p.
Proof. intros r y Hr Hy. eexists. split. apply sphere_conj; auto. apply sphere_nearest; auto. Qed.
Lemma nonzero_nonnil : forall y : list R, y <> repeat 0 (length y) -> y <> [].
Proof. intros y H ->. apply H. reflexivity. Qed.
Lemma square_projection : forall y, y <> repeat 0 (length y) ->
  exists p, mm_conj (ProjectionSquare 1) (floats y) = floats p /\ nearest (square 1) y p.
Proof. intros y Hy. eexists. split. apply square_conj; auto using nonzero_nonnil. apply square1_nearest; auto. Qed.
Lemma stiefel_projection : forall n k svd y U s Vh, (k <= n)%nat -> length y = (n * k)%nat -> svd (floats y) = (U, Vh) -> svd_of n k y U s Vh ->
  exists p, mm_conj (ProjectionStiefel n k svd) (floats y) = floats p /\ nearest (stiefel n k) y p.
Proof. intros n k svd y U s Vh Hk Hl E HS. eexists. split. apply (stiefel_conj n k svd y U s Vh); auto. apply (polar_nearest n k y U s Vh); auto. Qed.

Lemma ball_idempotent : forall r center y, 0 < r -> length center = 1%nat \/ length center = length y ->
  mm_conj (ProjectionBall r center) (mm_conj (ProjectionBall r center) (floats y)) = mm_conj (ProjectionBall r center) (floats y).
Proof.
  intros r center y Hr Hc. destruct (ball_projection r center y Hr Hc) as (p & E & L & B & _). rewrite E.
  apply ball_inverse; auto; rewrite L; auto.
Qed.
Lemma plane_idempotent : forall a b y, sqnorm a <> 0 -> length a = length y ->
  mm_conj (ProjectionHyperplane a b) (mm_conj (ProjectionHyperplane a b) (floats y)) = mm_conj (ProjectionHyperplane a b) (floats y).
Proof.
  intros a b y Ha Hl. destruct (plane_projection a b y Ha Hl) as (p & E & L & B & _). rewrite E. apply plane_inverse; auto. congruence.
Qed.
Lemma sphere_idempotent : forall r y, 0 < r -> y <> repeat 0 (length y) ->
  mm_conj (ProjectionSphere r) (mm_conj (ProjectionSphere r) (floats y)) = mm_conj (ProjectionSphere r) (floats y).
Proof.
  intros r y Hr Hy. destruct (sphere_projection r y) as (p & E & L & B & _); auto. lra. rewrite E. apply sphere_inverse; auto.
Qed.
Lemma square_idempotent : forall y, y <> repeat 0 (length y) ->
  mm_conj (ProjectionSquare 1) (mm_conj (ProjectionSquare 1) (floats y)) = mm_conj (ProjectionSquare 1) (floats y).
Proof. intros y Hy. destruct (square_projection y Hy) as (p & E & L & B & _). rewrite E. apply square_inverse; auto. Qed.

Lemma square_small_conj : forall r y, 0 < r < 1 -> y <> repeat 0 (length y) ->
  exists p, mm_conj (ProjectionSquare r) (floats y) = floats p /\ ~ square r p /\ ~ all_coord (fun a => Rabs a <= r) p.
Proof.
  intros r y Hr Hy. destruct (square_small r y Hr Hy) as (a & Ha & HL). exists (square_point r y).
  split. apply square_conj; auto using nonzero_nonnil. assert (~ all_coord (fun a => Rabs a <= r) (square_point r y)).
  { intros H. specialize (H a Ha). cbv beta in H. lra. } split; auto. intros [H0 _]. auto.
Qed.
Lemma square_large_conj : forall r y, 1 < r -> y <> [] -> all_coord (fun a => Rabs a < r) y ->
  exists p, mm_conj (ProjectionSquare r) (floats y) = floats p /\ all_coord (fun a => Rabs a < r) p /\ ~ square r p.
Proof.
  intros r y Hr Hn Hy. pose proof (square_large r y Hr Hy) as HL. exists (square_point r y). split. apply square_conj; auto. split; auto.
  intros [_ (a & Ha & E)]. specialize (HL a Ha). cbv beta in HL. lra.
Qed.
Lemma logbarrier_thrown : forall thresh y, 0 <= thresh -> In 0 y -> exists i, nth_error y i = Some 0 /\
  nth_error (mm_conj LogBarrierBox (floats y)) i = Some NaN /\
  nth_error (pp_point thresh false (mm_conj LogBarrierBox (floats y))) i = Some (Fin thresh).
Proof.
  intros thresh y Ht H. destruct (logbarrier_zero y H) as (i & E1 & E2). exists i. split; auto. split; auto.
  unfold pp_point. rewrite nth_error_map, E2. cbn [option_map]. f_equal. unfold pp_default, nan_to_num. rewrite np_clip_fin. f_equal.
  apply clipr_high; lra.
Qed.

(** ** MirrorCBO *)
Lemma l2_one : forall v : vec, mm_conj (L2 1) v = v /\ mm_grad (L2 1) v = v.
Proof.
  assert (H1 : forall a : fl R, fmul (Fin 1) a = a).
  { intros [x| | |]; cbn; auto. f_equal. ring. apply pos_inf. lra. unfold inf_sign. cbn. replace (Rltb 0 1) with true; auto. symmetry. apply Rltb_true. lra. }
  intros v. cbn [mm_conj mm_grad]. rewrite fdiv_fin by lra. replace (1 / 1) with 1 by field. split; (rewrite <- (map_id v) at 2; apply map_ext; auto).
Qed.

Lemma mirror_default_cbo : forall (c : cfg R vec) n s y log, (forall v, c_pp c v = v) ->
  vexec (mirror_inner (mm_conj (L2 1))) (mirror_attr (mm_grad (L2 1))) c n (s, y) log -> exec c s log /\ y = s_x s.
Proof. intros c n s y log Hp H. refine (mirror_is_cbo _ _ _ _ _ _ _ _ _ _ H); auto; intros; apply l2_one. Qed.

Lemma mirror_feasible_points : forall mm (D C : list R -> Prop), (forall q, D q -> exists p, mm_conj mm (floats q) = floats p /\ C p) ->
  forall (c : cfg R vec) n s y log, vexec (mirror_inner (mm_conj mm)) (mirror_attr (mm_grad mm)) c n (s, y) log -> n <> 0%nat ->
  forall m k q, cell y m k = Some (floats q) -> D q -> exists p, cell (s_x s) m k = Some (c_pp c (floats p)) /\ C p.
Proof.
  intros mm D C HD c n s y log H Hn m k q Hq Dq. destruct (HD q Dq) as (p & E & HC). exists p. split; auto.
  rewrite (mirror_dual _ _ _ _ _ _ _ H Hn). unfold cell in *. rewrite nth_error_map. destruct (nth_error y m) as [row|]; [|discriminate].
  cbn [option_map]. rewrite nth_error_map, Hq. cbn [option_map]. rewrite E. auto.
Qed.

Lemma mirror_ball : forall r center, 0 < r -> forall (c : cfg R vec) n s y log,
  vexec (mirror_inner (mm_conj (ProjectionBall r center))) (mirror_attr (mm_grad (ProjectionBall r center))) c n (s, y) log -> n <> 0%nat ->
  forall m k q, cell y m k = Some (floats q) -> length q = length center ->
  exists p, cell (s_x s) m k = Some (c_pp c (floats p)) /\ ball r center p.
Proof.
  intros r center Hr c n s y log H Hn m k q Hq Hl.
  refine (mirror_feasible_points (ProjectionBall r center) (fun q => length q = length center) (ball r center) _ c n s y log H Hn m k q Hq Hl).
  intros q' Hq'. destruct (ball_projection r center q') as (p & E & _ & B & _); auto. exists p. split; auto. rewrite along_same in B; auto.
Qed.
Lemma mirror_simplex : forall (c : cfg R vec) n s y log,
  vexec (mirror_inner (mm_conj EntropySimplex)) (mirror_attr (mm_grad EntropySimplex)) c n (s, y) log -> n <> 0%nat ->
  forall m k q, cell y m k = Some (floats q) -> q <> [] ->
  exists p, cell (s_x s) m k = Some (c_pp c (floats p)) /\ simplex p.
Proof.
  intros c n s y log H Hn m k q Hq Hl.
  refine (mirror_feasible_points EntropySimplex (fun q => q <> []) simplex _ c n s y log H Hn m k q Hq Hl).
  intros q' Hq'. destruct (simplex_feasible q' Hq') as (p & E & _ & B & _). exists p. auto.
Qed.
