(** * Mirror maps: the projections *)
From Coq Require Import List Arith Reals Lra Lia Psatz Permutation.
From Verif Require Import Scalar Np NpFacts Consensus PostProc RVec RVecFacts ConsSpec ConsFacts PolarFacts RegFacts Cbo CboSpec CboFacts MirrorMaps MirrorSpec MirrorFacts.
Import ListNotations.
Open Scope R_scope.

(** ** vectors *)
Lemma sqnorm_add : forall u v, length u = length v -> sqnorm (vadd u v) = sqnorm u + 2 * dot u v + sqnorm v.
Proof.
  intros u v H. unfold sqnorm. rewrite dot_vadd_l by auto. rewrite !dot_vadd_r by auto. rewrite (dot_comm v u). ring.
Qed.
Lemma sqnorm_sub : forall u v, length u = length v -> sqnorm (vsub u v) = sqnorm u - 2 * dot u v + sqnorm v.
Proof.
  intros u v H. unfold sqnorm. rewrite dot_vsub_l by auto. rewrite !dot_vsub_r by auto. rewrite (dot_comm v u). ring.
Qed.
Lemma sqnorm_scal : forall a u, sqnorm (vscal a u) = a * a * sqnorm u.
Proof. intros. unfold sqnorm. rewrite dot_vscal_l, dot_vscal_r. ring. Qed.
Lemma vnorm_triangle : forall u v, length u = length v -> vnorm (vadd u v) <= vnorm u + vnorm v.
Proof.
  intros u v H. pose proof (vnorm_nonneg u). pose proof (vnorm_nonneg v). apply Rsqr_incr_0_var; [|lra]. unfold Rsqr.
  rewrite vnorm_sq, sqnorm_add by auto. pose proof (dot_cs_norm u v H) as C. apply Rabs_le_between in C || pose proof (Rle_abs (dot u v)).
  pose proof (vnorm_sq u). pose proof (vnorm_sq v). nra.
Qed.
Lemma dist_sq : forall p q, dist p q * dist p q = sqnorm (vsub p q).
Proof. intros. apply vnorm_sq. Qed.
Lemma dist_le_sq : forall a b c e, sqnorm (vsub a b) <= sqnorm (vsub c e) -> dist a b <= dist c e.
Proof. intros. unfold dist, vnorm. apply sqrt_le_1; auto; apply sqnorm_nonneg. Qed.
Lemma along_same : forall d a, length a = d -> along d a = a.
Proof. intros d a H. destruct a as [|v [|w a]]; cbn in *; auto. subst. reflexivity. Qed.
Lemma along_length : forall d a, length a = 1%nat \/ length a = d -> length (along d a) = d.
Proof. intros d a [H|H]. destruct a as [|v [|w a]]; cbn in *; try lia. apply repeat_length. rewrite along_same; auto. Qed.
Lemma vnorm_pos : forall u, u <> repeat 0 (length u) -> 0 < vnorm u.
Proof.
  intros u H. pose proof (vnorm_nonneg u). destruct (Req_dec (vnorm u) 0) as [E|E]; [|lra]. exfalso. apply H.
  apply (coord_ext _ _ (length u)); auto. apply repeat_length. intros i Hi. unfold coord. rewrite nth_repeat. apply vnorm_0; auto.
Qed.

(** ** ball *)
Section Ball.
  Variables (r : R) (center y : list R).
  Hypothesis (Hr : 0 < r) (Hc : length center = 1%nat \/ length center = length y).
  Let c := along (length y) center.
  Let u := vsub y c.
  Let q := Rmax 1 (vnorm u / r).
  Definition ball_point : list R := vadd c (vscal (/ q) u).
  Lemma ball_q : 1 <= q.
  Proof. apply Rmax_l. Qed.
  Lemma ball_conj : mm_conj (ProjectionBall r center) (floats y) = floats ball_point.
  Proof.
    cbn [mm_conj]. replace (length (floats y)) with (length y) by (unfold floats; rewrite map_length; auto). fold c.
    replace (map2 fsub (floats y) (map Fin c)) with (floats u) by (symmetry; apply floats_sub).
    replace (fnorm (floats u)) with (Fin (vnorm u)) by (symmetry; apply fnorm_floats). rewrite fdiv_fin by lra. rewrite fmax_fin. fold q.
    replace (map (fun a => fdiv a (Fin q)) (floats u)) with (floats (vscal (/ q) u)). apply floats_add.
    unfold floats, vscal. rewrite !map_map. apply map_ext. intros a. rewrite fdiv_fin. f_equal. unfold Rdiv. ring. pose proof ball_q. lra.
  Qed.
  Lemma c_len : length c = length y.
  Proof. apply along_length; auto. Qed.
  Lemma u_len : length u = length y.
  Proof. apply length_vsub; auto. apply c_len. Qed.
  Lemma ball_len : length ball_point = length y.
  Proof. apply length_vadd. apply c_len. rewrite length_vscal. apply u_len. Qed.
  Lemma ball_sub_c : vsub ball_point c = vscal (/ q) u.
  Proof.
    apply (coord_ext _ _ (length y)). apply length_vsub. apply ball_len. apply c_len. rewrite length_vscal. apply u_len. intros i Hi.
    rewrite coord_vsub by (rewrite ball_len, c_len; auto). unfold ball_point. rewrite coord_vadd by (rewrite length_vscal, u_len, c_len; auto). ring.
  Qed.
  Lemma ball_sub_y : vsub y ball_point = vscal (1 - / q) u.
  Proof.
    apply (coord_ext _ _ (length y)). apply length_vsub; auto. apply ball_len. rewrite length_vscal. apply u_len. intros i Hi.
    rewrite coord_vsub by (rewrite ball_len; auto). unfold ball_point. rewrite coord_vadd by (rewrite length_vscal, u_len, c_len; auto).
    rewrite !coord_vscal. unfold u. rewrite !coord_vsub by (rewrite c_len; auto). ring.
  Qed.
  Lemma ball_feasible : ball r c ball_point.
  Proof.
    unfold ball, dist. rewrite ball_sub_c, vnorm_scal. pose proof ball_q. assert (0 < / q) by (apply Rinv_0_lt_compat; lra). rewrite Rabs_right by lra.
    assert (vnorm u / r <= q) by apply Rmax_r. apply (Rmult_le_reg_l q). lra. rewrite <- Rmult_assoc, Rinv_r, Rmult_1_l by lra.
    apply (Rmult_le_reg_r (/ r)). apply Rinv_0_lt_compat; auto. rewrite Rmult_assoc, Rinv_r by lra. unfold Rdiv in H1. lra.
  Qed.
  Lemma ball_nearest : nearest (ball r c) y ball_point.
  Proof.
    split. apply ball_len. split. apply ball_feasible. intros z Hz Bz. unfold dist. rewrite ball_sub_y, vnorm_scal. pose proof ball_q.
    assert (HI : 0 < / q <= 1). { split. apply Rinv_0_lt_compat; lra. rewrite <- Rinv_1. apply Rinv_le_contravar; lra. }
    rewrite Rabs_right by lra.
    assert (T : vnorm u <= vnorm (vsub y z) + vnorm (vsub z c)).
    { replace u with (vadd (vsub y z) (vsub z c)).
      - apply vnorm_triangle. rewrite (length_vsub y z (length y)), (length_vsub z c (length y)); auto. apply c_len.
      - apply (coord_ext _ _ (length y)). apply length_vadd; apply length_vsub; auto using c_len. apply u_len. intros i Hi.
        rewrite coord_vadd by (rewrite (length_vsub y z (length y)), (length_vsub z c (length y)); auto using c_len).
        unfold u. rewrite !coord_vsub by (rewrite ?c_len; auto). ring. }
    unfold ball, dist in Bz. destruct (Rle_dec 1 (vnorm u / r)) as [L|L].
    - assert (Eq : q = vnorm u / r) by (apply Rmax_right; auto). assert (vnorm u = q * r) by (rewrite Eq; field; lra).
      replace ((1 - / q) * vnorm u) with (vnorm u - r). lra. rewrite H0. field. lra.
    - assert (Eq : q = 1) by (apply Rmax_left; lra). rewrite Eq, Rinv_1. pose proof (vnorm_nonneg (vsub y z)). lra.
  Qed.
  Lemma ball_fixed : ball r c y -> ball_point = y.
  Proof.
    intros B. assert (Eq : q = 1). { apply Rmax_left. unfold ball, dist in B. fold u in B. apply (Rmult_le_reg_r r); auto. unfold Rdiv.
      rewrite Rmult_assoc, Rinv_l by lra. lra. }
    apply (coord_ext _ _ (length y)); auto. apply ball_len. intros i Hi. unfold ball_point. rewrite coord_vadd by (rewrite length_vscal, u_len, c_len; auto).
    rewrite coord_vscal, Eq, Rinv_1. unfold u. rewrite coord_vsub by (rewrite c_len; auto). ring.
  Qed.
End Ball.

(** ** hyperplane *)
Section Plane.
  Variables (a : list R) (b : R).
  Hypothesis Ha : sqnorm a <> 0.
  Definition plane_shift (w y : list R) : list R := vsub y (vscal ((dot w y - b) / sqnorm a) w).
  Lemma plane_conj : forall y, mm_conj (ProjectionHyperplane a b) (floats y) = floats (plane_shift (along (length y) a) y).
  Proof.
    intros y. cbn [mm_conj]. replace (length (floats y)) with (length y) by (unfold floats; rewrite map_length; auto).
    set (w := along (length y) a). change (map Fin w) with (floats w). rewrite floats_mul. unfold floats at 2. rewrite fsum_fin. fold (dot w y).
    cbn [fsub]. cbn [ksub KOps_R]. rewrite fdiv_fin by auto. rewrite floats_scal. apply floats_sub.
  Qed.
  Lemma shift_len : forall y, length a = length y -> length (plane_shift a y) = length y.
  Proof. intros. apply length_vsub; auto. rewrite length_vscal; auto. Qed.
  Lemma shift_feasible : forall y, length a = length y -> plane a b (plane_shift a y).
  Proof.
    intros y H. unfold plane, plane_shift. rewrite dot_vsub_r by (rewrite length_vscal; auto). rewrite dot_vscal_r. fold (sqnorm a). field. auto.
  Qed.
  Lemma shift_sub : forall y, length a = length y -> vsub y (plane_shift a y) = vscal ((dot a y - b) / sqnorm a) a.
  Proof.
    intros y H. apply (coord_ext _ _ (length y)). apply length_vsub; auto. apply shift_len; auto. rewrite length_vscal; auto. intros i Hi.
    rewrite coord_vsub by (rewrite shift_len; auto). unfold plane_shift. rewrite coord_vsub by (rewrite length_vscal; auto). ring.
  Qed.
  Lemma shift_nearest : forall y, length a = length y -> nearest (plane a b) y (plane_shift a y).
  Proof.
    intros y H. split. apply shift_len; auto. split. apply shift_feasible; auto. intros q Hq Pq. apply dist_le_sq.
    rewrite shift_sub by auto. rewrite sqnorm_scal. pose proof (sqnorm_nonneg a).
    pose proof (dot_cs a (vsub y q)) as C. rewrite (length_vsub y q (length y)) in C by auto. specialize (C H).
    rewrite dot_vsub_r in C by auto. unfold plane in Pq. rewrite Pq in C.
    apply (Rmult_le_reg_l (sqnorm a)). lra. eapply Rle_trans; [|exact C]. apply Req_le. field. auto.
  Qed.
  Lemma shift_fixed : forall y, length a = length y -> plane a b y -> plane_shift a y = y.
  Proof.
    intros y H P. apply (coord_ext _ _ (length y)); auto. apply shift_len; auto. intros i Hi. unfold plane_shift.
    rewrite coord_vsub by (rewrite length_vscal; auto). rewrite coord_vscal. unfold plane in P. rewrite P. unfold Rdiv. ring.
  Qed.
End Plane.

(** the default normal: one entry *)
Lemma plane_default : forall b (y : list R), (2 <= length y)%nat ->
  exists p, mm_conj (ProjectionHyperplane [1] b) (floats y) = floats p /\ length p = length y /\
    (plane (repeat 1 (length y)) b p <-> plane (repeat 1 (length y)) b y).
Proof.
  intros b y Hd. assert (E1 : sqnorm [1] = 1) by (unfold sqnorm, dot; cbn; ring). eexists. split. apply plane_conj. rewrite E1; lra.
  cbn [along]. assert (HL : length (repeat 1 (length y)) = length y) by apply repeat_length.
  split. { apply length_vsub; auto. rewrite length_vscal; auto. }
  unfold plane, plane_shift. rewrite dot_vsub_r by (rewrite length_vscal; auto). rewrite dot_vscal_r, E1.
  assert (E2 : dot (repeat 1 (length y)) (repeat 1 (length y)) = INR (length y)).
  { clear. induction (length y) as [|n IH]. reflexivity. cbn [repeat]. rewrite dot_cons, IH, S_INR. ring. }
  rewrite E2. apply le_INR in Hd. cbn in Hd. set (s := dot _ y). split; intros E.
  - assert ((s - b) * (1 - INR (length y)) = 0) as Z. { unfold Rdiv in E. rewrite Rinv_1 in E. lra. }
    apply Rmult_integral in Z. destruct Z; lra.
  - rewrite E. unfold Rdiv. rewrite Rinv_1. ring.
Qed.

(** ** sphere *)
Section Sphere.
  Variables (r : R) (y : list R).
  Hypothesis (Hr : 0 <= r) (Hy : y <> repeat 0 (length y)).
  Definition sphere_point : list R := vscal (r / vnorm y) y.
  Lemma y_pos : 0 < vnorm y.
  Proof. apply vnorm_pos; auto. Qed.
  Lemma sphere_conj : mm_conj (ProjectionSphere r) (floats y) = floats sphere_point.
  Proof.
    cbn [mm_conj]. replace (fnorm (floats y)) with (Fin (vnorm y)) by (symmetry; apply fnorm_floats). unfold sphere_point, floats, vscal. rewrite !map_map.
    apply map_ext. intros a. cbn [fmul]. cbn [kmul KOps_R]. pose proof y_pos. rewrite fdiv_fin by lra. f_equal. field. lra.
  Qed.
  Lemma sphere_feasible : sphere r sphere_point.
  Proof.
    pose proof y_pos as P. unfold sphere, sphere_point. rewrite vnorm_scal, Rabs_right. field. lra. apply Rle_ge. unfold Rdiv.
    apply Rmult_le_pos; auto. apply Rlt_le, Rinv_0_lt_compat; auto.
  Qed.
  Lemma sphere_nearest : nearest (sphere r) y sphere_point.
  Proof.
    pose proof y_pos as P. assert (length sphere_point = length y) by apply length_vscal.
    split; auto. split. apply sphere_feasible. intros q Hq Sq. apply dist_le_sq. rewrite !sqnorm_sub by auto.
    assert (E1 : sqnorm sphere_point = r * r). { rewrite <- vnorm_sq. rewrite sphere_feasible. auto. }
    assert (E2 : sqnorm q = r * r). { rewrite <- vnorm_sq. unfold sphere in Sq. rewrite Sq. auto. }
    rewrite E1, E2. unfold sphere_point. rewrite dot_vscal_r. fold (sqnorm y). rewrite <- (vnorm_sq y).
    replace (r / vnorm y * (vnorm y * vnorm y)) with (r * vnorm y) by (field; lra).
    pose proof (dot_cs_norm y q) as C. rewrite Sq in C. pose proof (Rle_abs (dot y q)). specialize (C (eq_sym Hq)). lra.
  Qed.
  Lemma sphere_fixed : sphere r y -> sphere_point = y.
  Proof.
    intros S. apply (coord_ext _ _ (length y)); auto. apply length_vscal. intros i Hi. unfold sphere_point. rewrite coord_vscal.
    unfold sphere in S. pose proof y_pos. rewrite <- S. field. lra.
  Qed.
End Sphere.

(** ** barriers and simplex *)
Lemma logbarrier_range : forall y, y <> 0 -> -1 < logbarrier_conj y < 1.
Proof.
  intros y H. unfold logbarrier_conj. set (s := sqrt (1 + y * y)). assert (Hs : s * s = 1 + y * y) by (apply sqrt_sqrt; nra).
  assert (Hs0 : 0 <= s) by apply sqrt_pos. assert (1 < s) by nra.
  replace (-1 / y + 1 / y * s) with ((s - 1) / y) by (field; auto).
  destruct (Rlt_dec y 0) as [L|L].
  - assert (Hi : / y < 0) by (apply Rinv_lt_0_compat; auto). assert (Ey : y * / y = 1) by (field; auto). assert (s < 1 - y) by nra. unfold Rdiv.
    set (i := / y) in *. clearbody i. split; nra.
  - assert (0 < y) by lra. assert (Hi : 0 < / y) by (apply Rinv_0_lt_compat; auto). assert (Ey : y * / y = 1) by (field; auto). assert (s < 1 + y) by nra. unfold Rdiv.
    set (i := / y) in *. clearbody i. split; nra.
Qed.

Lemma logbarrier_feasible : forall y, all_coord (fun a => a <> 0) y ->
  exists p, mm_conj LogBarrierBox (floats y) = floats p /\ length p = length y /\ open_box p.
Proof.
  intros y H. exists (map logbarrier_conj y). split; [|split].
  - cbn [mm_conj]. unfold floats. rewrite !map_map. apply map_ext_in. intros a Ha. apply logbarrier_conj_fin. apply H; auto.
  - apply map_length.
  - intros a Ha. apply in_map_iff in Ha. destruct Ha as (t & <- & Ht). apply logbarrier_range. apply H; auto.
Qed.

Lemma fdiv_1_0 : fdiv (Fin 1) (Fin 0) = @PInf R.
Proof. unfold fdiv, k_is0. cbn. replace (Rltb 0 0) with false by (symmetry; apply Rltb_false; lra). cbn. apply pos_inf. lra. Qed.

Lemma logbarrier_zero : forall y, In 0 y -> exists i, nth_error y i = Some 0 /\ nth_error (mm_conj LogBarrierBox (floats y)) i = Some NaN.
Proof.
  intros y H. destruct (In_nth_error _ _ H) as [i E]. exists i. split; auto. cbn [mm_conj]. unfold floats. rewrite map_map, nth_error_map, E. cbn [option_map].
  f_equal. rewrite fdiv_1_0. replace (fdiv (Fin (-1)) (Fin 0)) with (@NInf R).
  - cbn [fmul fadd]. cbn [kmul kadd KOps_R]. rewrite fsqrt_fin by lra. cbn [fmul]. rewrite Rmult_0_l, Rplus_0_r, sqrt_1. rewrite pos_inf by lra. reflexivity.
  - unfold fdiv, k_is0. cbn. replace (Rltb 0 0) with false by (symmetry; apply Rltb_false; lra). cbn. symmetry. apply (neg_inf 1). lra.
Qed.

Lemma barrier_feasible : forall y, exists p, mm_conj NonsmoothBarrier (floats y) = floats p /\ length p = length y /\ open_box p.
Proof.
  intros y. exists (map (fun t => if Req_EM_T t 0 then 0 else rsign t * Rmax (1 - sqrt (1 / Rabs t)) 0) y). split; [|split].
  - cbn [mm_conj]. unfold floats. rewrite !map_map. apply map_ext_in. intros a Ha. destruct (Req_EM_T a 0) as [->|N].
    + cbn [fabs]. rewrite Rabs_R0, fdiv_1_0, fsign_fin, rsign_0. cbn [fsqrt fsub fadd fopp]. unfold fmax. cbn. f_equal. ring.
    + cbn [fabs]. rewrite fdiv_fin by (apply Rabs_no_R0; auto). assert (0 < 1 / Rabs a). { apply Rdiv_lt_0_compat. lra. apply Rabs_pos_lt; auto. }
      rewrite fsqrt_fin by lra. cbn [fsub]. cbn [ksub KOps_R]. rewrite fmax_fin, fsign_fin. reflexivity.
  - apply map_length.
  - intros a Ha. apply in_map_iff in Ha. destruct Ha as (t & <- & Ht). cbv beta. destruct (Req_EM_T t 0) as [->|N]. lra.
    assert (0 < sqrt (1 / Rabs t)). { apply sqrt_lt_R0, Rdiv_lt_0_compat. lra. apply Rabs_pos_lt; auto. }
    assert (0 <= Rmax (1 - sqrt (1 / Rabs t)) 0 < 1). { split. apply Rmax_r. apply Rmax_lub_lt; lra. }
    destruct (Rtotal_order t 0) as [L|[L|L]]; [rewrite rsign_neg by auto; lra|lra|rewrite rsign_pos by auto; lra].
Qed.

Lemma entropy_feasible : forall y, exists p, mm_conj Entropy (floats y) = floats p /\ length p = length y /\ all_coord (fun a => 0 < a) p.
Proof.
  intros y. exists (map (fun t => exp (- (t + 1))) y). split; [|split].
  - cbn [mm_conj]. unfold floats. rewrite !map_map. reflexivity.
  - apply map_length.
  - intros a Ha. apply in_map_iff in Ha. destruct Ha as (t & <- & Ht). apply exp_pos.
Qed.

Lemma simplex_feasible : forall y, y <> [] ->
  exists p, mm_conj EntropySimplex (floats y) = floats p /\ length p = length y /\ simplex p /\ all_coord (fun a => 0 < a) p.
Proof.
  intros y H. eexists. split. apply entropy_simplex_conj_fin; auto. split. apply map_length.
  assert (HP : 0 < Rsum (map exp y)). { destruct y as [|b x]; [congruence|]. apply (Rsum_map_pos _ _ _ b). intros. apply Rlt_le, exp_pos. left; auto. apply exp_pos. }
  assert (PP : all_coord (fun a => 0 < a) (map (fun t => exp t / Rsum (map exp y)) y)).
  { intros a Ha. apply in_map_iff in Ha. destruct Ha as (t & <- & Ht). apply Rdiv_lt_0_compat; auto. apply exp_pos. }
  split; auto. split. intros a Ha. apply Rlt_le, PP; auto. rewrite Rsum_map_div. apply Rinv_r. lra.
Qed.
