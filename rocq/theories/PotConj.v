(** * Conjugate points, Hessians and the defects of the functions of the mirror maps *)
From Coq Require Import List Arith Reals Lra Lia Psatz.
From Verif Require Import Scalar Np NpFacts Consensus PostProc RVec RVecFacts ConsSpec ConsFacts RegFacts Cbo CboSpec CboFacts MatSqrt MatSpec MatFacts
  MirrorMaps MirrorSpec MirrorFacts MirrorProj MirrorDyn ConSpec ConFacts Potentials PotSpec PotFacts PotMaps.
Import ListNotations.
Open Scope R_scope.

(** ** conjugate points *)
Lemma conj_map : forall (D : R -> Prop) phi f y, (forall t, In t y -> D (f t) /\ subslope D phi (f t) t) -> conjugate_point (all_coord D) (sep phi) y (map f y).
Proof.
  intros D phi f y H. apply sep_conjugate. apply map_length.
  - intros a Ha. apply in_map_iff in Ha. destruct Ha as (t & <- & Ht). apply H. auto.
  - rewrite map_length. intros i Hi. rewrite (nth_map _ _ _ _ _ 0) by auto. apply H. apply nth_In. auto.
Qed.
Lemma conj_any : forall F y x, conjugate_point (all_coord all_reals) F y x -> conjugate_point anywhere F y x.
Proof. intros F y x (A & _ & C). split; auto. split. exact I. intros p Hp _. apply C; auto. apply any_all. Qed.

Theorem l2_conjugate : forall lamda y, 0 < lamda -> exists x, mm_conj (L2 lamda) (floats y) = floats x /\ conjugate_point anywhere (sep (half_sq lamda)) y x.
Proof.
  intros lamda y H. exists (map (fun t => 1 / lamda * t) y). split.
  - cbn [mm_conj]. apply map_floats. intros t _. rewrite fdiv_fin by lra. reflexivity.
  - apply conj_any, conj_map. intros t _. split. exact I. replace t with (lamda * (1 / lamda * t)) at 2 by (field; lra). apply half_sq_slope. lra.
Qed.
Theorem net_conjugate : forall delta lamda y, 0 < delta -> 0 <= lamda ->
  exists x, mm_conj (ElasticNet delta lamda) (floats y) = floats x /\ conjugate_point anywhere (sep (net delta lamda)) y x.
Proof.
  intros delta lamda y Hd Hl. exists (map (fun t => delta * rsign t * Rmax (Rabs t - lamda) 0) y). split.
  - cbn [mm_conj]. apply map_floats. intros t _. rewrite fsign_fin. cbn [fmul fabs fsub fadd fopp]. cbn [kmul kadd kopp ksub KOps_R]. rewrite fmax_fin. reflexivity.
  - apply conj_any, conj_map. intros t _. split. exact I. destruct (Rle_dec (Rabs t) lamda) as [L|L].
    + rewrite Rmax_right by lra. rewrite Rmult_0_r. apply net_slope_0; auto.
    + apply Rnot_le_lt in L. rewrite Rmax_left by lra.
      destruct (Rtotal_order t 0) as [N|[->|P]].
      * rewrite (rsign_neg t) by auto. rewrite Rabs_left in * by auto. set (c := delta * -1 * (- t - lamda)).
        assert (c < 0) by (unfold c; nra). replace t with (1 / delta * c + lamda * rsign c). apply net_slope; auto.
        rewrite rsign_neg by auto. unfold c. field. lra.
      * rewrite Rabs_R0 in L. lra.
      * rewrite (rsign_pos t) by auto. rewrite Rabs_right in * by lra. set (c := delta * 1 * (t - lamda)).
        assert (0 < c) by (unfold c; nra). replace t with (1 / delta * c + lamda * rsign c). apply net_slope; auto.
        rewrite rsign_pos by auto. unfold c. field. lra.
Qed.
Lemma logbarrier_back : forall y, y <> 0 -> 1 / (1 - logbarrier_conj y) - 1 / (1 + logbarrier_conj y) = y.
Proof.
  intros y H. pose proof (logbarrier_range y H) as Hr. set (c := logbarrier_conj y) in *.
  assert (E : y * (c * c) + 2 * c - y = 0).
  { unfold c, logbarrier_conj. set (s := sqrt (1 + y * y)). assert (Hs : s * s = 1 + y * y) by (apply sqrt_sqrt; nra).
    replace (-1 / y + 1 / y * s) with ((s - 1) / y) by (field; auto).
    replace (y * ((s - 1) / y * ((s - 1) / y)) + 2 * ((s - 1) / y) - y) with ((s * s - 1 - y * y) / y) by (field; auto). rewrite Hs. field. auto. }
  assert (N : 1 - c * c <> 0) by nra. replace (1 / (1 - c) - 1 / (1 + c)) with (2 * c / (1 - c * c)) by (field; repeat split; nra).
  apply (Rmult_eq_reg_r (1 - c * c)); auto. replace (2 * c / (1 - c * c) * (1 - c * c)) with (2 * c) by (field; auto). lra.
Qed.
Theorem log_conjugate : forall y, all_coord (fun t => t <> 0) y -> exists x, mm_conj LogBarrierBox (floats y) = floats x /\ conjugate_point open_box (sep log_box) y x.
Proof.
  intros y Hy. exists (map logbarrier_conj y). split.
  - cbn [mm_conj]. apply map_floats. intros t Ht. apply logbarrier_conj_fin. apply Hy. auto.
  - apply conj_map. intros t Ht. specialize (Hy t Ht). cbv beta in Hy. pose proof (logbarrier_range t Hy) as Hr. split. exact Hr.
    rewrite <- (logbarrier_back t Hy) at 2. apply log_box_slope. exact Hr.
Qed.
Definition nb_conj (t : R) : R := if Req_EM_T t 0 then 0 else rsign t * Rmax (1 - sqrt (1 / Rabs t)) 0.
Lemma nb_conj_fin : forall y, mm_conj NonsmoothBarrier (floats y) = floats (map nb_conj y).
Proof.
  intros y. cbn [mm_conj]. apply map_floats. intros a _. unfold nb_conj. destruct (Req_EM_T a 0) as [->|N].
  - cbn [fabs]. rewrite Rabs_R0, fdiv_1_0, fsign_fin, rsign_0. cbn [fsqrt fsub fadd fopp]. unfold fmax. cbn. f_equal. ring.
  - cbn [fabs]. rewrite fdiv_fin by (apply Rabs_no_R0; auto). assert (0 < 1 / Rabs a). { apply Rdiv_lt_0_compat. lra. apply Rabs_pos_lt; auto. }
    rewrite fsqrt_fin by lra. cbn [fsub]. cbn [ksub KOps_R]. rewrite fmax_fin, fsign_fin. reflexivity.
Qed.
Lemma nb_conj_slope : forall t, unit_open (nb_conj t) /\ subslope unit_open rational_barrier (nb_conj t) t.
Proof.
  intros t. unfold nb_conj. destruct (Req_EM_T t 0) as [->|N].
  - split. unfold unit_open. lra. apply barrier_slope_0. rewrite Rabs_R0. lra.
  - assert (HA : 0 < Rabs t) by (apply Rabs_pos_lt; auto). set (w := sqrt (1 / Rabs t)).
    assert (Hw : 0 < w). { apply sqrt_lt_R0. apply Rdiv_lt_0_compat; lra. }
    assert (Ww : w * w = 1 / Rabs t). { apply sqrt_sqrt. apply Rlt_le, Rdiv_lt_0_compat; lra. }
    assert (Wt : w * w * Rabs t = 1). { rewrite Ww. field. lra. }
    destruct (Rle_dec (Rabs t) 1) as [L|L].
    + assert (1 <= w). { apply Rnot_lt_le. intros Hlt. assert (w * w < 1) by nra. assert (w * w * Rabs t <= w * w * 1) by (apply Rmult_le_compat_l; nra). lra. } rewrite Rmax_right by lra. rewrite Rmult_0_r. split. unfold unit_open; lra. apply barrier_slope_0. auto.
    + apply Rnot_le_lt in L. assert (w < 1). { apply Rnot_le_lt. intros Hle. assert (1 <= w * w) by nra. assert (1 * Rabs t <= w * w * Rabs t) by (apply Rmult_le_compat_r; lra). lra. } rewrite Rmax_left by lra.
      assert (S : rsign t = 1 /\ Rabs t = t \/ rsign t = -1 /\ Rabs t = - t).
      { destruct (Rtotal_order t 0) as [A|[A|A]]; [right|contradiction|left]. rewrite rsign_neg, Rabs_left by auto. auto. rewrite rsign_pos, Rabs_right by lra. auto. }
      set (c := rsign t * (1 - w)). assert (Ac : Rabs c = 1 - w).
      { unfold c. destruct S as [[-> _]|[-> _]]; [rewrite Rmult_1_l; apply Rabs_right; lra|]. replace (-1 * (1 - w)) with (- (1 - w)) by ring. rewrite Rabs_Ropp. apply Rabs_right. lra. }
      assert (Sc : rsign c = rsign t). { unfold c. destruct S as [[-> _]|[-> _]]. rewrite rsign_pos; lra. rewrite rsign_neg; lra. }
      assert (Uc : unit_open c). { unfold unit_open, c. destruct S as [[-> _]|[-> _]]; lra. }
      split. exact Uc. replace t with (rsign c / (1 + Rabs c * Rabs c - 2 * Rabs c)). apply barrier_slope. exact Uc.
      rewrite Ac, Sc. replace (1 + (1 - w) * (1 - w) - 2 * (1 - w)) with (w * w) by ring. rewrite Ww.
      destruct S as [[-> E]|[-> E]]; rewrite E; field; lra.
Qed.
Theorem barrier_conjugate : forall y, exists x, mm_conj NonsmoothBarrier (floats y) = floats x /\ conjugate_point open_box (sep rational_barrier) y x.
Proof. intros y. exists (map nb_conj y). split. apply nb_conj_fin. apply conj_map. intros t _. apply nb_conj_slope. Qed.

(** ** the ball *)
Lemma sep_sq : forall x, sep (half_sq 1) x = sqnorm x / 2.
Proof. intros. unfold sep, half_sq, sqnorm. induction x as [|a x IH]. unfold dot. cbn. lra. cbn [map]. rewrite Rsum_cons, IH, dot_cons. field. Qed.
Theorem ball_value : forall r center x, vnorm x <= r -> mm_call (ProjectionBall r center) (floats x) = Some (Fin (sep (half_sq 1) x)).
Proof.
  intros r center x H. cbn [mm_call]. rewrite fnorm_floats. cbn [fltb]. cbn [kltb KOps_R]. assert (0 < / 10 ^ 5) by (apply Rinv_0_lt_compat, pow_lt; lra).
  replace (Rltb (r + / 10 ^ 5) (vnorm x)) with false by (symmetry; apply Rltb_false; lra). cbn. do 2 f_equal. rewrite vnorm_sq, sep_sq. field.
Qed.
Lemma sub_sq : forall y p, length p = length y -> sqnorm (vsub y p) = sqnorm y - 2 * dot y p + sqnorm p.
Proof.
  intros y p H. unfold sqnorm. rewrite dot_vsub_r, !dot_vsub_l by auto. rewrite (dot_comm p y). ring.
Qed.
Lemma norm_zero_center : forall d p, length p = d -> vnorm (vsub p (repeat 0 d)) = vnorm p.
Proof.
  intros d p H. f_equal. apply (coord_ext _ _ d); auto. apply length_vsub; auto. apply repeat_length. intros i Hi. rewrite coord_vsub by (rewrite repeat_length; auto).
  unfold coord at 2. rewrite nth_repeat. ring.
Qed.
Theorem ball_conjugate : forall r y, 0 < r -> exists x, mm_conj (ProjectionBall r [0]) (floats y) = floats x /\
  conjugate_point (fun p => vnorm p <= r) (sep (half_sq 1)) y x.
Proof.
  intros r y Hr. destruct (ball_projection r [0] y Hr (or_introl eq_refl)) as (x & E & Hl & Hb & HN). exists x. split; auto.
  cbn [along] in *. unfold ball, dist in *. rewrite norm_zero_center in Hb by auto. split; auto. split; auto. intros p Hp Hin. rewrite !sep_sq.
  specialize (HN p Hp). rewrite norm_zero_center in HN by auto. specialize (HN Hin).
  assert (sqnorm (vsub y x) <= sqnorm (vsub y p)). { rewrite <- !vnorm_sq. apply Rmult_le_compat; auto using vnorm_nonneg. }
  rewrite !sub_sq in H by auto. lra.
Qed.
(** with a centre more than 2 r + 1e-5 from the origin every projected point is infeasible for the function *)
Theorem ball_center_infinite : forall r center y, 0 < r -> length center = length y -> 2 * r + / 10 ^ 5 < vnorm center ->
  exists p, mm_conj (ProjectionBall r center) (floats y) = floats p /\ ball r center p /\ mm_call (ProjectionBall r center) (floats p) = Some PInf.
Proof.
  intros r center y Hr Hc Hn. destruct (ball_projection r center y Hr (or_intror Hc)) as (p & E & Hl & Hb & _). exists p. split; auto.
  rewrite along_same in Hb by auto. split; auto.
  cbn [mm_call]. rewrite fnorm_floats. cbn [fltb]. cbn [kltb KOps_R]. replace (Rltb (r + / 10 ^ 5) (vnorm p)) with true; auto. symmetry. apply Rltb_true.
  assert (vnorm center <= vnorm p + r); [|lra]. unfold ball, dist in Hb.
  assert (E2 : center = vadd p (vscal (-1) (vsub p center))).
  { apply (coord_ext _ _ (length y)); auto. apply length_vadd; auto. rewrite length_vscal. apply length_vsub; congruence. intros i Hi.
    rewrite coord_vadd by (rewrite length_vscal, (length_vsub _ _ (length y)); congruence). rewrite coord_vscal, coord_vsub by congruence. ring. }
  rewrite E2. eapply Rle_trans. apply vnorm_triangle. rewrite length_vscal, (length_vsub _ _ (length y)); congruence.
  rewrite vnorm_scal. rewrite Rabs_left by lra. lra.
Qed.
