(** * Mirror maps: scalar facts *)
From Coq Require Import List Arith Reals Lra Lia Psatz Permutation.
From Verif Require Import Scalar Np NpFacts Consensus PostProc RVec RVecFacts ConsSpec ConsFacts PolarFacts RegFacts Cbo CboSpec CboFacts MirrorMaps MirrorSpec.
Import ListNotations.
Open Scope R_scope.

Lemma fmax_fin : forall a b : R, fmax (Fin a) (Fin b) = Fin (Rmax a b).
Proof.
  intros. unfold fmax. cbn. destruct (Rltb a b) eqn:E.
  - apply Rltb_true in E. rewrite Rmax_right; auto; lra.
  - apply Rltb_false in E. rewrite Rmax_left; auto; lra.
Qed.
Lemma fmin_fin : forall a b : R, fmin (Fin a) (Fin b) = Fin (Rmin a b).
Proof.
  intros. unfold fmin. cbn. destruct (Rltb b a) eqn:E.
  - apply Rltb_true in E. rewrite Rmin_right; auto; lra.
  - apply Rltb_false in E. rewrite Rmin_left; auto; lra.
Qed.
Lemma flog_fin : forall x : R, 0 < x -> flog (Fin x) = Fin (ln x).
Proof. intros. unfold flog. replace (Rltb 0 x) with true; auto. symmetry. apply Rltb_true. auto. Qed.

Definition rsign (x : R) : R := if Rltb 0 x then 1 else if Rltb x 0 then -1 else 0.
Lemma fsign_fin : forall x, fsign (Fin x) = Fin (rsign x).
Proof. intros. unfold fsign, rsign. destruct (Rltb 0 x), (Rltb x 0); auto. Qed.
Lemma rsign_pos : forall x, 0 < x -> rsign x = 1.
Proof. intros. unfold rsign. replace (Rltb 0 x) with true; auto. symmetry. apply Rltb_true. auto. Qed.
Lemma rsign_neg : forall x, x < 0 -> rsign x = -1.
Proof.
  intros. unfold rsign. replace (Rltb 0 x) with false by (symmetry; apply Rltb_false; lra).
  replace (Rltb x 0) with true; auto. symmetry. apply Rltb_true. auto.
Qed.
Lemma rsign_0 : rsign 0 = 0.
Proof. unfold rsign. replace (Rltb 0 0) with false; auto. symmetry. apply Rltb_false. lra. Qed.

Lemma map_fin_inv : forall (g : fl R -> fl R) (l : list R), (forall a, In a l -> g (Fin a) = Fin a) -> map g (floats l) = floats l.
Proof. intros. unfold floats. rewrite map_map. apply map_ext_in. auto. Qed.

(** ** inverses *)
Lemma elastic_inverse : forall delta lamda x, 0 < delta -> 0 <= lamda ->
  mm_conj (ElasticNet delta lamda) (mm_grad (ElasticNet delta lamda) (floats x)) = floats x.
Proof.
  intros delta lamda x Hd Hl. cbn [mm_conj mm_grad]. rewrite map_map. apply map_fin_inv. intros t _.
  rewrite fdiv_fin by lra. rewrite fsign_fin. cbn [fmul fadd]. cbn [kmul kadd ksub KOps_R]. rewrite fsign_fin. cbn [fabs fsub fadd fopp].
  cbn [kopp kadd ksub KOps_R]. rewrite fmax_fin. cbn [fmul]. cbn [kmul ksub KOps_R]. f_equal.
  assert (Hi : 0 < 1 / delta). { apply Rdiv_lt_0_compat; lra. }
  assert (Ei : delta * (1 / delta) = 1) by (field; lra).
  set (i := 1 / delta) in *. clearbody i.
  destruct (Rtotal_order t 0) as [H|[->|H]].
  - rewrite (rsign_neg t) by auto. pose proof (Rmult_lt_compat_l i t 0 Hi H) as HT. rewrite Rmult_0_r in HT. rewrite rsign_neg by lra.
    rewrite Rabs_left by lra. rewrite Rmax_left by lra.
    replace (delta * -1 * (- (i * t + lamda * -1) - lamda)) with ((delta * i) * t) by ring. rewrite Ei. ring.
  - rewrite rsign_0. replace (i * 0 + lamda * 0) with 0 by ring. rewrite rsign_0. ring.
  - rewrite (rsign_pos t) by auto. pose proof (Rmult_lt_compat_l i 0 t Hi H) as HT. rewrite Rmult_0_r in HT. rewrite rsign_pos by lra.
    rewrite Rabs_right by lra. rewrite Rmax_left by lra.
    replace (delta * 1 * (i * t + lamda * 1 - lamda)) with ((delta * i) * t) by ring. rewrite Ei. ring.
Qed.

Lemma l2_inverse : forall lamda x, lamda <> 0 -> mm_conj (L2 lamda) (mm_grad (L2 lamda) (floats x)) = floats x.
Proof.
  intros lamda x H. cbn [mm_conj mm_grad]. rewrite map_map. apply map_fin_inv. intros t _. rewrite fdiv_fin by auto.
  cbn. f_equal. field. auto.
Qed.

Lemma barrier_inverse : forall x, open_box x -> mm_conj NonsmoothBarrier (mm_grad NonsmoothBarrier (floats x)) = floats x.
Proof.
  intros x Hx. cbn [mm_conj mm_grad]. rewrite map_map. apply map_fin_inv. intros t Ht. specialize (Hx t Ht). cbv beta in Hx.
  cbn [fabs fmul fadd fsub fopp]. cbn [kmul kadd kopp ksub KOps_R].
  assert (HA : 0 <= Rabs t < 1). { split. apply Rabs_pos. apply Rabs_def1; lra. }
  set (a := Rabs t) in *. replace (1 + a * a - 2 * a) with ((1 - a) * (1 - a)) by ring.
  rewrite fsign_fin. assert (0 < (1 - a) * (1 - a)) by nra. rewrite fdiv_fin by lra. rewrite fsign_fin. cbn [fabs].
  destruct (Rtotal_order t 0) as [H0|[->|H0]].
  - rewrite (rsign_neg t) by auto. assert (Hn : -1 / ((1 - a) * (1 - a)) < 0).
    { unfold Rdiv. assert (0 < / ((1 - a) * (1 - a))) by (apply Rinv_0_lt_compat; auto). lra. }
    rewrite rsign_neg by auto. rewrite Rabs_left by auto. rewrite fdiv_fin by lra.
    replace (1 / - (-1 / ((1 - a) * (1 - a)))) with ((1 - a) * (1 - a)) by (field; nra).
    rewrite fsqrt_fin by lra. rewrite sqrt_square by lra. cbn [fsub fadd fopp]. cbn [kadd kopp ksub KOps_R]. rewrite fmax_fin. cbn. f_equal.
    rewrite Rmax_left by lra. unfold a. rewrite Rabs_left by auto. ring.
  - rewrite rsign_0. unfold Rdiv at 1. rewrite Rmult_0_l, rsign_0. unfold Rdiv. rewrite Rmult_0_l, Rabs_R0.
    replace (fdiv (Fin 1) (Fin 0)) with (@PInf R).
    2:{ unfold fdiv. unfold k_is0. cbn. replace (Rltb 0 0) with false by (symmetry; apply Rltb_false; lra). cbn. symmetry. apply pos_inf. lra. }
    cbn [fsqrt fsub fadd fopp fmax is_nan orb fltb]. unfold fmax. cbn. f_equal. ring.
  - rewrite (rsign_pos t) by auto. assert (Hn : 0 < 1 / ((1 - a) * (1 - a))).
    { apply Rdiv_lt_0_compat; lra. }
    rewrite rsign_pos by auto. rewrite Rabs_right by lra. rewrite fdiv_fin by lra.
    replace (1 / (1 / ((1 - a) * (1 - a)))) with ((1 - a) * (1 - a)) by (field; nra).
    rewrite fsqrt_fin by lra. rewrite sqrt_square by lra. cbn [fsub fadd fopp]. cbn [kadd kopp ksub KOps_R]. rewrite fmax_fin. cbn. f_equal.
    rewrite Rmax_left by lra. unfold a. rewrite Rabs_right by lra. ring.
Qed.

Definition logbarrier_conj (y : R) : R := -1 / y + 1 / y * sqrt (1 + y * y).
Lemma logbarrier_conj_fin : forall y, y <> 0 ->
  fadd (fdiv (Fin (-1)) (Fin y)) (fmul (fdiv (Fin 1) (Fin y)) (fsqrt (fadd (Fin 1) (fmul (Fin y) (Fin y))))) = Fin (logbarrier_conj y).
Proof.
  intros. rewrite !fdiv_fin by auto. cbn [fmul fadd]. cbn [kmul kadd ksub KOps_R]. rewrite fsqrt_fin by nra. reflexivity.
Qed.

Lemma logbarrier_inverse : forall x, open_box x -> all_coord (fun a => a <> 0) x ->
  mm_conj LogBarrierBox (mm_grad LogBarrierBox (floats x)) = floats x.
Proof.
  intros x Hx H0. cbn [mm_conj mm_grad]. rewrite map_map. apply map_fin_inv. intros t Ht. specialize (Hx t Ht). specialize (H0 t Ht). cbv beta in *.
  cbn [fsub fadd fopp]. cbn [kadd kopp ksub KOps_R]. rewrite !fdiv_fin by lra. cbn [fsub fadd fopp]. cbn [kadd kopp ksub KOps_R].
  set (y := 1 / (1 - t) - 1 / (1 + t)). assert (Ey : y = 2 * t / (1 - t * t)).
  { unfold y. field. repeat split; nra. }
  assert (Hy : y <> 0). { rewrite Ey. unfold Rdiv. apply Rmult_integral_contrapositive. split. lra. apply Rinv_neq_0_compat. nra. }
  rewrite logbarrier_conj_fin by auto. f_equal. unfold logbarrier_conj.
  replace (1 + y * y) with (((1 + t * t) / (1 - t * t)) * ((1 + t * t) / (1 - t * t))).
  2:{ rewrite Ey. field. nra. }
  rewrite sqrt_square. 2:{ apply Rlt_le, Rdiv_lt_0_compat; nra. } rewrite Ey. field. split; nra.
Qed.

Lemma float32_eps_pos : 0 < float32_eps.
Proof. unfold float32_eps. apply Rinv_0_lt_compat, pow_lt. lra. Qed.
Lemma simplex_floor_pos : 0 < simplex_floor.
Proof. unfold simplex_floor. apply Rinv_0_lt_compat, pow_lt. lra. Qed.

Lemma entropy_inverse : forall x, all_coord (fun a => 0 <= a) x ->
  mm_conj Entropy (mm_grad Entropy (floats x)) = floats (map (fun a => a + float32_eps) x).
Proof.
  intros x Hx. cbn [mm_conj mm_grad]. unfold floats. rewrite !map_map. apply map_ext_in. intros t Ht. specialize (Hx t Ht). cbv beta in Hx.
  pose proof float32_eps_pos as HE. cbn [fadd]. cbn [kadd ksub KOps_R]. rewrite fdiv_fin by lra.
  assert (0 < 1 / (t + float32_eps)). { apply Rdiv_lt_0_compat; lra. } rewrite flog_fin by auto. cbn. f_equal.
  replace (- (ln (1 / (t + float32_eps)) - 1 + 1)) with (- ln (1 / (t + float32_eps))) by ring.
  unfold Rdiv. rewrite Rmult_1_l. rewrite ln_Rinv by lra. rewrite Ropp_involutive. apply exp_ln. lra.
Qed.

Lemma entropy_simplex_conj_fin : forall y : list R, y <> [] ->
  mm_conj EntropySimplex (floats y) = floats (map (fun t => exp t / Rsum (map exp y)) y).
Proof.
  intros y Hy. cbn [mm_conj]. replace (fsum (map fexp (floats y))) with (Fin (Rsum (map exp y))).
  2:{ rewrite <- fsum_fin. unfold floats. rewrite !map_map. reflexivity. }
  unfold floats. rewrite !map_map. apply map_ext. intros t. cbn [fexp]. apply fdiv_fin.
  assert (0 < Rsum (map exp y)); [|lra]. destruct y as [|a y]; [congruence|]. apply (Rsum_map_pos _ _ _ a). intros. apply Rlt_le, exp_pos.
  left; auto. apply exp_pos.
Qed.

(** in general the result is the normalised vector of the max(x_i, 1e-32) *)
Lemma simplex_roundtrip : forall x : list R, x <> [] ->
  mm_conj EntropySimplex (mm_grad EntropySimplex (floats x)) =
  floats (map (fun a => Rmax a simplex_floor / Rsum (map (fun b => Rmax b simplex_floor) x)) x).
Proof.
  intros x Hx. pose proof simplex_floor_pos as HF. cbn [mm_grad].
  replace (map (fun t => fadd (flog (fmax t (Fin simplex_floor))) (Fin 1)) (floats x)) with (floats (map (fun a => ln (Rmax a simplex_floor) + 1) x)).
  2:{ unfold floats. rewrite !map_map. apply map_ext. intros a. rewrite fmax_fin. rewrite flog_fin. reflexivity.
      apply Rlt_le_trans with simplex_floor; auto. apply Rmax_r. }
  rewrite entropy_simplex_conj_fin by (destruct x; cbn; congruence). f_equal. rewrite !map_map.
  assert (E : forall a, exp (ln (Rmax a simplex_floor) + 1) = exp 1 * Rmax a simplex_floor).
  { intros a. rewrite exp_plus, exp_ln. ring. apply Rlt_le_trans with simplex_floor; auto. apply Rmax_r. }
  replace (Rsum (map (fun a => exp (ln (Rmax a simplex_floor) + 1)) x)) with (exp 1 * Rsum (map (fun b => Rmax b simplex_floor) x)).
  2:{ rewrite <- Rsum_map_scal. apply Rsum_map_ext. intros. symmetry. apply E. }
  apply map_ext. intros a. rewrite E. assert (HP : 0 < Rsum (map (fun b => Rmax b simplex_floor) x)).
  { destruct x as [|b x]; [congruence|]. apply (Rsum_map_pos _ _ _ b).
    - intros c _. apply Rle_trans with simplex_floor. lra. apply Rmax_r.
    - left; auto.
    - apply Rlt_le_trans with simplex_floor; auto. apply Rmax_r. }
  field. split. lra. pose proof (exp_pos 1). lra.
Qed.

Lemma simplex_inverse : forall x, simplex x -> all_coord (fun a => simplex_floor <= a) x ->
  mm_conj EntropySimplex (mm_grad EntropySimplex (floats x)) = floats x.
Proof.
  intros x [_ Hs] Hx. assert (x <> []). { intros ->. cbn in Hs. lra. }
  rewrite simplex_roundtrip by auto. f_equal.
  replace (Rsum (map (fun b => Rmax b simplex_floor) x)) with 1.
  2:{ rewrite <- Hs. rewrite <- (map_id x) at 1. apply Rsum_map_ext. intros a Ha. rewrite Rmax_left; auto. }
  rewrite <- (map_id x) at 2. apply map_ext_in. intros a Ha. rewrite Rmax_left. field. apply Hx; auto.
Qed.

(** a point on the boundary of the simplex is moved *)
Lemma simplex_boundary : forall x, In 0 x -> mm_conj EntropySimplex (mm_grad EntropySimplex (floats x)) <> floats x.
Proof.
  intros x Hx E. assert (Hx' : x <> []) by (destruct x; [contradiction|congruence]). rewrite simplex_roundtrip in E by auto. apply floats_inj in E.
  rewrite <- E in Hx. apply in_map_iff in Hx. destruct Hx as (a & Ha & Hin). pose proof simplex_floor_pos as HF.
  assert (HP : 0 < Rsum (map (fun b => Rmax b simplex_floor) x)).
  { apply (Rsum_map_pos _ _ _ a); auto.
    - intros c _. apply Rle_trans with simplex_floor. lra. apply Rmax_r.
    - apply Rlt_le_trans with simplex_floor; auto. apply Rmax_r. }
  assert (0 < Rmax a simplex_floor / Rsum (map (fun b => Rmax b simplex_floor) x)).
  { apply Rdiv_lt_0_compat; auto. apply Rlt_le_trans with simplex_floor; auto. apply Rmax_r. }
  lra.
Qed.
