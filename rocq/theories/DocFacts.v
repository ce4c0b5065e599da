(** * Lemmas: documented and computed objectives *)
From Coq Require Import List Arith Bool Reals Lra Lia.
From Verif Require Import Scalar Np NpFacts Nd RVec RVecFacts PdynOk Objectives MinFacts MinFacts2 MinFacts4 DocSpec.
Import ListNotations.
Open Scope R_scope.

Lemma power_rpow : forall a p, rpow a p = power a p.
Proof. intros a p. unfold rpow, power, Rpower. destruct Req_EM_T; auto. Qed.

Ltac two := intros x y; unfold three_hump_camel, McCormick, Rosenbrock, Himmelblau, Bukin6, Easom, drop_wave, Holder_table, eggholder; cbn [bind at_ nth_error map]; apply f_equal.
Lemma camel_doc : computes three_hump_camel doc_three_hump_camel.
Proof. two. unfold doc_three_hump_camel. lra. Qed.
Lemma mccormick_doc : computes McCormick doc_McCormick.
Proof. two. unfold doc_McCormick. lra. Qed.
Lemma rosenbrock_doc : forall a b, computes (Rosenbrock a b) (doc_Rosenbrock a b).
Proof. intros a b. two. reflexivity. Qed.
Lemma himmelblau_doc : forall k x y, Himmelblau k [x; y] = Ok (doc_Himmelblau (k * x) (k * y)).
Proof. intros k. two. reflexivity. Qed.
Lemma bukin_doc : computes Bukin6 doc_Bukin6.
Proof. two. unfold doc_Bukin6. replace 0.01 with (1 / 100) by lra. reflexivity. Qed.
Lemma easom_doc : computes Easom doc_Easom.
Proof. two. unfold doc_Easom. do 2 f_equal. ring. Qed.
Lemma drop_doc : computes drop_wave doc_drop_wave.
Proof. two. unfold doc_drop_wave. do 2 f_equal. replace 0.001 with (1 / 1000) by lra. assert (0 <= x ^ 2 + y ^ 2) by nra. field. lra. Qed.
Lemma holder_doc : forall k s x y, Holder_table k s [x; y] = Ok (doc_Holder_table ((x - s) * k) ((y - s) * k)).
Proof. intros k s. two. reflexivity. Qed.
Lemma egg_doc : computes eggholder doc_eggholder.
Proof. two. unfold doc_eggholder. replace (x - (y + 47)) with (x - y - 47) by ring. reflexivity. Qed.
Lemma micha_doc : forall m x, Michalewicz m x = Ok (doc_Michalewicz m x).
Proof.
  intros m x. unfold Michalewicz, doc_Michalewicz. do 2 f_equal. unfold mapi, total, Rsum. f_equal.
  assert (G : forall l pre, x = pre ++ l -> mapi_from (length pre) (fun i v => sin v * sin (INR (i + 1) * v ^ 2 / PI) ^ (2 * m)) l =
    map (fun i => sin (nth (i - 1) x 0) * sin (INR i * nth (i - 1) x 0 ^ 2 / PI) ^ (2 * m)) (seq (S (length pre)) (length l))).
  { induction l as [|v l IH]; intros pre E; [reflexivity|]. cbn [mapi_from length seq map]. replace (S (length pre) - 1)%nat with (length pre) by lia.
    assert (En : nth (length pre) x 0 = v) by (rewrite E, app_nth2 by lia; rewrite Nat.sub_diag; reflexivity). rewrite En, (Nat.add_comm (length pre) 1). cbn [Nat.add]. f_equal.
    specialize (IH (pre ++ [v])). rewrite app_length in IH. cbn [length] in IH. rewrite Nat.add_1_r in IH. apply IH. rewrite <- app_assoc. exact E. }
  exact (G x [] eq_refl).
Qed.

(** ** Ackley *)
Lemma ackley_doc : forall A b c x y, exists w, Ackley A b c None [x; y] = Ok w /\ w - doc_Ackley A b c x y = (20 - A) * exp (- b * sqrt (1 / 2 * (x ^ 2 + y ^ 2))).
Proof.
  intros A b c x y. eexists. split; [reflexivity|]. unfold doc_Ackley, norm, Rsum. cbn [map fold_right length]. replace (INR 2) with 2 by (cbn; lra).
  replace (- b * sqrt (1 / 2) * sqrt ((x - 0) ^ 2 + ((y - 0) ^ 2 + 0))) with (- b * sqrt (1 / 2 * (x ^ 2 + y ^ 2))).
  - replace (c * (x - 0)) with (c * x) by ring. replace (c * (y - 0)) with (c * y) by ring. rewrite Rplus_0_r. ring.
  - rewrite sqrt_mult_alt by lra. replace ((x - 0) ^ 2 + ((y - 0) ^ 2 + 0)) with (x ^ 2 + y ^ 2) by ring. ring.
Qed.
Theorem ackley_doc20 : forall b c, computes (Ackley 20 b c None) (doc_Ackley 20 b c).
Proof. intros b c x y. destruct (ackley_doc 20 b c x y) as (w & -> & E). f_equal. lra. Qed.
Theorem ackley_doc_other : forall A b c x y, A <> 20 -> Ackley A b c None [x; y] <> Ok (doc_Ackley A b c x y).
Proof.
  intros A b c x y HA H. destruct (ackley_doc A b c x y) as (w & E1 & E2). rewrite E1 in H. injection H as ->.
  pose proof (exp_pos (- b * sqrt (1 / 2 * (x ^ 2 + y ^ 2)))). assert ((20 - A) * exp (- b * sqrt (1 / 2 * (x ^ 2 + y ^ 2))) <> 0) by (apply Rmult_integral_contrapositive; split; lra). lra.
Qed.

(** ** Rastrigin *)
Theorem rastrigin_doc : forall b c x, x <> [] -> exists w, Rastrigin b c 10 x = Ok w /\ w - c = INR (length x) * (doc_Rastrigin b c x - c).
Proof.
  intros b c x Hx. eexists. split; [reflexivity|]. unfold doc_Rastrigin. assert (P : 0 < INR (length x)) by (apply lt_0_INR; destruct x; cbn; [congruence|lia]).
  replace (INR (length x) * (1 / INR (length x) * total (map (fun v => (v - b) ^ 2 - 10 * cos (2 * PI * (v - b)) + 10) x) + c - c))
    with (total (map (fun v => (v - b) ^ 2 - 10 * cos (2 * PI * (v - b)) + 10) x)) by (field; lra).
  clear P Hx. unfold Rsum, total. induction x as [|v x IH]; [cbn; lra|]. cbn [length map fold_right]. rewrite S_INR. lra.
Qed.
Lemma rastrigin_pos : forall b (x : list R), (exists v, In v x /\ v <> b) -> 0 < total (map (fun v => (v - b) ^ 2 - 10 * cos (2 * PI * (v - b)) + 10) x).
Proof.
  intros b x (v & Hv & Nv). assert (P : forall z, (z - b) ^ 2 <= (z - b) ^ 2 - 10 * cos (2 * PI * (z - b)) + 10) by (intros z; pose proof (COS_bound (2 * PI * (z - b))); lra).
  assert (N : forall l, 0 <= total (map (fun v => (v - b) ^ 2 - 10 * cos (2 * PI * (v - b)) + 10) l)).
  { unfold total. induction l as [|z l IH]; cbn; [lra|]. pose proof (P z). pose proof (pow2_ge_0 (z - b)). cbn in *. lra. }
  induction x as [|z x IH]; [destruct Hv|]. unfold total in *. cbn [map fold_right]. pose proof (P z) as Pz. pose proof (pow2_ge_0 (z - b)). destruct Hv as [->|Hv].
  - assert (0 < (v - b) ^ 2) by (assert (v - b <> 0) by lra; nra). pose proof (N x). lra.
  - specialize (IH Hv). lra.
Qed.
Theorem rastrigin_doc_refuted : forall b c x, (2 <= length x)%nat -> (exists v, In v x /\ v <> b) -> Rastrigin b c 10 x <> Ok (doc_Rastrigin b c x).
Proof.
  intros b c x Hx HV H. destruct (rastrigin_doc b c x) as (w & E1 & E2); [destruct x; cbn in Hx; [lia|congruence]|]. rewrite E1 in H. injection H as ->.
  pose proof (rastrigin_pos b x HV) as P. assert (N : 2 <= INR (length x)) by (replace 2 with (INR 2) by (cbn; lra); apply le_INR; exact Hx).
  assert (D : 0 < doc_Rastrigin b c x - c). { unfold doc_Rastrigin. set (t := total _) in *. replace (1 / INR (length x) * t + c - c) with (t / INR (length x)) by (field; lra). apply Rdiv_lt_0_compat; lra. }
  nra.
Qed.
Theorem rastrigin_original_refuted : doc_Rastrigin_original 0 0 = 170 /\ doc_Rastrigin_original 3 2 = 0 /\ forall w, Rastrigin 0 0 10 [3; 2] = Ok w -> w = 13.
Proof.
  unfold doc_Rastrigin_original. split; [ring|]. split; [ring|]. intros w H. injection H as <-. cbn [map Rsum fold_right length]. unfold Rsum. cbn [fold_right]. replace (INR 2) with 2 by (cbn; lra).
  replace (2 * PI * (3 - 0)) with (0 + 2 * INR 3 * PI) by (cbn; ring). replace (2 * PI * (2 - 0)) with (0 + 2 * INR 2 * PI) by (cbn; ring). rewrite !cos_period, cos_0. ring.
Qed.

(** ** cross_in_tray *)
Lemma power_inj : forall a b p, 0 < a -> 0 < b -> p <> 0 -> power a p = power b p -> a = b.
Proof.
  intros a b p Ha Hb Hp H. unfold power in H. destruct (Req_EM_T a 0); [lra|]. destruct (Req_EM_T b 0); [lra|]. apply exp_inv in H. apply Rmult_eq_reg_l in H; auto. apply ln_inv; auto.
Qed.
Theorem tray_doc : forall x y, cross_in_tray [x; y] = Ok (doc_cross_in_tray x y) <-> sin x * sin y * exp (Rabs (100 - sqrt (x ^ 2 + y ^ 2) / PI)) = - (1 / 2).
Proof.
  intros x y. cbn [cross_in_tray bind at_ nth_error]. unfold doc_cross_in_tray. rewrite power_rpow. set (s := sin x * sin y * exp (Rabs (100 - sqrt (x ^ 2 + y ^ 2) / PI))).
  replace (1 / 10) with 0.1 by lra. pose proof (Rabs_pos s) as P1. pose proof (Rabs_pos (s + 1)) as P2. split.
  - intros H. injection H as H. assert (E : power (Rabs s + 1) 0.1 = power (Rabs (s + 1) + 1) 0.1) by lra. apply power_inj in E; [|lra|lra|lra].
    assert (Rabs s = Rabs (s + 1)) by lra. unfold Rabs in *. repeat destruct Rcase_abs; lra.
  - intros ->. f_equal. replace (Rabs (- (1 / 2) + 1)) with (1 / 2) by (unfold Rabs; destruct Rcase_abs; lra). replace (Rabs (- (1 / 2))) with (1 / 2) by (unfold Rabs; destruct Rcase_abs; lra). lra.
Qed.
Theorem tray_refuted : cross_in_tray [0; 0] = Ok (- (1 / 10000)) /\ doc_cross_in_tray 0 0 < - (1 / 10000).
Proof.
  split.
  - cbn [cross_in_tray bind at_ nth_error]. f_equal. rewrite sin_0. replace (0 * 0 * _) with 0 by ring. rewrite Rabs_R0, Rplus_0_l. unfold rpow. destruct Req_EM_T; [lra|]. unfold Rpower. rewrite ln_1, Rmult_0_r, exp_0. ring.
  - unfold doc_cross_in_tray. rewrite sin_0. replace (0 * 0 * _) with 0 by ring. rewrite Rplus_0_l, Rabs_R1. unfold power. destruct Req_EM_T; [lra|].
    assert (0 < ln (1 + 1)) by (rewrite <- ln_1; apply ln_increasing; lra). assert (1 < exp (0.1 * ln (1 + 1))) by (rewrite <- exp_0 at 1; apply exp_increasing; lra). lra.
Qed.

(** ** snowflake *)
Lemma snow_term : forall r phi psi, 0 <= r -> let a := r * cos phi in let b := r * sin phi in
  norm [a; b] = r /\ sqrt (Rabs (cos (arctan2 b a + psi))) * rpow r (3 / 10) = sqrt (Rabs (cos (phi + psi))) * rpow r (3 / 10).
Proof.
  intros r phi psi Hr a b. assert (N : norm [a; b] = r).
  { rewrite norm2. unfold a, b. replace ((r * cos phi) ^ 2 + (r * sin phi) ^ 2) with (r ^ 2 * ((sin phi)² + (cos phi)²)) by (unfold Rsqr; ring). rewrite sin2_cos2, Rmult_1_r. apply sqrt_pow2; auto. }
  split; auto. destruct (Req_dec r 0) as [->|Nr]. { unfold rpow. destruct Req_EM_T; [ring|lra]. }
  destruct (arctan2_polar a b) as [A B]. rewrite norm2 in N. rewrite N in A, B. unfold a at 2 in A. unfold b at 2 in B. apply Rmult_eq_reg_l in A; auto. apply Rmult_eq_reg_l in B; auto.
  rewrite !cos_plus, A, B. reflexivity.
Qed.
Theorem snow_doc : forall al r phi, 0 <= al -> 0 <= r -> snowflake al [r * cos phi; r * sin phi] = Ok (doc_snowflake (al * r) phi).
Proof.
  intros al r phi Ha Hr. unfold snowflake. cbn [map bind at_ nth_error]. f_equal. replace (al * (r * cos phi)) with (al * r * cos phi) by ring. replace (al * (r * sin phi)) with (al * r * sin phi) by ring.
  set (q := al * r). assert (Hq : 0 <= q) by (unfold q; apply Rmult_le_pos; auto). cbn [fold_left]. destruct (snow_term q phi 0 Hq) as [N _]. cbn zeta in N. rewrite N.
  rewrite (proj2 (snow_term q phi 0 Hq)), (proj2 (snow_term q phi (PI / 3) Hq)), (proj2 (snow_term q phi (PI * 2 / 3) Hq)). unfold doc_snowflake, doc_snowflake_i. rewrite !power_rpow || rewrite <- !power_rpow.
  replace (phi + 0 * (PI / 3)) with (phi + 0) by ring. replace (phi + 1 * (PI / 3)) with (phi + PI / 3) by ring. replace (phi + 2 * (PI / 3)) with (phi + PI * 2 / 3) by lra. replace (0.3) with (3 / 10) by lra.
  rewrite ?power_rpow. set (g0 := q ^ 8 - q ^ 4 + _). set (g1 := q ^ 8 - q ^ 4 + _). set (g2 := q ^ 8 - q ^ 4 + _). unfold Rmin. repeat destruct Rle_dec; lra.
Qed.
Theorem snow_default_refuted : snowflake (1 / 2) [0; 2] = Ok 0 /\ doc_snowflake 2 (PI / 2) = 0.8.
Proof.
  split.
  - replace [0; 2] with [2 * cos (PI / 2); 2 * sin (PI / 2)] by (rewrite cos_PI2, sin_PI2; f_equal; [|f_equal]; ring). rewrite snow_doc by lra. f_equal. replace (1 / 2 * 2) with 1 by lra.
    unfold doc_snowflake, doc_snowflake_i. replace (PI / 2 + 0 * (PI / 3)) with (PI / 2) by ring. rewrite cos_PI2, Rabs_R0, sqrt_0.
    assert (P : forall t, 0 <= sqrt (Rabs t) * power 1 0.3). { intros t. apply Rmult_le_pos; [apply sqrt_pos|]. rewrite <- power_rpow. apply rpow_nonneg. }
    pose proof (P (cos (PI / 2 + 1 * (PI / 3)))) as P1. pose proof (P (cos (PI / 2 + 2 * (PI / 3)))) as P2. unfold Rmin. repeat destruct Rle_dec; lra.
  - unfold doc_snowflake, doc_snowflake_i. assert (P : forall t, 0 <= sqrt (Rabs t) * power 2 0.3). { intros t. apply Rmult_le_pos; [apply sqrt_pos|]. rewrite <- power_rpow. apply rpow_nonneg. }
    pose proof (P (cos (PI / 2 + 0 * (PI / 3)))) as P0. pose proof (P (cos (PI / 2 + 1 * (PI / 3)))) as P1. pose proof (P (cos (PI / 2 + 2 * (PI / 3)))) as P2. unfold Rmin. repeat destruct Rle_dec; lra.
Qed.
