(** * Facts about the two-dimensional benchmark functions *)
From Coq Require Import List Arith ZArith Bool Reals Lra Lia.
From Verif Require Import Scalar Np NpFacts Nd RVec RVecFacts Objectives MinSpec MinFacts MinFacts2.
Import ListNotations.
Open Scope R_scope.

Lemma ss0 : forall a b, a ^ 2 + b ^ 2 = 0 -> a = 0 /\ b = 0.
Proof. intros a b H. pose proof (pow2_ge_0 a). pose proof (pow2_ge_0 b). split; apply sq0; lra. Qed.
Lemma exp_le_1 : forall a, a <= 0 -> 0 < exp a <= 1.
Proof. intros a H. split. apply exp_pos. rewrite <- exp_0. apply exp_mono. auto. Qed.
Lemma exp_is_1 : forall a, exp a = 1 -> a = 0.
Proof. intros a H. rewrite <- exp_0 in H. apply exp_inv in H. auto. Qed.

(** ** Easom *)
Lemma easom_term : forall a b e, - 1 <= a <= 1 -> - 1 <= b <= 1 -> 0 < e <= 1 -> - 1 <= - a * b * e /\ (- a * b * e = - 1 -> e = 1).
Proof.
  intros a b e Ha Hb He. assert (A : Rabs (a * b) <= 1). { rewrite Rabs_mult. replace 1 with (1 * 1) by ring. apply Rmult_le_compat; try apply Rabs_pos; apply Rabs_le; lra. }
  assert (B : a * b <= 1) by (pose proof (Rle_abs (a * b)); lra). assert (C : a * b * e <= e). { rewrite <- (Rmult_1_l e) at 2. apply Rmult_le_compat_r; lra. }
  split; intros; lra.
Qed.
Theorem easom_min : global_min Easom [PI; PI] (- 1) /\ only_point Easom [PI; PI] (- 1).
Proof.
  assert (T : forall a b, - 1 <= - cos a * cos b * exp (- ((a - PI) ^ 2 + (b - PI) ^ 2)) /\ (- cos a * cos b * exp (- ((a - PI) ^ 2 + (b - PI) ^ 2)) = - 1 -> a = PI /\ b = PI)).
  { intros a b. pose proof (pow2_ge_0 (a - PI)). pose proof (pow2_ge_0 (b - PI)). destruct (easom_term (cos a) (cos b) (exp (- ((a - PI) ^ 2 + (b - PI) ^ 2)))) as [T1 T2]; try apply COS_bound. apply exp_le_1. lra.
    split; auto. intros E. apply T2, exp_is_1 in E. destruct (ss0 (a - PI) (b - PI)) as [? ?]; lra. }
  split. split.
  - unfold Easom. cbn [at_ nth_error bind]. f_equal. rewrite cos_PI. replace (- ((PI - PI) ^ 2 + (PI - PI) ^ 2)) with 0 by ring. rewrite exp_0. ring.
  - intros q w H. apply pair_inv in H. destruct H as (a & b & t & -> & H). apply ok_inj in H. subst w. apply T.
  - intros q L H. apply two_points in L. destruct L as (a & b & ->). apply pair_inv in H. destruct H as (a' & b' & t & E & H). injection E as <- <- <-. apply ok_inj in H. apply T in H. destruct H as [-> ->]. auto.
Qed.

(** ** drop wave *)
Theorem drop_wave_min : global_min drop_wave [0; 0] (- 2) /\ only_point drop_wave [0; 0] (- 2).
Proof.
  assert (T : forall a b, - 2 <= - (1 + cos (12 * sqrt (a ^ 2 + b ^ 2))) * exp (- (1 / 2) * (a ^ 2 + b ^ 2) / (1 + 1 / 1000 * (a ^ 2 + b ^ 2))) /\
    (- (1 + cos (12 * sqrt (a ^ 2 + b ^ 2))) * exp (- (1 / 2) * (a ^ 2 + b ^ 2) / (1 + 1 / 1000 * (a ^ 2 + b ^ 2))) = - 2 -> a = 0 /\ b = 0)).
  { intros a b. pose proof (pow2_ge_0 a). pose proof (pow2_ge_0 b). set (s := a ^ 2 + b ^ 2). assert (Hs : 0 <= s) by (unfold s; lra).
    set (c := cos (12 * sqrt s)). assert (Hc : - 1 <= c <= 1) by apply COS_bound.
    assert (Hq : 0 <= s / (1 + 1 / 1000 * s)) by (apply Rmult_le_pos; [auto|left; apply Rinv_0_lt_compat; lra]).
    replace (- (1 / 2) * s / (1 + 1 / 1000 * s)) with (- (1 / 2 * (s / (1 + 1 / 1000 * s)))) by (field; lra).
    set (e := exp (- (1 / 2 * (s / (1 + 1 / 1000 * s))))). assert (He : 0 < e <= 1) by (apply exp_le_1; lra).
    assert (P : (1 + c) * e <= 2 * e) by (apply Rmult_le_compat_r; lra). split. lra. intros E. assert (E1 : e = 1) by lra. apply exp_is_1 in E1.
    assert (Z : s / (1 + 1 / 1000 * s) = 0) by lra. apply ss0. change (s = 0). apply Rmult_integral in Z. destruct Z as [Z|Z]; auto. exfalso. pose proof (Rinv_0_lt_compat (1 + 1 / 1000 * s)). lra. }
  split. split.
  - unfold drop_wave. cbn [at_ nth_error bind]. f_equal. replace (0 ^ 2 + 0 ^ 2) with 0 by ring. rewrite sqrt_0, Rmult_0_r, cos_0. replace (- (1 / 2) * 0 / (1 + 1 / 1000 * 0)) with 0 by field. rewrite exp_0. ring.
  - intros q w H. apply pair_inv in H. destruct H as (a & b & t & -> & H). apply ok_inj in H. subst w. apply T.
  - intros q L H. apply two_points in L. destruct L as (a & b & ->). apply pair_inv in H. destruct H as (a' & b' & t & E & H). injection E as <- <- <-. apply ok_inj in H. apply T in H. destruct H as [-> ->]. auto.
Qed.

(** ** Bukin 6 *)
Theorem bukin_min : global_min Bukin6 [- 10; 1] 0 /\ only_point Bukin6 [- 10; 1] 0.
Proof.
  split. split.
  - unfold Bukin6. cbn [at_ nth_error bind]. f_equal. replace (1 - 1 / 100 * (- 10) ^ 2) with 0 by field. replace (- 10 + 10) with 0 by ring. rewrite Rabs_R0, sqrt_0. ring.
  - intros q w H. apply pair_inv in H. destruct H as (a & b & t & -> & H). apply ok_inj in H. subst w. pose proof (sqrt_pos (Rabs (b - 1 / 100 * a ^ 2))). pose proof (Rabs_pos (a + 10)). lra.
  - intros q L H. apply two_points in L. destruct L as (a & b & ->). apply pair_inv in H. destruct H as (a' & b' & t & E & H). injection E as <- <- <-. apply ok_inj in H.
    pose proof (sqrt_pos (Rabs (b - 1 / 100 * a ^ 2))) as P1. pose proof (Rabs_pos (a + 10)) as P2. assert (Z2 : Rabs (a + 10) = 0) by lra. assert (Z1 : sqrt (Rabs (b - 1 / 100 * a ^ 2)) = 0) by lra.
    assert (a + 10 = 0). { destruct (Req_dec (a + 10) 0); auto. apply Rabs_no_R0 in H0. contradiction. } assert (a = - 10) by lra. subst a.
    apply sqrt_eq_0 in Z1; [|apply Rabs_pos]. assert (b - 1 / 100 * (- 10) ^ 2 = 0). { destruct (Req_dec (b - 1 / 100 * (- 10) ^ 2) 0); auto. apply Rabs_no_R0 in H1. contradiction. } assert (b = 1) by lra. subst. auto.
Qed.
Theorem bukin_listed : Bukin6_minima = [[0; 0]] /\ Bukin6 [0; 0] = Ok (1 / 10).
Proof.
  split; auto. unfold Bukin6. cbn [at_ nth_error bind]. f_equal. replace (0 - 1 / 100 * 0 ^ 2) with 0 by field. replace (0 + 10) with 10 by ring. rewrite Rabs_R0, sqrt_0, Rabs_right by lra. field.
Qed.
Theorem himmelblau_factor : forall k, k <> 1 -> exists w, Himmelblau k [3; 2] = Ok w /\ 0 < w.
Proof.
  intros k H1. exists (((k * 3) ^ 2 + k * 2 - 11) ^ 2 + (k * 3 + (k * 2) ^ 2 - 7) ^ 2). split; [reflexivity|].
  pose proof (pow2_ge_0 ((k * 3) ^ 2 + k * 2 - 11)) as P1. pose proof (pow2_ge_0 (k * 3 + (k * 2) ^ 2 - 7)) as P2.
  destruct (Req_dec (((k * 3) ^ 2 + k * 2 - 11) ^ 2 + (k * 3 + (k * 2) ^ 2 - 7) ^ 2) 0) as [Z|Z]; [exfalso|lra].
  assert (Z1 : (k * 3) ^ 2 + k * 2 - 11 = 0) by (apply sq0; lra). assert (Z2 : k * 3 + (k * 2) ^ 2 - 7 = 0) by (apply sq0; lra).
  assert (F1 : (k - 1) * (9 * k + 11) = 0) by lra. assert (F2 : (k - 1) * (4 * k + 7) = 0) by lra. apply Rmult_integral in F1, F2. destruct F1, F2; lra.
Qed.

(** ** Unimodal, Bimodal, Banana, nd_sinus, accelerated_sinus *)
Lemma unimodal_form : forall a0 a1 u v t, Unimodal a0 a1 (u :: v :: t) = Ok ((u - a0) ^ 2 / 8 + 2 * (v - a1) ^ 2 + ln 2).
Proof.
  intros. unfold Unimodal. cbn [at_ nth_error bind]. f_equal. rewrite ln_mult; [|lra|apply exp_pos]. rewrite ln_exp. replace (1 / 2) with (/ 2) by field. rewrite ln_Rinv by lra. field.
Qed.
Theorem unimodal_min : forall a0 a1, global_min (Unimodal a0 a1) [a0; a1] (ln 2) /\ only_point (Unimodal a0 a1) [a0; a1] (ln 2).
Proof.
  intros a0 a1. split. split.
  - rewrite unimodal_form. f_equal. replace (a0 - a0) with 0 by ring. replace (a1 - a1) with 0 by ring. field.
  - intros q w H. destruct q as [|u [|v t]]; try discriminate. rewrite unimodal_form in H. apply ok_inj in H. subst w. pose proof (pow2_ge_0 (u - a0)). pose proof (pow2_ge_0 (v - a1)). lra.
  - intros q L H. apply two_points in L. destruct L as (u & v & ->). rewrite unimodal_form in H. apply ok_inj in H. pose proof (pow2_ge_0 (u - a0)). pose proof (pow2_ge_0 (v - a1)).
    assert (E1 : (u - a0) ^ 2 = 0) by lra. assert (E2 : (v - a1) ^ 2 = 0) by lra. apply sq0 in E1, E2. f_equal; [lra|]. f_equal. lra.
Qed.
Theorem bimodal_bound : forall a0 a1 b0 b1 q w, Bimodal a0 a1 b0 b1 q = Ok w -> - ln (3 / 2) <= w.
Proof.
  intros a0 a1 b0 b1 q w H. apply pair_inv in H. destruct H as (u & v & t & -> & H). apply ok_inj in H. subst w.
  pose proof (pow2_ge_0 (u - a0)). pose proof (pow2_ge_0 (v - a1)). pose proof (pow2_ge_0 (u - b0)). pose proof (pow2_ge_0 (v - b1)).
  destruct (exp_le_1 (- ((u - a0) ^ 2 + (v - a1) ^ 2 / (2 / 10)))) as [A1 A2]. lra. destruct (exp_le_1 (- (u - b0) ^ 2 / 8 - (v - b1) ^ 2 / (1 / 2))) as [B1 B2]. lra.
  apply Ropp_le_contravar. assert (S : exp (- ((u - a0) ^ 2 + (v - a1) ^ 2 / (2 / 10))) + 1 / 2 * exp (- (u - b0) ^ 2 / 8 - (v - b1) ^ 2 / (1 / 2)) <= 3 / 2) by lra.
  destruct S as [S|S]; [left; apply ln_increasing; lra|rewrite S; lra].
Qed.
Theorem banana_bound : forall m s sp q w, s <> 0 -> sp <> 0 -> Banana m s sp q = Ok w -> 0 <= w.
Proof.
  intros m s sp q w Hs Hp H. unfold Banana in H. destruct (at_ q 0) as [u|]; [|discriminate]. cbn [bind] in H. destruct (at_ q 1) as [v|]; [|discriminate]. cbn [bind] in H. apply ok_inj in H. subst w.
  assert (P : forall k t, k <> 0 -> 0 <= 1 / 2 / k ^ 2 * t ^ 2).
  { intros k t Hk. apply Rmult_le_pos; [|apply pow2_ge_0]. apply Rmult_le_pos; [lra|]. left. apply Rinv_0_lt_compat. destruct (pow2_ge_0 k) as [L|L]; auto. symmetry in L. apply sq0 in L. contradiction. }
  pose proof (P s ((v - 1) ^ 2 - (u - 25 / 10) - 1 - m) Hs). pose proof (P sp (norm q) Hp). lra.
Qed.
Theorem nd_sinus_bound : forall q w, nd_sinus q = Ok w -> 0 <= w.
Proof.
  intros q w H. unfold nd_sinus in H. destruct (_ =? 0)%nat; [discriminate|]. destruct (at_ _ 0) as [u|]; [|discriminate]. cbn [bind] in H. apply ok_inj in H. subst w.
  apply Rmult_le_pos. match goal with |- 0 <= sin ?a + 1 => pose proof (SIN_bound a); lra end.
  replace (u ^ 4 - u ^ 2 + 1) with ((u ^ 2 - 1 / 2) ^ 2 + 3 / 4) by field. pose proof (pow2_ge_0 (u ^ 2 - 1 / 2)). lra.
Qed.
Theorem accelerated_sinus_bound : forall a q w, accelerated_sinus a q = Ok w -> 0 <= w <= 2.
Proof. intros a q w H. apply ok_inj in H. subst w. match goal with |- 0 <= sin ?a + 1 <= _ => pose proof (SIN_bound a); lra end. Qed.

Theorem accelerated_sinus_values : forall a q q' w w', accelerated_sinus a q = Ok w -> accelerated_sinus a q' = Ok w' ->
  (norm q = 0 -> w = 1) /\ (norm q = 1 -> w = 1 + sin (a / 2)) /\ (norm q * norm q' = 1 -> w = w').
Proof.
  intros a q q' w w' H H'. apply ok_inj in H, H'. subst w w'. split; [|split].
  - intros ->. replace (a * 0 / (1 + 0 * 0)) with 0 by field. rewrite sin_0. ring.
  - intros ->. replace (a * 1 / (1 + 1 * 1)) with (a / 2) by field. ring.
  - intros E. f_equal. f_equal. assert (N : norm q <> 0) by (intros Z; rewrite Z in E; lra). assert (E' : norm q' = / norm q) by (apply Rmult_eq_reg_l with (norm q); auto; rewrite E; field; auto).
    assert (0 < norm q * norm q) by (destruct (Rdichotomy _ _ N); nra). rewrite E'. field. repeat split; auto; nra.
Qed.
Lemma norm_cases : norm [0; 0] = 0 /\ norm [0; 1] = 1 /\ norm [2; 0] * norm [0; / 2] = 1.
Proof.
  assert (S : forall a b, 0 <= a -> b = a * a -> sqrt b = a) by (intros a b Ha ->; apply sqrt_square; auto).
  unfold norm. cbn [map Rsum fold_right]. split; [apply S; [lra|ring]|]. split; [apply S; [lra|ring]|].
  rewrite (S 2) by (try lra; ring). rewrite (S (/ 2)) by (try lra; ring). field.
Qed.

(** ** functions without a minimum on the plane *)
Theorem mccormick_unbounded : unbounded_below McCormick.
Proof.
  intros B. eexists [B - 3; B - 3], _. split; auto. split; [reflexivity|]. pose proof (SIN_bound (B - 3 + (B - 3))). replace (B - 3 - (B - 3)) with 0 by ring. lra.
Qed.
Theorem mccormick_listed : exists w1 w2, McCormick [- 54719 / 100000; - 154719 / 100000] = Ok w1 /\ McCormick [154719 / 100000; 54719 / 100000] = Ok w2 /\ w1 < - 1 /\ 1 < w2.
Proof.
  eexists _, _. split; [reflexivity|]. split; [reflexivity|]. pose proof PI2_3_2 as HP. assert (P3 : 3 < PI) by lra.
  split.
  - assert (S : 0 < sin (209438 / 100000)) by (apply sin_gt_0; lra). replace (- 54719 / 100000 + - 154719 / 100000) with (- (209438 / 100000)) by field. rewrite sin_neg. lra.
  - assert (S : 0 < sin (209438 / 100000)) by (apply sin_gt_0; lra). replace (154719 / 100000 + 54719 / 100000) with (209438 / 100000) by field. lra.
Qed.
Lemma INR_unbounded : forall x, exists n, x < INR n.
Proof.
  intros x. exists (Z.to_nat (up x)). destruct (archimed x) as [H _]. rewrite INR_IZR_INZ. apply Rlt_le_trans with (IZR (up x)); [lra|]. apply IZR_le. lia.
Qed.
(** large angles with sine one *)
Definition peak (k : nat) : R := PI / 2 + 2 * INR k * PI.
Lemma sin_peak : forall k, sin (peak k) = 1.
Proof. intros. unfold peak. rewrite sin_period. apply sin_PI2. Qed.
Lemma peak_large : forall B, exists k, B < peak k /\ 0 < peak k /\ INR k < peak k / PI.
Proof.
  intros B. destruct (INR_unbounded (Rabs B)) as (k & Hk). exists k. pose proof PI2_3_2. pose proof (pos_INR k). pose proof (Rle_abs B). unfold peak.
  assert (INR k * 3 <= INR k * PI) by (apply Rmult_le_compat_l; lra). split; [lra|]. split; [lra|]. replace ((PI / 2 + 2 * INR k * PI) / PI) with (1 / 2 + 2 * INR k) by (field; lra). lra.
Qed.
Lemma exp_ge : forall t, t < exp t.
Proof. intros t. pose proof (exp_ineq1_le t). lra. Qed.
Theorem eggholder_unbounded : unbounded_below eggholder.
Proof.
  intros B. destruct (peak_large (Rabs B + 1)) as (k & H1 & H2 & _). pose proof (Rabs_pos B). set (P := peak k) in *. exists [0; P ^ 2 - 47]. eexists. split; auto. split; [reflexivity|].
  replace (P ^ 2 - 47 + 0 / 2 + 47) with (P ^ 2) by field. rewrite (Rabs_right (P ^ 2)) by (pose proof (pow2_ge_0 P); lra). rewrite sqrt_pow2 by lra. unfold P at 2. rewrite sin_peak.
  assert (P <= P ^ 2). { replace (P ^ 2) with (P * P) by ring. rewrite <- (Rmult_1_l P) at 1. apply Rmult_le_compat_r; lra. } pose proof (Rle_abs (- B)). rewrite Rabs_Ropp in *. lra.
Qed.
Theorem eggholder_lines : forall t, eggholder [t; -47] = Ok (- t * sin (sqrt (Rabs t))) /\ eggholder [0; t - 47] = Ok (- t * sin (sqrt (Rabs t))) /\ eggholder [t; t - 47] = Ok (- t * sin (sqrt (Rabs (3 / 2 * t)))).
Proof.
  intros t. unfold eggholder, at_. cbn [nth_error bind]. split; [|split]; f_equal.
  - replace (- 47 + 47) with 0 by ring. rewrite Rminus_0_r. ring.
  - replace (t - 47 + 0 / 2 + 47) with t by field. ring.
  - replace (t - (t - 47 + 47)) with 0 by ring. rewrite Rabs_R0, sqrt_0, sin_0. replace (t - 47 + t / 2 + 47) with (3 / 2 * t) by field. ring.
Qed.
Theorem holder_unbounded : forall factor shift, factor <> 0 -> unbounded_below (Holder_table factor shift).
Proof.
  intros f s Hf B. destruct (INR_unbounded (Rabs B + 2)) as (n & Hn). destruct (peak_large (INR n)) as (k & _ & H2 & _). clear k H2.
  pose proof PI2_3_2. pose proof (pos_INR n). pose proof (Rabs_pos B). assert (Pp : 0 < peak n). { unfold peak. assert (0 <= 2 * INR n * PI) by (apply Rmult_le_pos; lra). lra. }
  exists [peak n / f + s; s]. eexists. split; auto. split; [reflexivity|]. cbn [map]. replace ((peak n / f + s - s) * f) with (peak n) by (field; auto). replace ((s - s) * f) with 0 by ring.
  rewrite sin_peak, cos_0. replace (peak n ^ 2 + 0 ^ 2) with (peak n ^ 2) by ring. rewrite sqrt_pow2 by lra. rewrite !Rmult_1_l. rewrite Rabs_right by (left; apply exp_pos).
  assert (Q : peak n / PI = 1 / 2 + 2 * INR n) by (unfold peak; field; lra). rewrite Q. rewrite (Rabs_left (1 - (1 / 2 + 2 * INR n))) by lra.
  pose proof (exp_ge (- (1 - (1 / 2 + 2 * INR n)))). pose proof (Rle_abs (- B)). rewrite Rabs_Ropp in *. lra.
Qed.
Theorem cross_unbounded : unbounded_below cross_in_tray.
Proof.
  intros B. destruct (INR_unbounded (100000 * Rabs B + 100)) as (n & Hn). pose proof PI2_3_2. pose proof (pos_INR n). pose proof (Rabs_pos B).
  assert (Pp : 0 < peak n). { unfold peak. assert (0 <= 2 * INR n * PI) by (apply Rmult_le_pos; lra). lra. }
  exists [peak n; peak n]. eexists. split; auto. split; [reflexivity|]. rewrite sin_peak, !Rmult_1_l.
  assert (R0 : peak n <= sqrt (peak n ^ 2 + peak n ^ 2)). { rewrite <- (sqrt_pow2 (peak n)) at 1 by lra. apply sqrt_le_1_alt. pose proof (pow2_ge_0 (peak n)). lra. }
  assert (R1 : 2 * INR n <= sqrt (peak n ^ 2 + peak n ^ 2) / PI). { apply Rle_trans with (peak n / PI). unfold peak. replace ((PI / 2 + 2 * INR n * PI) / PI) with (1 / 2 + 2 * INR n) by (field; lra). lra. apply Rmult_le_compat_r; auto. left. apply Rinv_0_lt_compat. lra. }
  set (r := sqrt (peak n ^ 2 + peak n ^ 2) / PI) in *. assert (HA : INR n <= Rabs (100 - r)). { rewrite Rabs_left by lra. lra. }
  set (t := Rabs (100 - r)) in *. rewrite (Rabs_right (exp t)) by (left; apply exp_pos). unfold rpow. pose proof (exp_pos t). destruct (Req_EM_T (exp t + 1) 0) as [E|_]; [lra|].
  assert (M : exp (1 / 10 * t) <= Rpower (exp t + 1) (1 / 10)).
  { apply Rle_trans with (Rpower (exp t) (1 / 10)). unfold Rpower. rewrite ln_exp. lra. apply Rle_Rpower_l; lra. }
  pose proof (exp_ge (1 / 10 * t)). pose proof (Rle_abs (- B)). rewrite Rabs_Ropp in *. lra.
Qed.
