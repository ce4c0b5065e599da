(** * Bisection on several runs; effective sample size *)
From Coq Require Import List Arith Bool Reals Permutation Lia Lra.
From Verif Require Import Scalar Np NpFacts State RVec RVecFacts Consensus ConsSpec ConsFacts Sched SchedFacts.
Import ListNotations.
Open Scope R_scope.

Section Dependence.
  Variables (n : nat) (t : R).
  Hypothesis Hn : (1 <= n)%nat.
  Hypothesis Ht : 0 < t.
  Definition slope : R := t * 2 ^ (n + 3).
  Definition rootA : R := 1 - / 2 ^ n + / 2 ^ (n + 3).
  Definition gA (x : R) : R := slope * (rootA - x).
  Definition gB (x : R) : R := slope * (1 - x).

  Lemma p2_pos : forall j, 0 < / 2 ^ j.
  Proof. intros. apply Rinv_0_lt_compat, pow_lt. lra. Qed.
  Lemma p2_S : forall j, / 2 ^ j = 2 * / 2 ^ S j.
  Proof. intros. cbn. field. apply pow_nonzero; lra. Qed.
  Lemma p2_dec : forall j k, (j <= k)%nat -> / 2 ^ k <= / 2 ^ j.
  Proof. intros. apply Rinv_le_contravar; [apply pow_lt; lra|]. apply Rle_pow; auto; lra. Qed.
  Lemma slope_u : slope * / 2 ^ (n + 3) = t.
  Proof. unfold slope. field. apply pow_nonzero; lra. Qed.
  Lemma p2_n : / 2 ^ n = 8 * / 2 ^ (n + 3).
  Proof. rewrite (p2_S n), (p2_S (S n)), (p2_S (S (S n))). replace (n + 3)%nat with (S (S (S n))) by lia. lra. Qed.
  Lemma p2_n1 : / 2 ^ S n = 4 * / 2 ^ (n + 3).
  Proof. rewrite (p2_S (S n)), (p2_S (S (S n))). replace (n + 3)%nat with (S (S (S n))) by lia. lra. Qed.
  Lemma slope_pos : 0 < slope.
  Proof. unfold slope. apply Rmult_lt_0_compat; auto. apply pow_lt; lra. Qed.

  Lemma mid_val : forall j, (1 - / 2 ^ j + 1) / 2 = 1 - / 2 ^ S j.
  Proof. intros. rewrite (p2_S j). lra. Qed.

  Lemma gA_early : forall j, (S j < n)%nat -> t < gA (1 - / 2 ^ S j).
  Proof.
    intros j Hj. unfold gA, rootA. assert (D := p2_dec (S (S j)) n Hj). rewrite (p2_S (S j)).
    assert (H1 := slope_pos). assert (H2 := slope_u). assert (H3 := p2_n). assert (H4 := p2_pos (n + 3)). nra.
  Qed.
  Lemma gA_n : gA (1 - / 2 ^ n) = t.
  Proof. unfold gA, rootA. transitivity (slope * / 2 ^ (n + 3)); [ring|apply slope_u]. Qed.
  Lemma gA_n1 : gA (1 - / 2 ^ S n) = -3 * t.
  Proof. unfold gA, rootA. rewrite p2_n, p2_n1. transitivity (-3 * (slope * / 2 ^ (n + 3))); [ring|rewrite slope_u; ring]. Qed.
  Lemma gB_val : forall j, (j <= S n)%nat -> t < gB (1 - / 2 ^ j).
  Proof.
    intros j Hj. unfold gB. assert (D := p2_dec j (S n) Hj). rewrite p2_n1 in D.
    assert (H1 := slope_pos). assert (H2 := slope_u). assert (H4 := p2_pos (n + 3)). nra.
  Qed.

  Lemma pos_tests : forall v, t < v -> Rltb 0 v = true /\ Rltb v 0 = false /\ Rltb t (Rabs v) = true.
  Proof.
    intros v Hv. rewrite Rabs_pos_eq by lra. repeat split; [apply Rltb_true|apply Rltb_false|apply Rltb_true]; lra.
  Qed.

  Ltac rt := repeat match goal with H : Rltb _ _ = _ |- _ => rewrite H end.

  Lemma one_run : forall k m j ev, m = S k -> (j + m = n)%nat ->
    b_x (bisect (per_run [gA]) t m [true] [1 - / 2 ^ j] [1] ev) = [1 - / 2 ^ n].
  Proof.
    induction k; intros m j ev -> Hj.
    - cbn -[pow gA]. rewrite mid_val. replace (S j) with n by lia. rewrite gA_n, Rabs_pos_eq by lra.
      replace (Rltb t t) with false by (symmetry; apply Rltb_false; lra). reflexivity.
    - remember (S k) as k'. cbn [bisect midpoints map2 per_run open_runs map existsb new_low new_high combine fst snd fltb fabs kltb KOps_R].
      rewrite mid_val. destruct (pos_tests (gA (1 - / 2 ^ S j))) as (T1 & T2 & T3); [apply gA_early; lia|].
      rt. cbn [andb orb]. apply IHk; auto; lia.
  Qed.

  Lemma two_runs : forall k m j ev, m = S k -> (j + m = n)%nat ->
    b_x (bisect (per_run [gA; gB]) t m [true; true] [1 - / 2 ^ j; 1 - / 2 ^ j] [1; 1] ev) = [1 - / 2 ^ S n; 1 - / 2 ^ S n].
  Proof.
    induction k; intros m j ev -> Hj.
    - cbn [bisect midpoints map2 per_run open_runs map existsb new_low new_high combine fst snd fltb fabs kltb KOps_R].
      rewrite mid_val. replace (S j) with n by lia. rewrite gA_n, (Rabs_pos_eq t) by lra.
      destruct (pos_tests (gB (1 - / 2 ^ n))) as (T1 & T2 & T3); [apply gB_val; lia|].
      replace (Rltb t t) with false by (symmetry; apply Rltb_false; lra).
      replace (Rltb 0 t) with true by (symmetry; apply Rltb_true; lra).
      replace (Rltb t 0) with false by (symmetry; apply Rltb_false; lra).
      rt. cbn [andb orb bisect b_x midpoints map2]. rewrite mid_val. reflexivity.
    - remember (S k) as k'.
      cbn [bisect midpoints map2 per_run open_runs map existsb new_low new_high combine fst snd fltb fabs kltb KOps_R].
      rewrite mid_val. destruct (pos_tests (gA (1 - / 2 ^ S j))) as (T1 & T2 & T3); [apply gA_early; lia|].
      destruct (pos_tests (gB (1 - / 2 ^ S j))) as (T4 & T5 & T6); [apply gB_val; lia|].
      rt. cbn [andb orb]. apply IHk; auto; lia.
  Qed.

  Lemma dependence : b_x (bisection_solve (per_run [gA]) [0] [1] n t) = [1 - / 2 ^ n] /\
    b_x (bisection_solve (per_run [gA; gB]) [0; 0] [1; 1] n t) = [1 - / 2 ^ S n; 1 - / 2 ^ S n].
  Proof.
    unfold bisection_solve. cbn [map]. replace 0 with (1 - / 2 ^ 0) by (cbn; lra). split.
    - apply (one_run (n - 1)); lia.
    - apply (two_runs (n - 1)); lia.
  Qed.
End Dependence.

Lemma dependence_spec : forall n t, (1 <= n)%nat -> 0 < t -> exists g1 g2 r1 r2,
  nonincreasing g1 /\ nonincreasing g2 /\ g1 r1 = 0 /\ g2 r2 = 0 /\ 0 <= r1 <= 1 /\ 0 <= r2 <= 1 /\
  exists x x' y, b_x (bisection_solve (per_run [g1]) [0] [1] n t) = [x] /\ Rabs (g1 x) <= t /\
    b_x (bisection_solve (per_run [g1; g2]) [0; 0] [1; 1] n t) = [x'; y] /\ Rabs (g1 x') = 3 * t.
Proof.
  intros n t Hn Ht. exists (gA n t), (gB n t), (rootA n), 1.
  assert (HS := slope_pos n t Ht). destruct (dependence n t Hn Ht) as (D1 & D2).
  split; [intros x y H; unfold gA; nra|]. split; [intros x y H; unfold gB; nra|].
  split; [unfold gA; ring|]. split; [unfold gB; ring|].
  assert (P1 := p2_pos (n + 3)). assert (P2 := p2_n n Hn). assert (P3 := p2_dec 0 n ltac:(lia)). rewrite pow_O, Rinv_1 in P3.
  split; [unfold rootA; lra|]. split; [lra|].
  exists (1 - / 2 ^ n), (1 - / 2 ^ S n), (1 - / 2 ^ S n). split; auto. split; [|split; auto].
  - rewrite gA_n by auto. rewrite Rabs_pos_eq; lra.
  - rewrite gA_n1 by auto. rewrite Rabs_left; lra.
Qed.

(** ** Effective sample size *)
(** (sum of weights)^2 / (sum of squared weights) *)
Definition Jeff (a : R) (E : list (fl R)) : R :=
  Rsum (map (gibbs a) E) * Rsum (map (gibbs a) E) / Rsum (map (fun e => gibbs a e * gibbs a e) E).

Lemma admissible_more : forall a b E, admissible a E -> a <= b -> admissible b E.
Proof. intros a b E [H1 H2] Hab. split; auto. intros e He. destruct (H1 e He) as [?|(? & ?)]; auto. right; split; auto; lra. Qed.
Lemma admissible_twice : forall a E, admissible a E -> admissible (2 * a) E.
Proof. intros a E [H1 H2]. split; auto. intros e He. destruct (H1 e He) as [?|(? & ?)]; auto. right; split; auto; lra. Qed.
Lemma gibbs_sq : forall a e, gibbs a e * gibbs a e = gibbs (2 * a) e.
Proof. destruct e; cbn; try lra. rewrite <- exp_plus. f_equal. ring. Qed.
Lemma lse_char : forall a E, admissible a E -> logsumexp (map (fun ei => fmul (fopp (Fin a)) ei) E) = Fin (ln (Rsum (map (gibbs a) E))).
Proof.
  intros a E HA. assert (HS := gsum_pos _ _ HA). unfold logsumexp. rewrite map_map.
  rewrite (map_ext_in _ (fun x => Fin (gibbs a x))) by (intros; apply fexp_weight; apply HA; auto).
  rewrite <- (map_map (gibbs a) Fin), fsum_fin. unfold flog.
  replace (Rltb 0 (Rsum (map (gibbs a) E))) with true by (symmetry; apply Rltb_true; auto). reflexivity.
Qed.
Lemma ess_gap_char : forall eta a E, admissible a E -> ess_gap eta E a = Fin (Jeff a E - eta * INR (length E)).
Proof.
  intros eta a E HA. assert (HA2 := admissible_twice _ _ HA). assert (HS := gsum_pos _ _ HA). assert (HS2 := gsum_pos _ _ HA2).
  unfold ess_gap. rewrite lse_char by auto.
  rewrite (map_ext (fun ei => fmul (fmul (Fin (-2)) (Fin a)) ei) (fun ei => fmul (fopp (Fin (2 * a))) ei)).
  2:{ intros e. f_equal. cbn. f_equal. ring. }
  rewrite lse_char by auto. cbn. f_equal. f_equal. unfold Jeff, Rminus. rewrite exp_plus, exp_Ropp, exp_ln by auto.
  replace (2 * ln (Rsum (map (gibbs a) E))) with (ln (Rsum (map (gibbs a) E)) + ln (Rsum (map (gibbs a) E))) by ring.
  rewrite exp_plus, exp_ln by auto. unfold Rdiv. f_equal. f_equal. apply Rsum_map_ext. intros; symmetry; apply gibbs_sq.
Qed.

Lemma sumsq_le : forall A (w : A -> R) l, (forall x, In x l -> 0 <= w x) ->
  Rsum (map (fun x => w x * w x) l) <= Rsum (map w l) * Rsum (map w l).
Proof.
  induction l; intros H; cbn [map]; rewrite ?Rsum_cons; [cbn; lra|].
  assert (0 <= w a) by (apply H; left; auto).
  assert (0 <= Rsum (map w l)) by (apply Rsum_map_nonneg; intros; apply H; right; auto).
  assert (IH := IHl (fun x Hx => H x (or_intror Hx))). nra.
Qed.
Lemma sq_le_sumsq : forall A (w : A -> R) l,
  Rsum (map w l) * Rsum (map w l) <= INR (length l) * Rsum (map (fun x => w x * w x) l).
Proof.
  intros. assert (H := dot_cs (map (fun _ => 1) l) (map w l) ltac:(rewrite !map_length; auto)).
  unfold sqnorm, dot in H. rewrite !map2_map_same in H. rewrite Rsum_map_const in H.
  rewrite (Rsum_map_ext _ (fun t => 1 * w t) w) in H by (intros; ring). lra.
Qed.

Lemma Jeff_range : forall a E, admissible a E -> 1 <= Jeff a E <= INR (length E).
Proof.
  intros a E HA. assert (HS2 := gsum_pos _ _ (admissible_twice _ _ HA)).
  rewrite (Rsum_map_ext _ (gibbs (2 * a)) (fun e => gibbs a e * gibbs a e)) in HS2 by (intros; symmetry; apply gibbs_sq).
  unfold Jeff. split.
  - apply Rmult_le_reg_r with (1 := HS2). unfold Rdiv. rewrite Rmult_assoc, Rinv_l by lra. rewrite Rmult_1_l, Rmult_1_r.
    apply sumsq_le. intros; apply gibbs_nonneg.
  - apply Rmult_le_reg_r with (1 := HS2). unfold Rdiv. rewrite Rmult_assoc, Rinv_l by lra. rewrite Rmult_1_r. apply sq_le_sumsq.
Qed.
Lemma Jeff_zero : forall E, admissible 0 E -> Jeff 0 E = INR (length E).
Proof.
  intros E HA. assert (HF : forall e, In e E -> gibbs 0 e = 1).
  { intros e He. destruct HA as [H _]. destruct (H e He) as [(x & ->)|(_ & H0)]; [|lra]. cbn. rewrite <- exp_0. f_equal. ring. }
  unfold Jeff. rewrite (Rsum_map_ext _ (gibbs 0) (fun _ => 1)) by auto.
  rewrite (Rsum_map_ext _ (fun e => gibbs 0 e * gibbs 0 e) (fun _ => 1)) by (intros; rewrite HF; auto; ring).
  rewrite Rsum_map_const. assert (L := admissible_len _ _ HA). assert (1 <= INR (length E)) by (apply (le_INR 1); auto). field. lra.
Qed.
Lemma Jeff_shift : forall a E k, admissible a E -> Jeff a (map (fun e => fadd e (Fin k)) E) = Jeff a E.
Proof.
  intros a E k HA. assert (HS2 := gsum_pos _ _ (admissible_twice _ _ HA)).
  rewrite (Rsum_map_ext _ (gibbs (2 * a)) (fun e => gibbs a e * gibbs a e)) in HS2 by (intros; symmetry; apply gibbs_sq).
  unfold Jeff. rewrite !map_map.
  rewrite (Rsum_map_ext _ (fun x => gibbs a (fadd x (Fin k))) (fun x => exp (- a * k) * gibbs a x)) by (intros; apply gibbs_shift).
  rewrite (Rsum_map_ext _ (fun x => gibbs a (fadd x (Fin k)) * gibbs a (fadd x (Fin k))) (fun x => exp (- a * k) * exp (- a * k) * (gibbs a x * gibbs a x)))
    by (intros; rewrite gibbs_shift; ring).
  rewrite !Rsum_map_scal. assert (0 < exp (- a * k)) by apply exp_pos. field. split; lra.
Qed.

Lemma exp_above : forall x, 1 + x <= exp x.
Proof. intros x. destruct (Req_dec x 0) as [->|H]; [rewrite exp_0; lra|]. left. apply exp_ineq1. auto. Qed.
Lemma exp_convex : forall l u v, 0 <= l <= 1 -> exp (l * u + (1 - l) * v) <= l * exp u + (1 - l) * exp v.
Proof.
  intros l u v Hl. set (w := l * u + (1 - l) * v). assert (Hw := exp_pos w).
  assert (U : exp w * (1 + (u - w)) <= exp u).
  { replace u with (w + (u - w)) at 2 by ring. rewrite exp_plus. apply Rmult_le_compat_l; [lra|apply exp_above]. }
  assert (V : exp w * (1 + (v - w)) <= exp v).
  { replace v with (w + (v - w)) at 2 by ring. rewrite exp_plus. apply Rmult_le_compat_l; [lra|apply exp_above]. }
  assert (l * (exp w * (1 + (u - w))) <= l * exp u) by (apply Rmult_le_compat_l; lra).
  assert ((1 - l) * (exp w * (1 + (v - w))) <= (1 - l) * exp v) by (apply Rmult_le_compat_l; lra).
  replace (exp w) with (l * (exp w * (1 + (u - w))) + (1 - l) * (exp w * (1 + (v - w)))) at 1; [lra|].
  unfold w. ring_simplify. unfold w. ring.
Qed.

(** the log-partition function is convex *)
Lemma lnS_convex : forall E a b l, admissible a E -> admissible b E -> 0 <= l <= 1 ->
  ln (Rsum (map (gibbs (l * a + (1 - l) * b)) E)) <= l * ln (Rsum (map (gibbs a) E)) + (1 - l) * ln (Rsum (map (gibbs b) E)).
Proof.
  intros E a b l HA HB Hl. assert (SA := gsum_pos _ _ HA). assert (SB := gsum_pos _ _ HB).
  set (A := Rsum (map (gibbs a) E)) in *. set (B := Rsum (map (gibbs b) E)) in *.
  set (c := l * a + (1 - l) * b).
  assert (SC : 0 < Rsum (map (gibbs c) E)).
  { destruct HA as [_ (x & Hx)]. apply Rsum_map_pos with (y := Fin x); auto; [intros; apply gibbs_nonneg|apply exp_pos]. }
  rewrite <- (ln_exp (l * ln A + (1 - l) * ln B)).
  set (T := l * ln A + (1 - l) * ln B).
  assert (G : Rsum (map (gibbs c) E) <= exp T).
  { apply Rle_trans with (Rsum (map (fun e => exp T * (l * (gibbs a e / A) + (1 - l) * (gibbs b e / B))) E)).
    - apply Rsum_map_le. intros e He. destruct e; cbn.
      + replace (- c * k) with (T + (l * (- a * k - ln A) + (1 - l) * (- b * k - ln B))) by (unfold c, T; ring).
        rewrite exp_plus. apply Rmult_le_compat_l; [left; apply exp_pos|].
        eapply Rle_trans; [apply exp_convex; auto|]. unfold Rminus. rewrite !exp_plus, !exp_Ropp, !exp_ln by auto. right. reflexivity.
      + unfold Rdiv. rewrite !Rmult_0_l, !Rmult_0_r. lra.
      + unfold Rdiv. rewrite !Rmult_0_l, !Rmult_0_r. lra.
      + unfold Rdiv. rewrite !Rmult_0_l, !Rmult_0_r. lra.
    - rewrite Rsum_map_scal, Rsum_map_plus, !Rsum_map_scal, !Rsum_map_div. fold A B. right. field. split; lra. }
  destruct (Rle_lt_or_eq_dec _ _ G) as [L| ->]; [|lra]. left. apply ln_increasing; auto.
Qed.

Lemma Jeff_ln : forall a E, admissible a E ->
  Jeff a E = exp (2 * ln (Rsum (map (gibbs a) E)) - ln (Rsum (map (gibbs (2 * a)) E))).
Proof.
  intros a E HA. assert (HA2 := admissible_twice _ _ HA). assert (HS := gsum_pos _ _ HA). assert (HS2 := gsum_pos _ _ HA2).
  unfold Jeff, Rminus. rewrite exp_plus, exp_Ropp, exp_ln by auto.
  replace (2 * ln (Rsum (map (gibbs a) E))) with (ln (Rsum (map (gibbs a) E)) + ln (Rsum (map (gibbs a) E))) by ring.
  rewrite exp_plus, exp_ln by auto. unfold Rdiv. f_equal. f_equal. apply Rsum_map_ext. intros; apply gibbs_sq.
Qed.

Lemma Jeff_decreasing : forall a b E, admissible a E -> 0 <= a <= b -> Jeff b E <= Jeff a E.
Proof.
  intros a b E HA Hab. assert (HB := admissible_more _ b _ HA ltac:(lra)).
  rewrite (Jeff_ln a), (Jeff_ln b) by auto.
  destruct (Req_dec b a) as [->|Hne]; [lra|].
  assert (HD : 0 < 2 * b - a) by lra.
  set (l := b / (2 * b - a)). set (m := (2 * b - 2 * a) / (2 * b - a)).
  assert (Hl : 0 <= l <= 1).
  { unfold l. split; [apply Rmult_le_pos; [lra|left; apply Rinv_0_lt_compat; auto]|].
    apply Rmult_le_reg_r with (1 := HD). unfold Rdiv. rewrite Rmult_assoc, Rinv_l by lra. lra. }
  assert (Hm : 0 <= m <= 1).
  { unfold m. split; [apply Rmult_le_pos; [lra|left; apply Rinv_0_lt_compat; auto]|].
    apply Rmult_le_reg_r with (1 := HD). unfold Rdiv. rewrite Rmult_assoc, Rinv_l by lra. lra. }
  assert (C1 := lnS_convex E a (2 * b) l HA (admissible_twice _ _ HB) Hl).
  assert (C2 := lnS_convex E a (2 * b) m HA (admissible_twice _ _ HB) Hm).
  replace (l * a + (1 - l) * (2 * b)) with b in C1 by (unfold l; field; lra).
  replace (m * a + (1 - m) * (2 * b)) with (2 * a) in C2 by (unfold m; field; lra).
  set (La := ln (Rsum (map (gibbs a) E))) in *. set (Lb := ln (Rsum (map (gibbs b) E))) in *.
  set (L2a := ln (Rsum (map (gibbs (2 * a)) E))) in *. set (L2b := ln (Rsum (map (gibbs (2 * b)) E))) in *.
  assert (HLM : 2 * l + m = 2) by (unfold l, m; field; lra).
  assert (2 * Lb + L2a <= 2 * La + L2b).
  { replace (2 * La + L2b) with ((2 * l + m) * La + (3 - (2 * l + m)) * L2b) by (rewrite HLM; ring). lra. }
  destruct (Rle_lt_or_eq_dec (2 * Lb - L2b) (2 * La - L2a)) as [L|L]; [lra| |rewrite L; lra]. left. apply exp_increasing; auto.
Qed.

(** ** effective_sample_size.update *)
Lemma ess_gaps_length : forall eta energy, same_length (length energy) (ess_gaps eta energy).
Proof. intros eta energy x Hx. unfold ess_gaps. rewrite map2_length. lia. Qed.

Lemma ess_range : forall eta maximum max_it M energy i, length energy = M -> (i < M)%nat -> ess_minimum <= maximum ->
  let a := nth i (b_x (ess_solve eta maximum max_it M energy)) 0 in
  ess_minimum + (maximum - ess_minimum) / 2 ^ (max_it + 1) <= a <= maximum.
Proof.
  intros eta maximum max_it M energy i HL Hi Hm a. subst M. unfold ess_solve in a.
  assert (L1 : length (repeat ess_minimum (length energy)) = length energy) by apply repeat_length.
  assert (L2 : length (repeat maximum (length energy)) = length energy) by apply repeat_length.
  destruct (bisection_stop (ess_gaps eta energy) _ _ _ max_it ess_thresh (ess_gaps_length eta energy) L1 L2) as (_ & _ & _ & _ & HE & _).
  assert (B := bisection_bracket (ess_gaps eta energy) _ _ _ max_it ess_thresh i (ess_gaps_length eta energy) L1 L2 Hi).
  assert (N1 : nth i (repeat ess_minimum (length energy)) 0 = ess_minimum) by (rewrite nth_indep with (d' := ess_minimum) by lia; apply nth_repeat).
  assert (N2 : nth i (repeat maximum (length energy)) 0 = maximum) by (rewrite nth_indep with (d' := maximum) by lia; apply nth_repeat).
  rewrite N1, N2 in B. destruct (B Hm) as (B1 & _). fold a in B1.
  set (ev := b_evals _) in *.
  assert (P : 0 < 2 ^ ev) by (apply pow_lt; lra).
  assert (/ 2 ^ (max_it + 1) <= / 2 ^ ev) by (apply p2_dec; lia).
  assert (0 < / 2 ^ ev) by (apply Rinv_0_lt_compat; auto). unfold Rdiv in *. split; [|nra].
  eapply Rle_trans; [|apply B1]. apply Rplus_le_compat_l. apply Rmult_le_compat_l; lra.
Qed.

Lemma ess_update_alpha : forall V eta maximum max_it (s s' : st R V) i row, length (s_energy s) = s_M s ->
  ess_minimum <= maximum -> ess_update eta maximum max_it s = Ok s' -> (i < s_M s)%nat -> nth_error (s_alpha s') i = Some row ->
  exists a, row = [Fin a] /\ a = nth i (b_x (ess_solve eta maximum max_it (s_M s) (s_energy s))) 0 /\
    ess_minimum + (maximum - ess_minimum) / 2 ^ (max_it + 1) <= a <= maximum.
Proof.
  intros V eta maximum max_it s s' i row HL Hm [= <-] Hi Hr.
  change (s_alpha _) with (map (map (fmin (Fin maximum))) (map (fun v => [Fin v]) (b_x (ess_solve eta maximum max_it (s_M s) (s_energy s))))) in Hr.
  rewrite map_map, nth_error_map in Hr.
  destruct (nth_error (b_x (ess_solve eta maximum max_it (s_M s) (s_energy s))) i) as [v|] eqn:E; [|discriminate].
  cbn [option_map map] in Hr. injection Hr as <-.
  assert (HV : nth i (b_x (ess_solve eta maximum max_it (s_M s) (s_energy s))) 0 = v) by (apply nth_error_nth; auto).
  assert (B := ess_range eta maximum max_it (s_M s) (s_energy s) i HL Hi Hm). cbv zeta in B. rewrite HV in B.
  exists v. split; auto. f_equal. rewrite fmin_fin. rewrite Rmin_right; auto. lra.
Qed.

Lemma ess_update_length : forall V eta maximum max_it (s s' : st R V), length (s_energy s) = s_M s ->
  ess_update eta maximum max_it s = Ok s' -> length (s_alpha s') = s_M s.
Proof.
  intros V eta maximum max_it s s' HL [= <-].
  change (s_alpha _) with (map (map (fmin (Fin maximum))) (map (fun v => [Fin v]) (b_x (ess_solve eta maximum max_it (s_M s) (s_energy s))))).
  rewrite !map_length. unfold ess_solve. eapply bisection_stop; [|rewrite repeat_length; auto|rewrite repeat_length; auto].
  rewrite <- HL. apply ess_gaps_length.
Qed.

Lemma ess_default_floor : forall V eta (s s' : st R V) i row, length (s_energy s) = s_M s ->
  ess_update eta 100000 15 s = Ok s' -> (i < s_M s)%nat -> nth_error (s_alpha s') i = Some row ->
  exists a, row = [Fin a] /\ 3 / 2 < a.
Proof.
  intros V eta s s' i row HL HU Hi Hr.
  destruct (ess_update_alpha V eta 100000 15 s s' i row HL ltac:(unfold ess_minimum; lra) HU Hi Hr) as (a & -> & _ & H & _).
  exists a. split; auto. eapply Rlt_le_trans; [|exact H]. unfold ess_minimum. cbn. lra.
Qed.

(** energies for which the target is met by some alpha, but not by what is returned *)
Definition spread (k : nat) (L : R) : list (fl R) := Fin 0 :: repeat (Fin L) k.
Lemma spread_adm : forall a k L, admissible a (spread k L).
Proof.
  intros. split.
  - intros e [<-|H]; [eauto|]. apply repeat_spec in H. subst. eauto.
  - exists 0. left. auto.
Qed.
Lemma Jeff_spread : forall a k L, let q := exp (- a * L) in
  Jeff a (spread k L) = (1 + INR k * q) * (1 + INR k * q) / (1 + INR k * (q * q)).
Proof.
  intros a k L q. unfold Jeff, spread. cbn [map]. rewrite !Rsum_cons.
  assert (R : forall g : fl R -> R, Rsum (map g (repeat (Fin L) k)) = INR k * g (Fin L)).
  { intros g. rewrite (Rsum_map_ext _ g (fun _ => g (Fin L))); [rewrite Rsum_map_const, repeat_length; auto|].
    intros e He. apply repeat_spec in He. subst. auto. }
  rewrite !R. cbn. fold q. replace (- a * 0) with 0 by ring. rewrite exp_0, Rmult_1_l. reflexivity.
Qed.

Lemma target_exists : forall k tgt, (1 <= k)%nat -> 1 < tgt < INR (S k) -> exists q, 0 < q < 1 /\
  (1 + INR k * q) * (1 + INR k * q) / (1 + INR k * (q * q)) = tgt.
Proof.
  intros k tgt Hk Ht. set (K := INR k). assert (HK : 1 <= K) by (apply (le_INR 1); auto). rewrite S_INR in Ht. fold K in Ht.
  set (h := fun q => (1 + K * q) * (1 + K * q) - tgt * (1 + K * (q * q))).
  assert (C : continuity h) by (unfold h; intros x; reg).
  assert (E0 : h 0 = 1 - tgt) by (unfold h; ring).
  assert (E1 : h 1 = (1 + K) * (1 + K - tgt)) by (unfold h; ring).
  assert (P1 : 0 < (1 + K) * (1 + K - tgt)) by (apply Rmult_lt_0_compat; lra).
  destruct (IVT_cor h 0 1 C) as (q & Hq & Hz); [lra|rewrite E0, E1; nra|].
  assert (q <> 0) by (intros ->; lra).
  assert (q <> 1) by (intros ->; lra).
  exists q. split; [lra|]. unfold h in Hz. assert (0 < 1 + K * (q * q)) by nra.
  apply Rmult_eq_reg_r with (1 + K * (q * q)); [|lra]. unfold Rdiv. rewrite Rmult_assoc, Rinv_l by lra. lra.
Qed.

Lemma ess_misses : forall V k eta delta (s : st R V), (1 <= k)%nat -> 1 < eta * INR (S k) -> eta < 1 -> 0 < delta ->
  s_M s = 1%nat ->
  exists E a0, length E = S k /\ (forall e, In e E -> exists x, e = Fin x) /\
    0 < a0 /\ ess_gap eta E a0 = Fin 0 /\
    forall s', ess_update eta 100000 15 (set_energy [E] s) = Ok s' ->
    exists a v, s_alpha s' = [[Fin a]] /\ ess_gap eta E a = Fin v /\ v < 1 - eta * INR (S k) + delta.
Proof.
  intros V k eta delta s Hk H1 H2 Hd HM.
  assert (HK : 1 <= INR k) by (apply (le_INR 1); auto).
  assert (HK1 : INR (S k) = INR k + 1) by apply S_INR.
  destruct (target_exists k (eta * INR (S k)) Hk) as (q & Hq & HT); [split; auto; nra|].
  set (ep := Rmin 1 (delta / 4)). assert (Hep : 0 < ep <= 1 /\ ep <= delta / 4).
  { unfold ep. split; [split; [apply Rmin_pos; lra|apply Rmin_l]|apply Rmin_r]. }
  set (L := INR k / ep). assert (HL : 0 < L) by (apply Rdiv_lt_0_compat; lra).
  assert (Lln : ln q < 0) by (rewrite <- ln_1; apply ln_increasing; lra).
  exists (spread k L), (- ln q / L).
  split; [unfold spread; cbn; rewrite repeat_length; auto|].
  split; [intros e [<-|H]; [eauto|apply repeat_spec in H; subst; eauto]|].
  split; [apply Rdiv_lt_0_compat; lra|]. split.
  - rewrite ess_gap_char by apply spread_adm. f_equal. rewrite Jeff_spread.
    replace (- (- ln q / L) * L) with (ln q) by (field; lra). rewrite exp_ln by lra. rewrite HT.
    unfold spread. cbn [length]. rewrite repeat_length. lra.
  - intros s' HU. assert (HLen : length (s_energy (set_energy [spread k L] s)) = s_M (set_energy [spread k L] s)) by (symmetry; exact HM).
    assert (HM' : s_M (set_energy [spread k L] s) = 1%nat) by exact HM.
    assert (HA : exists row, s_alpha s' = [row]).
    { assert (LX := ess_update_length V eta 100000 15 _ s' HLen HU). rewrite HM' in LX.
      destruct (s_alpha s') as [|v [|]]; cbn in LX; try lia. eauto. }
    destruct HA as (row & Hrow).
    destruct (ess_default_floor V eta _ s' 0 row HLen HU) as (a & -> & Ha); [lia|rewrite Hrow; auto|].
    exists a, (Jeff a (spread k L) - eta * INR (length (spread k L))). split; auto. split; [apply ess_gap_char, spread_adm|].
    replace (length (spread k L)) with (S k) by (unfold spread; cbn; rewrite repeat_length; auto).
    assert (Jeff a (spread k L) < 1 + delta); [|lra].
    rewrite Jeff_spread. set (p := exp (- a * L)).
    assert (Hp : 0 < p) by apply exp_pos.
    assert (HpL : p * L <= 1).
    { unfold p. replace (- a * L) with (- (a * L)) by ring. rewrite exp_Ropp. assert (G := exp_above (a * L)).
      apply Rmult_le_reg_l with (exp (a * L)); [apply exp_pos|]. rewrite <- Rmult_assoc, Rinv_r by (apply Rgt_not_eq, exp_pos). nra. }
    assert (Hkp : INR k * p <= ep).
    { replace (INR k) with (L * ep) by (unfold L; field; lra). nra. }
    apply Rle_lt_trans with ((1 + INR k * p) * (1 + INR k * p)).
    + assert (D : 0 < 1 + INR k * (p * p)) by nra. apply Rmult_le_reg_r with (1 := D). unfold Rdiv. rewrite Rmult_assoc, Rinv_l by lra.
      assert (0 <= INR k * p) by nra.
      assert (0 <= (1 + INR k * p) * (1 + INR k * p) * (INR k * (p * p))) by (apply Rmult_le_pos; nra). nra.
    + assert (0 <= INR k * p) by nra. nra.
Qed.
