(** * Facts about the benchmark functions in any dimension *)
From Coq Require Import List Arith Bool Reals Lra Lia.
From Verif Require Import Scalar Np NpFacts Nd RVec RVecFacts Objectives MinSpec MinFacts.
Import ListNotations.
Open Scope R_scope.

Lemma ok_inj : forall A (a b : A), Ok a = Ok b -> a = b.
Proof. intros A a b H. injection H; auto. Qed.
Lemma sum_zero : forall A (f : A -> R) l, (forall x, In x l -> 0 <= f x) -> Rsum (map f l) = 0 -> forall x, In x l -> f x = 0.
Proof.
  intros A f l H E x Hx. destruct (Rle_lt_or_eq_dec 0 (f x) (H x Hx)) as [L|L]; auto. pose proof (Rsum_map_pos A f l x H Hx L). lra.
Qed.
Lemma all_repeat : forall (b : R) l, (forall v, In v l -> v = b) -> l = repeat b (length l).
Proof. intros b l. induction l as [|a l IH]; intros H; auto. cbn. rewrite (H a) by (left; auto). f_equal. apply IH. intros v Hv. apply H. right; auto. Qed.
Lemma sq_sum_nonneg : forall x, 0 <= Rsum (map (fun v => v ^ 2) x).
Proof. intros. apply Rsum_map_nonneg. intros. apply pow2_ge_0. Qed.
Lemma norm_sq : forall x, norm x ^ 2 = Rsum (map (fun v => v ^ 2) x).
Proof. intros. unfold norm. apply pow2_sqrt. apply sq_sum_nonneg. Qed.
Lemma norm_nonneg : forall x, 0 <= norm x.
Proof. intros. apply sqrt_pos. Qed.
Lemma norm_zero : forall x, norm x = 0 <-> x = repeat 0 (length x).
Proof.
  intros x. split; intros H.
  - apply all_repeat. intros v Hv. apply sq0. apply (sum_zero _ (fun v => v ^ 2) x); auto. intros; apply pow2_ge_0. rewrite <- norm_sq, H. ring.
  - assert (E : norm x ^ 2 = 0). { rewrite norm_sq. apply Rsum_map_0. intros v Hv. rewrite H in Hv. apply repeat_spec in Hv. subst. ring. } apply sq0. auto.
Qed.

(** ** Quadratic *)
Theorem quadratic_min : forall alpha d, global_min (Quadratic alpha) (repeat 0 d) 0 /\ (alpha <> 0 -> only_point (Quadratic alpha) (repeat 0 d) 0).
Proof.
  intros alpha d. split. split.
  - unfold Quadratic. f_equal. rewrite norm_sq. apply Rsum_map_0. intros v Hv. apply in_map_iff in Hv. destruct Hv as (u & <- & Hu). apply repeat_spec in Hu. subst. ring.
  - intros q w H. apply ok_inj in H; subst w. apply pow2_ge_0.
  - intros Ha q L H. apply ok_inj in H. apply sq0 in H. apply norm_zero in H. rewrite map_length in H. rewrite repeat_length in L. rewrite <- L. apply all_repeat. intros v Hv.
    apply (in_map (Rmult alpha)) in Hv. rewrite H in Hv. apply repeat_spec in Hv. apply Rmult_integral in Hv. destruct Hv; auto. contradiction.
Qed.

(** ** Rastrigin *)
Lemma rastrigin_form : forall b c A x, Rastrigin b c A x = Ok (Rsum (map (fun v => (v - b) ^ 2 + A * (1 - cos (2 * PI * (v - b)))) x) + c).
Proof.
  intros. unfold Rastrigin. f_equal. f_equal. rewrite (Rmult_comm A). rewrite <- (Rsum_map_const R A x). rewrite <- Rsum_map_plus. apply Rsum_map_ext. intros. ring.
Qed.
Lemma rastrigin_term : forall b A v, 0 <= A -> (v - b) ^ 2 <= (v - b) ^ 2 + A * (1 - cos (2 * PI * (v - b))).
Proof. intros b A v HA. pose proof (COS_bound (2 * PI * (v - b))). pose proof (Rmult_le_pos A (1 - cos (2 * PI * (v - b))) HA ltac:(lra)). lra. Qed.
Theorem rastrigin_min : forall b c A d, 0 <= A -> global_min (Rastrigin b c A) (repeat b d) c /\ only_point (Rastrigin b c A) (repeat b d) c.
Proof.
  intros b c A d HA. assert (NN : forall x v, In v x -> 0 <= (v - b) ^ 2 + A * (1 - cos (2 * PI * (v - b)))).
  { intros x v _. pose proof (rastrigin_term b A v HA). pose proof (pow2_ge_0 (v - b)). lra. }
  split. split.
  - rewrite rastrigin_form. f_equal. rewrite Rsum_map_0; [lra|]. intros v Hv. apply repeat_spec in Hv. subst. replace (b - b) with 0 by ring. rewrite Rmult_0_r, cos_0. ring.
  - intros q w H. rewrite rastrigin_form in H. apply ok_inj in H; subst w. pose proof (Rsum_map_nonneg _ (fun v => (v - b) ^ 2 + A * (1 - cos (2 * PI * (v - b)))) q (NN q)). lra.
  - intros q L H. rewrite rastrigin_form in H. apply ok_inj in H. assert (E : Rsum (map (fun v => (v - b) ^ 2 + A * (1 - cos (2 * PI * (v - b)))) q) = 0) by lra.
    rewrite repeat_length in L. rewrite <- L. apply all_repeat. intros v Hv. pose proof (sum_zero _ _ q (NN q) E v Hv) as Z. cbv beta in Z. pose proof (rastrigin_term b A v HA). pose proof (pow2_ge_0 (v - b)).
    assert (S : (v - b) ^ 2 = 0) by lra. apply sq0 in S. lra.
Qed.
(** for A < 0 the shift vector is not even a minimiser on the line *)
Theorem rastrigin_negative : forall b c A, A < - 1 / 8 -> exists w, Rastrigin b c A [b + 1 / 2] = Ok w /\ w < c.
Proof.
  intros b c A HA. eexists. split; [apply rastrigin_form|]. cbn [map]. rewrite Rsum_cons. change (Rsum []) with 0. replace (b + 1 / 2 - b) with (1 / 2) by ring. replace (2 * PI * (1 / 2)) with PI by field. rewrite cos_PI. lra.
Qed.

(** ** Ackley *)
Lemma exp_mono : forall a b, a <= b -> exp a <= exp b.
Proof. intros a b [H|H]; [left; apply exp_increasing; auto|subst; lra]. Qed.
Lemma bminus_ok : forall x m, length m = length x \/ length m = 1%nat -> exists u, bminus x m = Ok u /\ length u = length x /\ (u = repeat 0 (length u) <-> x = expand (length x) m).
Proof.
  intros x m H. unfold bminus. destruct (Nat.eqb_spec (length x) (length m)) as [E|N].
  - exists (map2 Rminus x m). assert (L : length (map2 Rminus x m) = length x) by (rewrite map2_length; lia). split; auto. split; auto. rewrite L.
    assert (X : expand (length x) m = m). { destruct m as [|b [|b' m]]; cbn; auto. rewrite E. reflexivity. } rewrite X. clear H X L. revert m E. induction x as [|a x IH]; intros [|b m] E; try discriminate; cbn. split; auto.
    injection E as E. specialize (IH m E). split; intros H; injection H as H1 H2; f_equal; try lra; apply IH; auto.
  - destruct H as [H|H]; [congruence|]. destruct m as [|b [|b' m]]; try discriminate. destruct x as [|a [|a' x]]; cbn [length] in N; try lia.
    + exists []. cbn. tauto.
    + eexists. split; [reflexivity|]. set (y := a :: a' :: x). rewrite map_length. split; auto. cbn [expand]. split; intros H'.
      * apply all_repeat. intros v Hv. apply (in_map (fun v => v - b)) in Hv. rewrite H' in Hv. apply repeat_spec in Hv. lra.
      * rewrite <- (map_length (fun v => v - b) y). apply all_repeat. intros v Hv. apply in_map_iff in Hv. destruct Hv as (u & <- & Hu). rewrite H' in Hu. apply repeat_spec in Hu. subst. lra.
Qed.
Definition ackley_at (A b c d : R) (u : list R) : R := - A * exp (- b * sqrt (1 / d) * norm u) - exp (1 / d * Rsum (map (fun v => cos (c * v)) u)) + A + exp 1.
Lemma ackley_bound : forall A b c u, (0 < length u)%nat -> 0 <= A -> 0 <= b ->
  0 <= ackley_at A b c (INR (length u)) u /\ (0 < A -> 0 < b -> ackley_at A b c (INR (length u)) u = 0 -> u = repeat 0 (length u)) /\
  ackley_at A b c (INR (length u)) (repeat 0 (length u)) = 0.
Proof.
  intros A b c u HL HA Hb. set (d := INR (length u)). assert (Hd : 0 < d) by (apply lt_0_INR; auto).
  assert (Hs : 0 < sqrt (1 / d)) by (apply sqrt_lt_R0; apply Rdiv_lt_0_compat; lra).
  assert (E1 : exp (- b * sqrt (1 / d) * norm u) <= 1). { apply Rle_trans with (exp 0); [apply exp_mono|rewrite exp_0; lra]. pose proof (norm_nonneg u). assert (0 <= b * sqrt (1 / d) * norm u) by (apply Rmult_le_pos; [apply Rmult_le_pos; [auto|left; auto]|auto]). lra. }
  assert (E2 : exp (1 / d * Rsum (map (fun v => cos (c * v)) u)) <= exp 1).
  { apply exp_mono. assert (HS : Rsum (map (fun v => cos (c * v)) u) <= d * 1). { unfold d. rewrite <- (Rsum_map_const R 1 u). apply Rsum_map_le. intros; apply COS_bound. }
    set (S := Rsum (map (fun v => cos (c * v)) u)) in *. apply (Rmult_le_reg_l d); auto. replace (d * (1 / d * S)) with S by (field; lra). exact HS. }
  assert (P : 0 <= A * (1 - exp (- b * sqrt (1 / d) * norm u))) by (apply Rmult_le_pos; lra).
  split; [|split].
  - unfold ackley_at. lra.
  - intros HA' Hb' E. unfold ackley_at in E. assert (Z : A * (1 - exp (- b * sqrt (1 / d) * norm u)) = 0) by lra. apply Rmult_integral in Z. destruct Z as [Z|Z]; [lra|].
    assert (Z' : exp (- b * sqrt (1 / d) * norm u) = exp 0) by (rewrite exp_0; lra). apply exp_inv in Z'. apply norm_zero.
    assert (b * sqrt (1 / d) * norm u = 0) by lra. apply Rmult_integral in H. destruct H as [H|H]; auto. apply Rmult_integral in H. destruct H; lra.
  - unfold ackley_at. assert (N : norm (repeat 0 (length u)) = 0) by (apply norm_zero; rewrite repeat_length; auto). rewrite N, Rmult_0_r, exp_0.
    assert (S : Rsum (map (fun v => cos (c * v)) (repeat 0 (length u))) = d). { rewrite (Rsum_map_ext _ _ (fun _ => 1)). rewrite Rsum_map_const, repeat_length. unfold d. ring. intros v Hv. apply repeat_spec in Hv. subst. rewrite Rmult_0_r. apply cos_0. }
    rewrite S. replace (1 / d * d) with 1 by (field; lra). ring.
Qed.
Theorem ackley_min : forall A b c minimum d, (0 < d)%nat -> 0 <= A -> 0 <= b -> (forall m, minimum = Some m -> length m = d \/ length m = 1%nat) ->
  let p := match minimum with None => repeat 0 d | Some m => expand d m end in
  global_min_dim d (Ackley A b c minimum) p 0 /\ (0 < A -> 0 < b -> only_point (Ackley A b c minimum) p 0).
Proof.
  intros A b c minimum d Hd HA Hb Hm p.
  assert (Lp : length p = d). { unfold p. destruct minimum as [m|]; [|apply repeat_length]. destruct (Hm m eq_refl) as [H|H]; destruct m as [|v [|v' m]]; cbn in *; try lia; apply repeat_length. }
  assert (F : forall q, length q = d -> exists u, Ackley A b c minimum q = Ok (ackley_at A b c (INR (length u)) u) /\ length u = d /\ (u = repeat 0 (length u) <-> q = p)).
  { intros q Lq. assert (Nz : (length q =? 0)%nat = false) by (apply Nat.eqb_neq; lia). unfold Ackley. rewrite Nz. unfold p. destruct minimum as [m|].
    - destruct (bminus_ok q m) as (u & Eu & Lu & Z). rewrite Lq. auto. exists u. rewrite Eu. cbn [bind]. rewrite Lu, <- Lq. split; [reflexivity|]. split; auto. rewrite <- Lu at 1. auto.
    - exists (map (fun v => v - 0) q). cbn [bind]. rewrite map_length. split; [reflexivity|]. split; auto. replace (map (fun v => v - 0) q) with q. rewrite <- Lq. tauto.
      rewrite <- (map_id q) at 1. apply map_ext. intros; ring. }
  split. split; [auto|split].
  - destruct (F p Lp) as (u & E & Lu & Z). rewrite E. f_equal. assert (Eu : u = repeat 0 (length u)) by (apply Z; auto). destruct (ackley_bound A b c u) as (_ & _ & B); auto. lia. rewrite <- Eu in B. auto.
  - intros q w Lq H. destruct (F q Lq) as (u & E & Lu & Z). rewrite H in E. apply ok_inj in E; subst w. apply ackley_bound; auto. lia.
  - intros HA' Hb' q Lq H. rewrite Lp in Lq. destruct (F q Lq) as (u & E & Lu & Z). rewrite H in E. apply ok_inj in E. apply Z. destruct (ackley_bound A b c u) as (_ & B & _); auto. lia.
Qed.

(** ** p_4th_order *)
Theorem p4_min : forall d, let p := repeat (sqrt (1 / 2)) d in global_min_dim d p_4th_order p (1 - INR d / 4) /\
  (forall q, length q = d -> (p_4th_order q = Ok (1 - INR d / 4) <-> forall v, In v q -> v ^ 2 = 1 / 2)).
Proof.
  intros d p. assert (F : forall q, p_4th_order q = Ok (Rsum (map (fun v => (v ^ 2 - 1 / 2) ^ 2) q) + (1 - INR (length q) / 4))).
  { intros q. unfold p_4th_order. f_equal. rewrite <- Rsum_map_minus. replace (1 - INR (length q) / 4) with (1 - INR (length q) * (1 / 4)) by field. rewrite <- (Rsum_map_const R (1 / 4) q).
    rewrite (Rsum_map_ext _ (fun x => x ^ 4 - x ^ 2) (fun x => (x ^ 2 - 1 / 2) ^ 2 - 1 / 4)) by (intros; field). rewrite Rsum_map_minus. ring. }
  assert (NN : forall q, 0 <= Rsum (map (fun v => (v ^ 2 - 1 / 2) ^ 2) q)) by (intros; apply Rsum_map_nonneg; intros; apply pow2_ge_0).
  assert (I : forall q, length q = d -> (p_4th_order q = Ok (1 - INR d / 4) <-> forall v, In v q -> v ^ 2 = 1 / 2)).
  { intros q Lq. rewrite F, Lq. split.
    - intros H v Hv. apply ok_inj in H. assert (E : Rsum (map (fun v => (v ^ 2 - 1 / 2) ^ 2) q) = 0) by lra. pose proof (sum_zero _ _ q (fun v _ => pow2_ge_0 (v ^ 2 - 1 / 2)) E v Hv) as Z. cbv beta in Z. apply sq0 in Z. lra.
    - intros H. f_equal. rewrite Rsum_map_0; [ring|]. intros v Hv. rewrite (H v Hv). field. }
  split; auto. split; [unfold p; apply repeat_length|]. split.
  - apply I. unfold p; apply repeat_length. intros v Hv. apply repeat_spec in Hv. subst. apply pow2_sqrt. lra.
  - intros q w Lq H. rewrite F, Lq in H. apply ok_inj in H; subst w. pose proof (NN q). lra.
Qed.

(** ** Michalewicz *)
Theorem michalewicz_bound : forall m q w, Michalewicz m q = Ok w -> - INR (length q) <= w <= INR (length q).
Proof.
  intros m q w H. apply ok_inj in H; subst w. unfold mapi. set (g := fun (i : nat) (v : R) => sin v * sin (INR (i + 1) * v ^ 2 / PI) ^ (2 * m)).
  assert (G : forall i, - INR (length q) <= - Rsum (mapi_from i g q) <= INR (length q)); [|exact (G 0%nat)]. induction q as [|v q IH]; intros i.
  - cbn. unfold Rsum. cbn. lra.
  - cbn [mapi_from]. rewrite Rsum_cons. cbn [length]. rewrite S_INR. specialize (IH (S i)). unfold g at 1 3.
    set (t := sin (INR (i + 1) * v ^ 2 / PI)). assert (T : 0 <= t ^ (2 * m) <= 1).
    { rewrite pow_mult. assert (0 <= t ^ 2 <= 1). { pose proof (SIN_bound (INR (i + 1) * v ^ 2 / PI)). fold t in H. split; [apply pow2_ge_0|]. replace 1 with (1 ^ 2) by ring. rewrite <- (Rsqr_pow2 t), <- (Rsqr_pow2 1). apply neg_pos_Rsqr_le; lra. }
      split. apply pow_le; lra. rewrite <- (pow1 m). apply pow_incr; lra. }
    pose proof (SIN_bound v) as S. set (s := sin v) in *. assert (- 1 <= s * t ^ (2 * m) <= 1).
    { set (r := t ^ (2 * m)) in *. split. assert (0 <= (s + 1) * r) by (apply Rmult_le_pos; lra). lra. assert (0 <= (1 - s) * r) by (apply Rmult_le_pos; lra). lra. }
    split; lra.
Qed.
