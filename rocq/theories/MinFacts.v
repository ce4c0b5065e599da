(** * Facts about the benchmark functions *)
From Coq Require Import List Arith Bool Reals Lra Lia Psatz.
From Verif Require Import Scalar Np NpFacts Nd RVec RVecFacts Objectives MinSpec.
Import ListNotations.
Open Scope R_scope.

Lemma two_points : forall x : list R, length x = 2%nat -> exists a b, x = [a; b].
Proof. intros [|a [|b [|c x]]] H; try discriminate. eauto. Qed.
Lemma at2 : forall x a b, at_ x 0 = Ok a -> at_ x 1 = Ok b -> exists t, x = a :: b :: t.
Proof. intros [|u [|v x]] a b H1 H2; cbn in *; try discriminate. injection H1 as <-. injection H2 as <-. eauto. Qed.
Lemma pair_inv : forall (f : R -> R -> res R) x w, (bind (at_ x 0) (fun a => bind (at_ x 1) (fun b => f a b))) = Ok w -> exists a b t, x = a :: b :: t /\ f a b = Ok w.
Proof. intros f [|a [|b t]] w H; cbn in H; try discriminate. eauto 8. Qed.

Lemma sq0 : forall a, a ^ 2 = 0 -> a = 0.
Proof. intros a H. destruct (Rmult_integral a a) as [E|E]; auto. replace (a * a) with (a ^ 2) by ring. auto. Qed.

(** ** three-hump camel *)
Lemma camel_pos : forall a b, 0 <= 2 * a ^ 2 - 105 / 100 * a ^ 4 + 1 / 6 * a ^ 6 + a * b + b ^ 2 /\
  (2 * a ^ 2 - 105 / 100 * a ^ 4 + 1 / 6 * a ^ 6 + a * b + b ^ 2 = 0 -> a = 0 /\ b = 0).
Proof.
  intros a b. pose (t := a ^ 2). assert (Ht : 0 <= t) by (unfold t; nra).
  assert (Q : 1 / 100 <= 175 / 100 - 105 / 100 * t + 1 / 6 * t ^ 2) by (pose proof (pow2_ge_0 (t - 315 / 100)); lra).
  replace (2 * a ^ 2 - 105 / 100 * a ^ 4 + 1 / 6 * a ^ 6 + a * b + b ^ 2) with ((b + a / 2) ^ 2 + t * (175 / 100 - 105 / 100 * t + 1 / 6 * t ^ 2)) by (unfold t; field).
  pose proof (pow2_ge_0 (b + a / 2)) as P1. assert (P2 : 1 / 100 * t <= t * (175 / 100 - 105 / 100 * t + 1 / 6 * t ^ 2)) by (rewrite (Rmult_comm (1 / 100)); apply Rmult_le_compat_l; lra).
  split. lra. intros E. assert (t = 0) by lra. assert (a = 0) by (apply sq0; auto). split; auto. subst a. assert (E0 : (b + 0 / 2) ^ 2 = 0) by lra. apply sq0 in E0. lra.
Qed.
Theorem camel_min : global_min three_hump_camel [0; 0] 0 /\ only_point three_hump_camel [0; 0] 0.
Proof.
  split. split. { cbn. f_equal. field. } intros q w H. apply pair_inv in H. destruct H as (a & b & t & -> & H). injection H as <-. apply camel_pos.
  intros q L H. apply two_points in L. destruct L as (a & b & ->). cbn [three_hump_camel at_ nth_error bind] in H. injection H as H. destruct (proj2 (camel_pos a b) H) as [-> ->]. auto.
Qed.

(** ** Rosenbrock *)
Theorem rosenbrock_min : forall pa pb, 0 <= pb -> global_min (Rosenbrock pa pb) [pa; pa ^ 2] 0 /\ (0 < pb -> only_point (Rosenbrock pa pb) [pa; pa ^ 2] 0).
Proof.
  intros pa pb Hb. split. split. { cbn. f_equal. ring. } intros q w H. apply pair_inv in H. destruct H as (a & b & t & -> & H). injection H as <-.
  pose proof (pow2_ge_0 (pa - a)). pose proof (pow2_ge_0 (b - a ^ 2)) as P. pose proof (Rmult_le_pos _ _ Hb P). lra.
  intros Hb' q L H. apply two_points in L. destruct L as (a & b & ->). cbn [Rosenbrock at_ nth_error bind] in H. injection H as H.
  pose proof (pow2_ge_0 (pa - a)). pose proof (pow2_ge_0 (b - a ^ 2)). assert (0 <= pb * (b - a ^ 2) ^ 2) by (apply Rmult_le_pos; auto).
  assert (E1 : (pa - a) ^ 2 = 0) by lra. assert (E2 : pb * (b - a ^ 2) ^ 2 = 0) by lra. apply sq0 in E1. assert (a = pa) by lra. subst a.
  apply Rmult_integral in E2. destruct E2 as [E2|E2]; [lra|]. apply sq0 in E2. assert (b = pa ^ 2) by lra. subst. auto.
Qed.
(** negative b: no minimum *)
Theorem rosenbrock_unbounded : forall pa pb, pb < 0 -> unbounded_below (Rosenbrock pa pb).
Proof.
  intros pa pb Hb B. set (y := 1 + pa ^ 2 + Rabs B / - pb). exists [pa; y], ((pa - pa) ^ 2 + pb * (y - pa ^ 2) ^ 2). split; [reflexivity|]. split; [reflexivity|].
  set (u := Rabs B / - pb) in *. assert (Hu : - pb * u = Rabs B) by (unfold u; field; lra).
  assert (0 <= u). { unfold u. apply Rmult_le_pos. apply Rabs_pos. left. apply Rinv_0_lt_compat. lra. }
  replace (y - pa ^ 2) with (1 + u) by (unfold y; ring). pose proof (Rle_abs (- B)). rewrite Rabs_Ropp in *.
  assert (0 <= - pb * u ^ 2) by (apply Rmult_le_pos; [lra|apply pow2_ge_0]). replace ((pa - pa) ^ 2 + pb * (1 + u) ^ 2) with (pb - 2 * (- pb * u) - (- pb * u ^ 2)) by ring. rewrite Hu. pose proof (Rabs_pos B). lra.
Qed.

(** ** Himmelblau *)
Theorem himmelblau_min : forall k, k <> 0 -> global_min (Himmelblau k) [3 / k; 2 / k] 0 /\ (forall q w, Himmelblau k q = Ok w -> 0 <= w).
Proof.
  intros k Hk. assert (G : forall q w, Himmelblau k q = Ok w -> 0 <= w).
  { intros q w H. apply pair_inv in H. destruct H as (a & b & t & E & H). injection H as <-. pose proof (pow2_ge_0 (a ^ 2 + b - 11)). pose proof (pow2_ge_0 (a + b ^ 2 - 7)). lra. }
  split; auto. split; auto. cbn. f_equal. field. auto.
Qed.

Definition cub (y : R) : R := y ^ 3 + 2 * y ^ 2 - 10 * y - 19.
Lemma cub_cont : continuity cub.
Proof. unfold cub. reg. Qed.
Lemma cub_roots : exists y1 y2 y3, cub y1 = 0 /\ cub y2 = 0 /\ cub y3 = 0 /\ 31313115 / 10000000 <= y1 <= 31313135 / 10000000 /\ -32831865 / 10000000 <= y2 <= -32831855 / 10000000 /\ -18481270 / 10000000 <= y3 <= -18481260 / 10000000.
Proof.
  destruct (IVT_cor cub (31313115 / 10000000) (31313135 / 10000000) cub_cont) as (y1 & H1 & E1). lra. unfold cub; lra.
  destruct (IVT_cor cub (-32831865 / 10000000) (-32831855 / 10000000) cub_cont) as (y2 & H2 & E2). lra. unfold cub; lra.
  destruct (IVT_cor cub (-18481270 / 10000000) (-18481260 / 10000000) cub_cont) as (y3 & H3 & E3). lra. unfold cub; lra.
  exists y1, y2, y3. auto 8.
Qed.
Lemma cub_only : forall y1 y2 y3 y, cub y1 = 0 -> cub y2 = 0 -> cub y3 = 0 -> y1 <> y2 -> y1 <> y3 -> y2 <> y3 -> cub y = 0 -> y = y1 \/ y = y2 \/ y = y3.
Proof.
  intros y1 y2 y3 y H1 H2 H3 N12 N13 N23 H. unfold cub in *.
  assert (A : y1 ^ 2 + y1 * y2 + y2 ^ 2 + 2 * (y1 + y2) - 10 = 0). { apply Rmult_eq_reg_l with (y1 - y2); [|lra]. ring_simplify. lra. }
  assert (B : y1 ^ 2 + y1 * y3 + y3 ^ 2 + 2 * (y1 + y3) - 10 = 0). { apply Rmult_eq_reg_l with (y1 - y3); [|lra]. ring_simplify. lra. }
  assert (C : y1 + y2 + y3 + 2 = 0). { apply Rmult_eq_reg_l with (y2 - y3); [|lra]. ring_simplify. ring_simplify in A. ring_simplify in B. lra. }
  assert (D : (y - y1) * (y - y2) * (y - y3) = 0).
  { assert (y3 = - 2 - y1 - y2) by lra. subst y3. assert (E : (y - y1) * (y - y2) * (y - (- 2 - y1 - y2)) = (y ^ 3 + 2 * y ^ 2 - 10 * y - 19) - (y1 ^ 3 + 2 * y1 ^ 2 - 10 * y1 - 19) - (y - y1) * (y1 ^ 2 + y1 * y2 + y2 ^ 2 + 2 * (y1 + y2) - 10)) by ring.
    rewrite E, H, H1, A. ring. }
  apply Rmult_integral in D. destruct D as [D|D]; [apply Rmult_integral in D; destruct D|]; lra.
Qed.
(** exactly four minimisers, and the listed points are 5-digit approximations of them *)
Definition near (p q : list R) : Prop := Forall2 (fun a b => Rabs (a - b) < 1 / 100000) p q.
Theorem himmelblau_four : exists ps, length ps = 4%nat /\ Forall2 near Himmelblau_minima ps /\ NoDup ps /\
  forall k q, k <> 0 -> length q = 2%nat -> (Himmelblau k q = Ok 0 <-> In (map (Rmult k) q) ps).
Proof.
  destruct cub_roots as (y1 & y2 & y3 & E1 & E2 & E3 & B1 & B2 & B3).
  exists [[3; 2]; [7 - y1 ^ 2; y1]; [7 - y2 ^ 2; y2]; [7 - y3 ^ 2; y3]]. split; auto. split.
  { unfold Himmelblau_minima, near. repeat constructor; apply Rabs_def1; nra. }
  split. { repeat constructor; intros HI; cbn in HI; repeat match type of HI with _ \/ _ => destruct HI as [HI|HI] end; try contradiction; injection HI as ? ?; lra. }
  intros k q Hk L. apply two_points in L. destruct L as (a & b & ->). cbn [Himmelblau map at_ nth_error bind]. set (u := k * a). set (v := k * b). split.
  - intros H. injection H as H. pose proof (pow2_ge_0 (u ^ 2 + v - 11)) as P1. pose proof (pow2_ge_0 (u + v ^ 2 - 7)) as P2.
    assert (H1 : u ^ 2 + v - 11 = 0) by (apply sq0; lra). assert (H2 : u + v ^ 2 - 7 = 0) by (apply sq0; lra). assert (Eu : u = 7 - v ^ 2) by lra.
    assert (Q : (v - 2) * cub v = 0). { unfold cub. rewrite Eu in H1. ring_simplify. ring_simplify in H1. lra. }
    apply Rmult_integral in Q. destruct Q as [Q|Q].
    + left. assert (v = 2) by lra. rewrite Eu. replace v with 2. f_equal. lra.
    + destruct (cub_only y1 y2 y3 v) as [Hv|[Hv|Hv]]; auto; try lra; rewrite Eu, Hv; cbn; auto.
  - intros HI. f_equal. assert (Z : u ^ 2 + v - 11 = 0 /\ u + v ^ 2 - 7 = 0).
    { cbn in HI. destruct HI as [HI|[HI|[HI|[HI|[]]]]]; injection HI as <- <-; unfold cub in *; split; try lra; nra. }
    destruct Z as [-> ->]. ring.
Qed.
(** the listed points themselves: the first is exact, the values at the others are positive and below 1e-9 *)
Theorem himmelblau_listed : forall p, In p Himmelblau_minima -> exists w, Himmelblau 1 p = Ok w /\ 0 <= w < 1 / 1000000000 /\ (w = 0 <-> p = [3; 2]).
Proof.
  intros p HI. cbn in HI. destruct HI as [<-|[<-|[<-|[<-|[]]]]]; eexists; (split; [cbn; reflexivity|]); (split; [lra|]).
  split; [auto|intros; lra].
  all: split; [intros; exfalso; lra|intros E; injection E as E1 E2; exfalso; lra].
Qed.
