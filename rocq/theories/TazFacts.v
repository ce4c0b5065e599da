(** * The value of the Taz kernel *)
From Coq Require Import List Arith Bool Reals Permutation Lia Lra.
From Verif Require Import Scalar Np NpFacts RVec RVecFacts Consensus ConsSpec ConsFacts Polar PolarSpec PolarFacts.
Import ListNotations.
Open Scope R_scope.

(** the value of the Taz kernel: squared distance relative to kappa times the largest distance *)
Lemma taz_max_ub : forall Xs X x y, In X Xs -> In x X -> In y X -> dist x y <= taz_max Xs.
Proof.
  intros Xs X x y HX Hx Hy. unfold taz_max.
  assert (G : forall l a, In a l -> a <= fold_right Rmax 0 l).
  { induction l as [|b l IH]; intros a []; cbn.
    - subst. apply Rmax_l.
    - eapply Rle_trans; [apply IH; auto | apply Rmax_r]. }
  apply G. apply in_flat_map. exists X. split; auto. apply in_flat_map. exists y. split; auto. apply in_map_iff. exists x. auto.
Qed.
Lemma taz_max_at : forall Xs, 0 < taz_max Xs -> exists X x y, In X Xs /\ In x X /\ In y X /\ dist x y = taz_max Xs.
Proof.
  intros Xs. unfold taz_max.
  assert (G : forall l, 0 < fold_right Rmax 0 l -> In (fold_right Rmax 0 l) l).
  { induction l as [|b l IH]; cbn; [lra|]. intros H. destruct (Rle_dec b (fold_right Rmax 0 l)).
    - rewrite Rmax_right in * by auto. auto.
    - rewrite Rmax_left in * by lra. auto. }
  intros H. apply G in H. apply in_flat_map in H. destruct H as (X & HX & H). apply in_flat_map in H.
  destruct H as (y & Hy & H). apply in_map_iff in H. destruct H as (x & E & Hx). exists X, x, y. auto.
Qed.
Lemma taz_eval_value : forall kappa D Xs, 0 < kappa -> 0 < D ->
  (forall X x y, In X Xs -> In x X -> In y X -> dist x y <= D) ->
  (exists X x y, In X Xs /\ In x X /\ In y X /\ dist x y = D) ->
  length (taz_eval (Fin kappa) Xs) = length Xs /\
  forall m X i j xi xj, nth_error Xs m = Some X -> nth_error X i = Some xi -> nth_error X j = Some xj ->
    exists row rr, nth_error (taz_eval (Fin kappa) Xs) m = Some row /\ nth_error row i = Some rr /\
      nth_error rr j = Some (Fin ((dist xj xi / (kappa * D)) ^ 2)).
Proof.
  intros kappa D Xs HK HD Ub (X0 & x0 & y0 & HX0 & Hx0 & Hy0 & ED). split; [apply map_length|].
  assert (ET : taz_max Xs = D).
  { pose proof (taz_max_ub Xs X0 x0 y0 HX0 Hx0 Hy0).
    destruct (taz_max_at Xs) as (X & x & y & A & B & C & E); [lra|]. specialize (Ub X x y A B C). lra. }
  intros m X i j xi xj E1 E2 E3. unfold taz_eval. rewrite nth_error_map, E1. cbn [option_map]. eexists. eexists. split; [reflexivity|].
  unfold nl_eval. rewrite nth_error_map, E2. cbn [option_map]. split; [reflexivity|]. rewrite nth_error_map, E3. cbn [option_map].
  f_equal. unfold taz_neg_log. rewrite ET, finv_fin by lra. cbn [fmul kmul KOps_R]. unfold fdiv. cbn. rewrite is0_false by lra.
  cbn. f_equal. field. lra.
Qed.

Lemma taz_case : let Xs := [[[0]; [1]]; [[0]; [2]]] in
  (forall X x y, In X Xs -> In x X -> In y X -> dist x y <= 2) /\
  (exists X x y, In X Xs /\ In x X /\ In y X /\ dist x y = 2) /\
  dist [1] [0] = 1.
Proof.
  cbn zeta. split; [|split].
  - intros X x y [<-|[<-|[]]] [<-|[<-|[]]] [<-|[<-|[]]]; rewrite dist1; unfold Rabs; destruct (Rcase_abs _); lra.
  - exists [[0]; [2]], [2], [0]. cbn. repeat split; auto. rewrite dist1, Rabs_pos_eq; lra.
  - rewrite dist1, Rabs_pos_eq; lra.
Qed.
