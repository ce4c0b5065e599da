(** * The functions of the mirror maps: gradients, conjugate points, Bregman distances *)
From Coq Require Import List Arith Reals Lra Lia Psatz.
From Verif Require Import Scalar Np NpFacts Consensus PostProc RVec RVecFacts ConsSpec ConsFacts RegFacts Cbo CboSpec CboFacts MatSqrt MatSpec MatFacts
  MirrorMaps MirrorSpec MirrorFacts MirrorProj ConSpec ConFacts Potentials PotSpec PotFacts.
Import ListNotations.
Open Scope R_scope.

Lemma fsum_map : forall (g : fl R -> fl R) (f : R -> R) x, (forall t, In t x -> g (Fin t) = Fin (f t)) -> fsum (map g (floats x)) = Fin (Rsum (map f x)).
Proof.
  intros g f x H. rewrite <- fsum_fin. apply (f_equal fsum). unfold floats. rewrite !map_map. apply map_ext_in. auto.
Qed.
Lemma map_floats : forall (g : fl R -> fl R) (f : R -> R) x, (forall t, In t x -> g (Fin t) = Fin (f t)) -> map g (floats x) = floats (map f x).
Proof. intros g f x H. unfold floats. rewrite !map_map. apply map_ext_in. auto. Qed.
Lemma box_unit : forall x, open_box x <-> all_coord unit_open x.
Proof. intros. reflexivity. Qed.

(** ** values *)
Lemma l2_value : forall lamda x, mm_call (L2 lamda) (floats x) = Some (Fin (sep (half_sq lamda) x)).
Proof.
  intros. cbn [mm_call]. rewrite (fsum_map _ (fun t => t * t)) by reflexivity. cbn. do 2 f_equal. unfold sep. rewrite <- Rsum_map_scal. apply Rsum_map_ext. intros t _. unfold half_sq. field.
Qed.
Lemma net_value : forall delta lamda x, 0 < delta -> mm_call (ElasticNet delta lamda) (floats x) = Some (Fin (sep (net delta lamda) x)).
Proof.
  intros delta lamda x H. cbn [mm_call]. rewrite (fsum_map _ (fun t => t * t)), (fsum_map fabs Rabs) by reflexivity. cbn [fmul kmul KOps_R]. rewrite fdiv_fin by lra. cbn. do 2 f_equal.
  unfold sep, net. rewrite Rsum_map_plus, Rsum_map_scal. f_equal. rewrite <- Rsum_map_scal. apply Rsum_map_ext. intros t _. field. lra.
Qed.
Lemma log_value : forall x, open_box x -> mm_call LogBarrierBox (floats x) = Some (Fin (sep log_box x)).
Proof.
  intros x Hx. cbn [mm_call]. f_equal. apply fsum_map. intros t Ht. specialize (Hx t Ht). cbv beta in Hx. cbn [fsub fadd fopp]. cbn [kadd kopp ksub KOps_R].
  rewrite !fdiv_fin by lra. rewrite !flog_fin by (apply Rdiv_lt_0_compat; lra). cbn. f_equal. unfold log_box, Rdiv. rewrite !Rmult_1_l, !ln_Rinv by lra. ring.
Qed.
Lemma nb_term_fin : forall t, unit_open t -> nb_term (Fin t) = Fin (rational_barrier t).
Proof. intros t Ht. apply unit_abs in Ht. unfold nb_term. cbn [fabs fsub fadd fopp]. cbn [kadd kopp ksub KOps_R]. rewrite fdiv_fin by lra. reflexivity. Qed.
Lemma barrier_value : forall x, open_box x -> mm_call NonsmoothBarrier (floats x) = Some (Fin (sep rational_barrier x)).
Proof. intros x Hx. cbn [mm_call]. f_equal. apply fsum_map. intros t Ht. apply nb_term_fin. apply Hx. auto. Qed.
Lemma entropy_value : forall x, all_coord (fun t => 0 < t) x -> mm_call Entropy (floats x) = Some (Fin (sep entropy x)).
Proof.
  intros x Hx. cbn [mm_call]. f_equal. apply fsum_map. intros t Ht. specialize (Hx t Ht). cbv beta in Hx. rewrite fdiv_fin by lra. rewrite flog_fin by (apply Rdiv_lt_0_compat; lra).
  cbn. f_equal. unfold entropy, Rdiv. rewrite Rmult_1_l, ln_Rinv by lra. ring.
Qed.

(** ** gradients as real vectors *)
Lemma l2_grad_fin : forall lamda x, mm_grad (L2 lamda) (floats x) = floats (map (fun t => lamda * t) x).
Proof. intros. cbn [mm_grad]. apply map_floats. reflexivity. Qed.
Lemma net_grad_fin : forall delta lamda x, 0 < delta -> mm_grad (ElasticNet delta lamda) (floats x) = floats (map (fun t => 1 / delta * t + lamda * rsign t) x).
Proof. intros. cbn [mm_grad]. apply map_floats. intros t _. rewrite fdiv_fin, fsign_fin by lra. reflexivity. Qed.
Lemma log_grad_fin : forall x, open_box x -> mm_grad LogBarrierBox (floats x) = floats (map (fun t => 1 / (1 - t) - 1 / (1 + t)) x).
Proof.
  intros x Hx. cbn [mm_grad]. apply map_floats. intros t Ht. specialize (Hx t Ht). cbv beta in Hx. cbn [fsub fadd fopp]. cbn [kadd kopp ksub KOps_R]. rewrite !fdiv_fin by lra. reflexivity.
Qed.
Definition nb_slope (t : R) : R := rsign t / (1 + Rabs t * Rabs t - 2 * Rabs t).
Lemma nb_den : forall t, unit_open t -> 1 + Rabs t * Rabs t - 2 * Rabs t <> 0.
Proof. intros t Ht. apply unit_abs in Ht. nra. Qed.
Lemma barrier_grad_fin : forall x, open_box x -> mm_grad NonsmoothBarrier (floats x) = floats (map nb_slope x).
Proof.
  intros x Hx. cbn [mm_grad]. apply map_floats. intros t Ht. specialize (Hx t Ht). rewrite fsign_fin. cbn [fabs fmul fsub fadd fopp]. cbn [kadd kmul kopp ksub KOps_R].
  rewrite fdiv_fin by (apply nb_den; auto). reflexivity.
Qed.
Lemma entropy_grad_fin : forall x, all_coord (fun t => 0 < t) x -> mm_grad Entropy (floats x) = floats (map (fun t => - ln (t + float32_eps) - 1) x).
Proof.
  intros x Hx. cbn [mm_grad]. apply map_floats. intros t Ht. specialize (Hx t Ht). cbv beta in Hx. pose proof float32_eps_pos. cbn [fadd]. cbn [kadd KOps_R].
  rewrite fdiv_fin by lra. rewrite flog_fin by (apply Rdiv_lt_0_compat; lra). cbn. f_equal. unfold Rdiv. rewrite Rmult_1_l, ln_Rinv by lra. ring.
Qed.

(** ** C87: grad is the gradient *)
Theorem l2_gradient : forall lamda x, exists g, mm_grad (L2 lamda) (floats x) = floats g /\ gradient_at (sep (half_sq lamda)) x g.
Proof. intros lamda x. eexists. split. apply l2_grad_fin. apply sep_gradient. intros t _. apply half_sq_deriv. Qed.
Theorem net_gradient : forall delta lamda x, 0 < delta -> all_coord (fun t => t <> 0) x ->
  exists g, mm_grad (ElasticNet delta lamda) (floats x) = floats g /\ gradient_at (sep (net delta lamda)) x g.
Proof. intros delta lamda x Hd Hx. eexists. split. apply net_grad_fin; auto. apply sep_gradient. intros t Ht. apply net_deriv; [auto|apply Hx; auto]. Qed.
Theorem log_gradient : forall x, open_box x -> exists g, mm_grad LogBarrierBox (floats x) = floats g /\ gradient_at (sep log_box) x g.
Proof. intros x Hx. eexists. split. apply log_grad_fin; auto. apply sep_gradient. intros t Ht. apply log_box_deriv. apply Hx. auto. Qed.
Theorem barrier_gradient : forall x, open_box x -> all_coord (fun t => t <> 0) x ->
  exists g, mm_grad NonsmoothBarrier (floats x) = floats g /\ gradient_at (sep rational_barrier) x g.
Proof. intros x Hx H0. eexists. split. apply barrier_grad_fin; auto. apply sep_gradient. intros t Ht. apply barrier_deriv. apply Hx; auto. apply H0. auto. Qed.
(** Entropy: never, because of the shift by eps *)
Theorem entropy_not_gradient : forall x, x <> [] -> all_coord (fun t => 0 < t) x ->
  exists g h, mm_grad Entropy (floats x) = floats g /\ gradient_at (sep entropy) x h /\ forall i, (i < length x)%nat -> coord i g < coord i h.
Proof.
  intros x _ Hx. eexists _, _. split. apply entropy_grad_fin; auto. split. apply sep_gradient. intros t Ht. apply entropy_deriv. apply Hx. auto.
  intros i Hi. unfold coord. rewrite !(nth_map _ _ _ _ _ 0) by auto. assert (P : 0 < nth i x 0) by (apply Hx, nth_In; auto). pose proof float32_eps_pos.
  pose proof (ln_increasing (nth i x 0) (nth i x 0 + float32_eps) P ltac:(lra)). lra.
Qed.

(** ** C87: Bregman distances *)
Lemma slope_fin : forall m p q g, mm_grad m (floats q) = floats g -> length p = length q -> length g = length q -> slope m (floats p) (floats q) = Fin (dot g (vsub p q)).
Proof.
  intros m p q g E Hp Hg. unfold slope. rewrite E. unfold floats. rewrite !map2_map. change (map2 (fun a b : R => fsub (Fin a) (Fin b)) p q) with (map2 (fun a b => Fin (a - b)) p q).
  rewrite <- (map_map2 _ _ _ _ (fun a b => a - b) Fin). change (map2 (fun a b => a - b) p q) with (vsub p q). rewrite map2_map.
  change (map2 (fun a b : R => fmul (Fin a) (Fin b)) g (vsub p q)) with (map2 (fun a b => Fin (a * b)) g (vsub p q)).
  rewrite <- (map_map2 _ _ _ _ (fun a b => a * b) Fin). rewrite fsum_fin. reflexivity.
Qed.
Lemma bregman_fin : forall m F p q g, mm_call m (floats p) = Some (Fin (F p)) -> mm_call m (floats q) = Some (Fin (F q)) -> mm_grad m (floats q) = floats g ->
  length p = length q -> length g = length q -> bregman m (floats p) (floats q) = Some (Fin (breg F g p q)).
Proof. intros m F p q g Ep Eq Eg Hp Hg. unfold bregman. rewrite Ep, Eq, (slope_fin m p q g) by auto. reflexivity. Qed.
Lemma breg_sep : forall (D : R -> Prop) phi g p q, length p = length q -> all_coord D p -> (forall t, In t q -> subslope D phi t (g t)) -> 0 <= breg (sep phi) (map g q) p q.
Proof.
  intros D phi g p q Hl Hp HS. unfold breg. pose proof (sep_slope D phi q (map g q) p Hl (map_length _ _)).
  assert (sep phi q + dot (map g q) (vsub p q) <= sep phi p); [|lra]. apply H; auto. intros i Hi. rewrite (nth_map _ _ _ _ _ 0) by auto. apply HS. apply nth_In. auto.
Qed.
Lemma any_all : forall x, all_coord all_reals x.
Proof. intros x t _. exact I. Qed.
Theorem l2_bregman : forall lamda p q, 0 <= lamda -> length p = length q ->
  exists g, mm_grad (L2 lamda) (floats q) = floats g /\ bregman (L2 lamda) (floats p) (floats q) = Some (Fin (breg (sep (half_sq lamda)) g p q)) /\ 0 <= breg (sep (half_sq lamda)) g p q.
Proof.
  intros lamda p q H Hl. eexists. split; [apply l2_grad_fin; auto|]. split. apply (bregman_fin _ (sep (half_sq lamda)) _ _ (map (fun t => lamda * t) q)); auto using l2_value, l2_grad_fin, map_length.
  apply (breg_sep all_reals); auto using any_all. intros t _. apply half_sq_slope. auto.
Qed.
Theorem net_bregman : forall delta lamda p q, 0 < delta -> 0 <= lamda -> length p = length q ->
  exists g, mm_grad (ElasticNet delta lamda) (floats q) = floats g /\ bregman (ElasticNet delta lamda) (floats p) (floats q) = Some (Fin (breg (sep (net delta lamda)) g p q)) /\ 0 <= breg (sep (net delta lamda)) g p q.
Proof.
  intros delta lamda p q Hd H Hl. eexists. split; [apply net_grad_fin; auto|]. split.
  apply (bregman_fin _ (sep (net delta lamda)) _ _ (map (fun t => 1 / delta * t + lamda * rsign t) q)); auto using net_value, net_grad_fin, map_length.
  apply (breg_sep all_reals); auto using any_all. intros t _. apply net_slope; auto.
Qed.
Theorem log_bregman : forall p q, open_box p -> open_box q -> length p = length q ->
  exists g, mm_grad LogBarrierBox (floats q) = floats g /\ bregman LogBarrierBox (floats p) (floats q) = Some (Fin (breg (sep log_box) g p q)) /\ 0 <= breg (sep log_box) g p q.
Proof.
  intros p q Hp Hq Hl. eexists. split; [apply log_grad_fin; auto|]. split.
  apply (bregman_fin _ (sep log_box) _ _ (map (fun t => 1 / (1 - t) - 1 / (1 + t)) q)); auto using log_value, log_grad_fin, map_length.
  apply (breg_sep unit_open); auto. intros t Ht. apply log_box_slope. apply Hq. auto.
Qed.
Theorem barrier_bregman : forall p q, open_box p -> open_box q -> length p = length q ->
  exists g, mm_grad NonsmoothBarrier (floats q) = floats g /\ bregman NonsmoothBarrier (floats p) (floats q) = Some (Fin (breg (sep rational_barrier) g p q)) /\ 0 <= breg (sep rational_barrier) g p q.
Proof.
  intros p q Hp Hq Hl. eexists. split; [apply barrier_grad_fin; auto|]. split. apply (bregman_fin _ (sep rational_barrier) _ _ (map nb_slope q)); auto using barrier_value, barrier_grad_fin, map_length.
  apply (breg_sep unit_open); auto. intros t Ht. apply barrier_slope. apply Hq. auto.
Qed.
