(** * The functions of the mirror maps: one coordinate *)
From Coq Require Import List Arith Reals Lra Lia Psatz.
From Verif Require Import Scalar Np NpFacts Consensus PostProc RVec RVecFacts ConsSpec ConsFacts RegFacts Cbo CboSpec CboFacts MatSqrt MatSpec MatFacts
  MirrorMaps MirrorSpec MirrorFacts ConSpec ConFacts Potentials PotSpec.
Import ListNotations.
Open Scope R_scope.

(** [y] is a slope of phi at t, for the points of D *)
Definition subslope (D : R -> Prop) (phi : R -> R) (t y : R) : Prop := forall s, D s -> phi t + y * (s - t) <= phi s.
Definition unit_open (t : R) : Prop := -1 < t < 1.
Definition all_reals (t : R) : Prop := True.

(** ** slopes *)
Lemma half_sq_slope : forall lamda t, 0 <= lamda -> subslope all_reals (half_sq lamda) t (lamda * t).
Proof.
  intros lamda t H s _. unfold half_sq. pose proof (Rmult_le_pos lamda ((s - t) ^ 2) H (pow2_ge_0 _)). nra.
Qed.
Lemma sign_le : forall t s, rsign t * (s - t) <= Rabs s - Rabs t.
Proof.
  intros t s. destruct (Rtotal_order t 0) as [H|[->|H]].
  - rewrite rsign_neg, (Rabs_left t) by auto. pose proof (Rle_abs (- s)). rewrite Rabs_Ropp in H0. lra.
  - rewrite rsign_0, Rabs_R0. pose proof (Rabs_pos s). lra.
  - rewrite rsign_pos, (Rabs_right t) by lra. pose proof (Rle_abs s). lra.
Qed.
Lemma net_slope_sq : forall delta t s, 0 < delta -> t ^ 2 / (2 * delta) + 1 / delta * t * (s - t) <= s ^ 2 / (2 * delta).
Proof.
  intros delta t s H. assert (0 <= (s - t) ^ 2 / (2 * delta)). { apply Rmult_le_pos. apply pow2_ge_0. apply Rlt_le, Rinv_0_lt_compat. lra. }
  replace (s ^ 2 / (2 * delta)) with (t ^ 2 / (2 * delta) + 1 / delta * t * (s - t) + (s - t) ^ 2 / (2 * delta)) by (field; lra). lra.
Qed.
Lemma net_slope : forall delta lamda t, 0 < delta -> 0 <= lamda -> subslope all_reals (net delta lamda) t (1 / delta * t + lamda * rsign t).
Proof.
  intros delta lamda t Hd Hl s _. unfold net. pose proof (net_slope_sq delta t s Hd). pose proof (Rmult_le_compat_l lamda _ _ Hl (sign_le t s)). lra.
Qed.
Lemma net_slope_0 : forall delta lamda y, 0 < delta -> Rabs y <= lamda -> subslope all_reals (net delta lamda) 0 y.
Proof.
  intros delta lamda y Hd Hy s _. unfold net. rewrite Rabs_R0. pose proof (net_slope_sq delta 0 s Hd).
  assert (y * s <= lamda * Rabs s). { apply Rle_trans with (Rabs (y * s)). apply Rle_abs. rewrite Rabs_mult. apply Rmult_le_compat_r. apply Rabs_pos. auto. }
  replace (y * (s - 0)) with (y * s) by ring. replace (1 / delta * 0 * (s - 0)) with 0 in H by ring. lra.
Qed.
Lemma ln_below : forall u, 0 < u -> ln u <= u - 1.
Proof.
  intros u H. destruct (Req_dec u 1) as [->|N]. rewrite ln_1. lra.
  rewrite <- (exp_ln u H) at 2. pose proof (exp_ineq1 (ln u)). destruct (Req_dec (ln u) 0) as [E|E].
  - exfalso. apply N. rewrite <- (exp_ln u H), E. apply exp_0.
  - specialize (H0 E). lra.
Qed.
Lemma ln_tangent : forall a b, 0 < a -> 0 < b -> - ln a >= - ln b - 1 / b * (a - b).
Proof.
  intros a b Ha Hb. assert (0 < a / b) by (apply Rdiv_lt_0_compat; auto). pose proof (ln_below _ H) as L.
  unfold Rdiv in L at 1. rewrite ln_mult, ln_Rinv in L by (auto; apply Rinv_0_lt_compat; auto).
  replace (1 / b * (a - b)) with (a / b - 1) by (field; lra). lra.
Qed.
Lemma log_box_slope : forall t, unit_open t -> subslope unit_open log_box t (1 / (1 - t) - 1 / (1 + t)).
Proof.
  intros t Ht s Hs. unfold log_box, unit_open in *. pose proof (ln_tangent (1 - s) (1 - t)). pose proof (ln_tangent (1 + s) (1 + t)).
  assert (0 < 1 - s /\ 0 < 1 - t /\ 0 < 1 + s /\ 0 < 1 + t) as (A & B & C & E) by lra. specialize (H A B). specialize (H0 C E).
  replace (1 - s - (1 - t)) with (- (s - t)) in H by ring. replace (1 + s - (1 + t)) with (s - t) in H0 by ring. lra.
Qed.
Lemma hyperbola_slope : forall a b, a < 1 -> b < 1 -> a / (1 - a) + 1 / ((1 - a) * (1 - a)) * (b - a) <= b / (1 - b).
Proof.
  intros a b Ha Hb. assert (0 <= (b - a) ^ 2 / ((1 - a) * (1 - a) * (1 - b))).
  { apply Rmult_le_pos. apply pow2_ge_0. apply Rlt_le, Rinv_0_lt_compat. apply Rmult_lt_0_compat; [apply Rmult_lt_0_compat|]; lra. }
  replace (b / (1 - b)) with (a / (1 - a) + 1 / ((1 - a) * (1 - a)) * (b - a) + (b - a) ^ 2 / ((1 - a) * (1 - a) * (1 - b))) by (field; lra). lra.
Qed.
Lemma unit_abs : forall t, unit_open t -> Rabs t < 1.
Proof. intros t H. apply Rabs_def1; unfold unit_open in H; lra. Qed.
Lemma barrier_slope : forall t, unit_open t -> subslope unit_open rational_barrier t (rsign t / (1 + Rabs t * Rabs t - 2 * Rabs t)).
Proof.
  intros t Ht s Hs. apply unit_abs in Ht, Hs. unfold rational_barrier.
  replace (1 + Rabs t * Rabs t - 2 * Rabs t) with ((1 - Rabs t) * (1 - Rabs t)) by ring.
  assert (P : 0 < 1 / ((1 - Rabs t) * (1 - Rabs t))). { apply Rdiv_lt_0_compat. lra. apply Rmult_lt_0_compat; lra. }
  pose proof (hyperbola_slope (Rabs t) (Rabs s) Ht Hs). pose proof (Rmult_le_compat_l _ _ _ (Rlt_le _ _ P) (sign_le t s)).
  replace (rsign t / ((1 - Rabs t) * (1 - Rabs t)) * (s - t)) with (1 / ((1 - Rabs t) * (1 - Rabs t)) * (rsign t * (s - t))) by (unfold Rdiv; ring). lra.
Qed.
Lemma barrier_slope_0 : forall y, Rabs y <= 1 -> subslope unit_open rational_barrier 0 y.
Proof.
  intros y Hy s Hs. apply unit_abs in Hs. unfold rational_barrier. rewrite Rabs_R0. pose proof (hyperbola_slope 0 (Rabs s)).
  assert (y * s <= Rabs s). { apply Rle_trans with (Rabs (y * s)). apply Rle_abs. rewrite Rabs_mult. pose proof (Rabs_pos s). nra. }
  replace (1 / ((1 - 0) * (1 - 0)) * (Rabs s - 0)) with (Rabs s) in H by field. replace (y * (s - 0)) with (y * s) by ring.
  specialize (H ltac:(lra) Hs). lra.
Qed.

(** ** derivatives *)
Lemma half_sq_deriv : forall lamda t, derivable_pt_lim (half_sq lamda) t (lamda * t).
Proof.
  intros lamda t. unfold half_sq. replace (lamda * t) with (lamda / 2 * (INR 2 * t ^ 1)) by (cbn; field).
  apply (derivable_pt_lim_scal (fun t => t ^ 2)). apply derivable_pt_lim_pow.
Qed.
Lemma abs_deriv : forall t, t <> 0 -> derivable_pt_lim Rabs t (rsign t).
Proof.
  intros t H. destruct (Rtotal_order t 0) as [L|[->|G]]; [|contradiction|].
  - rewrite rsign_neg by auto. apply Rabs_derive_2. auto.
  - rewrite rsign_pos by auto. apply Rabs_derive_1. auto.
Qed.
Lemma net_deriv : forall delta lamda t, 0 < delta -> t <> 0 -> derivable_pt_lim (net delta lamda) t (1 / delta * t + lamda * rsign t).
Proof.
  intros delta lamda t Hd Ht. unfold net. apply (derivable_pt_lim_plus (fun t => t ^ 2 / (2 * delta)) (fun t => lamda * Rabs t)).
  - apply (derivable_pt_lim_ext (fun t => / (2 * delta) * t ^ 2)). { intros s. unfold Rdiv. ring. }
    replace (1 / delta * t) with (/ (2 * delta) * (INR 2 * t ^ 1)) by (cbn; field; lra). apply (derivable_pt_lim_scal (fun t => t ^ 2)). apply derivable_pt_lim_pow.
  - apply (derivable_pt_lim_scal Rabs). apply abs_deriv. auto.
Qed.
Lemma log_box_deriv : forall t, unit_open t -> derivable_pt_lim log_box t (1 / (1 - t) - 1 / (1 + t)).
Proof.
  intros t Ht. unfold unit_open in Ht. unfold log_box.
  assert (A : derivable_pt_lim (fun t => ln (1 - t)) t (/ (1 - t) * (0 - 1))).
  { apply (derivable_pt_lim_comp (fun t => 1 - t) ln). apply (derivable_pt_lim_minus (fun _ => 1) id). apply derivable_pt_lim_const. apply derivable_pt_lim_id. apply derivable_pt_lim_ln. lra. }
  assert (B : derivable_pt_lim (fun t => ln (1 + t)) t (/ (1 + t) * (0 + 1))).
  { apply (derivable_pt_lim_comp (fun t => 1 + t) ln). apply (derivable_pt_lim_plus (fun _ => 1) id). apply derivable_pt_lim_const. apply derivable_pt_lim_id. apply derivable_pt_lim_ln. lra. }
  replace (1 / (1 - t) - 1 / (1 + t)) with (- (/ (1 - t) * (0 - 1)) - / (1 + t) * (0 + 1)) by (field; lra).
  apply (derivable_pt_lim_minus (fun t => - ln (1 - t)) (fun t => ln (1 + t))); auto. apply (derivable_pt_lim_opp (fun t => ln (1 - t))). auto.
Qed.
Lemma barrier_deriv : forall t, unit_open t -> t <> 0 -> derivable_pt_lim rational_barrier t (rsign t / (1 + Rabs t * Rabs t - 2 * Rabs t)).
Proof.
  intros t Ht H0. apply unit_abs in Ht. unfold rational_barrier. pose proof (abs_deriv t H0) as A.
  assert (B : derivable_pt_lim (fun t => 1 - Rabs t) t (0 - rsign t)).
  { apply (derivable_pt_lim_minus (fun _ => 1) Rabs); auto. apply derivable_pt_lim_const. }
  pose proof (derivable_pt_lim_div Rabs (fun t => 1 - Rabs t) t _ _ A B ltac:(lra)) as D.
  replace (rsign t / (1 + Rabs t * Rabs t - 2 * Rabs t)) with ((rsign t * (1 - Rabs t) - (0 - rsign t) * Rabs t) / Rsqr (1 - Rabs t)); auto.
  unfold Rsqr. replace (1 + Rabs t * Rabs t - 2 * Rabs t) with ((1 - Rabs t) * (1 - Rabs t)) by ring. field. lra.
Qed.
Lemma entropy_deriv : forall t, 0 < t -> derivable_pt_lim entropy t (- ln t - 1).
Proof.
  intros t Ht. unfold entropy. replace (- ln t - 1) with (- (1 * ln t + t * / t)) by (field; lra).
  apply (derivable_pt_lim_opp (fun t => t * ln t)). apply (derivable_pt_lim_mult id ln). apply derivable_pt_lim_id. apply derivable_pt_lim_ln. auto.
Qed.

(** ** sums over the coordinates *)
Lemma sep_cons : forall phi a x, sep phi (a :: x) = phi a + sep phi x.
Proof. intros. unfold sep. cbn [map]. apply Rsum_cons. Qed.
Lemma sep_deriv : forall phi g x h, length h = length x -> (forall t, In t x -> derivable_pt_lim phi t (g t)) ->
  dir_deriv (sep phi) x h (dot (map g x) h).
Proof.
  intros phi g. induction x as [|a x IH]; intros [|b h] Hl HD; try discriminate.
  - apply (deriv_ext (fun _ => 0)). intros t. reflexivity. apply deriv_const.
  - cbn [map]. rewrite dot_cons. unfold dir_deriv.
    apply (derivable_pt_lim_ext (fun t => phi (a + t * b) + sep phi (vadd x (vscal t h)))).
    { intros t. unfold vadd, vscal. cbn [map map2]. rewrite sep_cons. reflexivity. }
    apply (derivable_pt_lim_plus (fun t => phi (a + t * b)) (fun t => sep phi (vadd x (vscal t h)))).
    + apply (derivable_pt_lim_comp (fun t => a + t * b) phi).
      * assert (L : derivable_pt_lim (fun t => a + t * b) 0 (0 + (1 * b + 0 * 0))).
        { apply (derivable_pt_lim_plus (fun _ => a) (fun t => t * b)). apply derivable_pt_lim_const.
          apply (derivable_pt_lim_mult id (fun _ => b)). apply derivable_pt_lim_id. apply derivable_pt_lim_const. }
        replace (0 + (1 * b + 0 * 0)) with b in L by ring. exact L.
      * replace (a + 0 * b) with a by ring. apply HD. left. auto.
    + apply IH. cbn in Hl. lia. intros t Ht. apply HD. right. auto.
Qed.
Lemma sep_gradient : forall phi g x, (forall t, In t x -> derivable_pt_lim phi t (g t)) -> gradient_at (sep phi) x (map g x).
Proof. intros phi g x H. split. apply map_length. intros h Hh. apply sep_deriv; auto. Qed.
Lemma sep_slope : forall (D : R -> Prop) phi x y p, length p = length x -> length y = length x -> (forall i, (i < length x)%nat -> subslope D phi (nth i x 0) (nth i y 0)) ->
  all_coord D p -> sep phi x + dot y (vsub p x) <= sep phi p.
Proof.
  intros D phi. induction x as [|a x IH]; intros [|b y] [|c p] Hp Hy HS HD; try discriminate.
  - unfold sep, dot. cbn. lra.
  - unfold vsub. cbn [map2]. rewrite dot_cons, !sep_cons. pose proof (HS 0%nat ltac:(cbn; lia) c (HD c (or_introl eq_refl))) as H0. cbn in H0.
    assert (H1 : sep phi x + dot y (vsub p x) <= sep phi p).
    { apply IH; cbn in *; try lia. intros i Hi. apply (HS (S i)). lia. intros t Ht. apply HD. right. auto. }
    unfold vsub in H1. lra.
Qed.
Lemma sep_conjugate : forall (D : R -> Prop) phi x y, length x = length y -> all_coord D x -> (forall i, (i < length x)%nat -> subslope D phi (nth i x 0) (nth i y 0)) ->
  conjugate_point (all_coord D) (sep phi) y x.
Proof.
  intros D phi x y Hl Hx HS. split; auto. split; auto. intros p Hp HD. pose proof (sep_slope D phi x y p ltac:(congruence) ltac:(auto) HS HD).
  rewrite dot_vsub_r in H by congruence. lra.
Qed.
