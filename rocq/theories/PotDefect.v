(** * Entropy, Hessians, weighted_L2 and arrays of particles *)
From Coq Require Import List Arith Reals Lra Lia Psatz.
From Verif Require Import Scalar Np NpFacts Consensus PostProc RVec RVecFacts ConsSpec ConsFacts RegFacts Cbo CboSpec CboFacts MatSqrt MatSpec MatFacts
  MirrorMaps MirrorSpec MirrorFacts MirrorProj ConSpec ConFacts ConMultiSpec Potentials PotSpec PotFacts PotMaps PotConj.
Import ListNotations.
Open Scope R_scope.

(** ** Entropy *)
Lemma entropy_term : forall p q e, 0 < p <= q -> 0 < e -> entropy p - entropy q - (- ln (q + e) - 1) * (p - q) <= 0 /\
  (p < q -> entropy p - entropy q - (- ln (q + e) - 1) * (p - q) < 0).
Proof.
  intros p q e Hp He. unfold entropy.
  assert (L : ln p >= ln q + (1 - q / p)).
  { pose proof (ln_tangent q p ltac:(lra) ltac:(lra)) as T. replace (1 / p * (q - p)) with (q / p - 1) in T by (field; lra). lra. }
  assert (M : ln q < ln (q + e)) by (apply ln_increasing; lra).
  assert (K : p * ln p >= p * ln q + (p - q)). { replace (p - q) with (p * (1 - q / p)) by (field; lra). rewrite <- Rmult_plus_distr_l. apply Rle_ge, Rmult_le_compat_l; lra. }
  assert (Z : 0 <= (q - p) * (ln (q + e) - ln q)) by (apply Rmult_le_pos; lra).
  split. nra. intros Hlt. assert (0 < (q - p) * (ln (q + e) - ln q)) by (apply Rmult_lt_0_compat; lra). nra.
Qed.
Lemma entropy_breg : forall e p q, length p = length q -> 0 < e -> (forall i, (i < length q)%nat -> 0 < nth i p 0 <= nth i q 0) ->
  breg (sep entropy) (map (fun t => - ln (t + e) - 1) q) p q <= 0 /\ (p <> q -> breg (sep entropy) (map (fun t => - ln (t + e) - 1) q) p q < 0).
Proof.
  intros e p q Hl He. revert q Hl. induction p as [|a p IH]; intros [|b q] Hl H; try discriminate.
  - unfold breg, sep, dot. cbn. split. lra. intros N. contradiction N. reflexivity.
  - assert (SP : breg (sep entropy) (map (fun t => - ln (t + e) - 1) (b :: q)) (a :: p) (b :: q) =
      (entropy a - entropy b - (- ln (b + e) - 1) * (a - b)) + breg (sep entropy) (map (fun t => - ln (t + e) - 1) q) p q).
    { unfold breg, vsub. cbn [map map2]. rewrite !sep_cons, dot_cons. ring. }
    rewrite SP. destruct (IH q) as [A B]. cbn in Hl. lia. intros i Hi. apply (H (S i)). cbn. lia.
    destruct (entropy_term a b e (H 0%nat ltac:(cbn; lia)) He) as [C D]. split. lra.
    intros N. pose proof (H 0%nat ltac:(cbn; lia)) as H0. cbn in H0. destruct (Req_dec a b) as [->|Ne].
    + assert (p <> q) by congruence. specialize (B H1). lra.
    + assert (a < b) by lra. specialize (D H1). lra.
Qed.
(** negative Bregman "distances" for every pair p <= q *)
Theorem entropy_bregman_negative : forall p q, length p = length q -> p <> q -> all_coord (fun t => 0 < t) p ->
  (forall i, (i < length q)%nat -> coord i p <= coord i q) -> exists g, mm_grad Entropy (floats q) = floats g /\
  bregman Entropy (floats p) (floats q) = Some (Fin (breg (sep entropy) g p q)) /\ breg (sep entropy) g p q < 0.
Proof.
  intros p q Hl N Hp Hle. assert (HH : forall i, (i < length q)%nat -> 0 < nth i p 0 <= nth i q 0). { intros i Hi. split. apply Hp, nth_In. lia. apply Hle. auto. }
  assert (Hq : all_coord (fun t => 0 < t) q). { intros t Ht. destruct (In_nth _ _ 0 Ht) as (i & Hi & <-). specialize (HH i Hi). lra. }
  eexists. split; [apply entropy_grad_fin; auto|]. split. apply (bregman_fin _ (sep entropy) _ _ (map (fun t => - ln (t + float32_eps) - 1) q)); auto using entropy_value, entropy_grad_fin, map_length.
  apply entropy_breg; auto. apply float32_eps_pos.
Qed.
(** grad_conj minimises <y, .> - F; there is no maximum *)
Lemma entropy_min_term : forall y s, 0 < s -> y * exp (- (y + 1)) - entropy (exp (- (y + 1))) <= y * s - entropy s.
Proof.
  intros y s Hs. unfold entropy. rewrite ln_exp. set (c := exp (- (y + 1))). assert (Hc : 0 < c) by apply exp_pos.
  pose proof (ln_tangent c s Hc Hs) as T. assert (E : ln c = - (y + 1)) by apply ln_exp. rewrite E in T.
  assert (K : s * ln s >= s * - (y + 1) - (c - s)). { replace (c - s) with (s * (1 / s * (c - s))) by (field; lra). assert (ln s >= - (y + 1) - 1 / s * (c - s)) by lra. nra. }
  nra.
Qed.
Lemma sep_min : forall phi (f : R -> R) y p, length p = length y -> (forall t s, In s p -> t * f t - phi (f t) <= t * s - phi s) ->
  dot y (map f y) - sep phi (map f y) <= dot y p - sep phi p.
Proof.
  intros phi f. induction y as [|a y IH]; intros [|b p] Hl H; try discriminate.
  - cbn. lra.
  - cbn [map]. rewrite !dot_cons, !sep_cons. pose proof (H a b (or_introl eq_refl)). assert (dot y (map f y) - sep phi (map f y) <= dot y p - sep phi p).
    { apply IH. cbn in Hl; lia. intros t s Hs. apply H. right. auto. } lra.
Qed.
Theorem entropy_conj_min : forall y, exists x, mm_conj Entropy (floats y) = floats x /\ length x = length y /\ all_coord (fun t => 0 < t) x /\
  forall p, length p = length y -> all_coord (fun t => 0 < t) p -> dot y x - sep entropy x <= dot y p - sep entropy p.
Proof.
  intros y. exists (map (fun t => exp (- (t + 1))) y). split; [|split; [|split]].
  - cbn [mm_conj]. apply map_floats. reflexivity.
  - apply map_length.
  - intros a Ha. apply in_map_iff in Ha. destruct Ha as (t & <- & _). apply exp_pos.
  - intros p Hp Hpos. apply sep_min; auto. intros t s Hs. apply entropy_min_term. apply Hpos. auto.
Qed.
Lemma entropy_unbounded : forall y B, exists s, 0 < s /\ B < y * s - entropy s.
Proof.
  intros y B. set (k := Rmax B 0 + Rabs y + 1). exists (exp k). split. apply exp_pos. unfold entropy. rewrite ln_exp.
  pose proof (Rmax_l B 0). pose proof (Rmax_r B 0). pose proof (Rabs_pos y). assert (0 < k) by (unfold k; lra).
  assert (1 < exp k). { pose proof (exp_ineq1 k ltac:(lra)). lra. }
  assert (- y <= Rabs y). { rewrite <- Rabs_Ropp. apply Rle_abs. }
  assert (Rmax B 0 + 1 <= y + k) by (unfold k; lra). replace (y * exp k - - (exp k * k)) with (exp k * (y + k)) by ring.
  apply Rlt_le_trans with (1 * (y + k)). lra. apply Rmult_le_compat_r; lra.
Qed.
Theorem entropy_no_conjugate : forall y x, y <> [] -> ~ conjugate_point (all_coord (fun t => 0 < t)) (sep entropy) y x.
Proof.
  intros y x Hy (Hl & Hx & H). destruct y as [|b y]. contradiction Hy; auto. destruct x as [|a x]. discriminate.
  destruct (entropy_unbounded b (b * a - entropy a)) as (s & Hs & E). specialize (H (s :: x)). cbn in Hl. rewrite !dot_cons, !sep_cons in H.
  assert (b * s + dot y x - (entropy s + sep entropy x) <= b * a + dot y x - (entropy a + sep entropy x)); [|lra]. apply H. cbn. lia.
  intros t [<-|Ht]; auto. apply Hx. right. auto.
Qed.

(** ** Hessians *)
Lemma diag_fin : forall l i j, (i < length l)%nat -> (j < length l)%nat -> diag (floats l) i j = Fin (if Nat.eqb i j then coord i l else 0).
Proof.
  intros l i j Hi Hj. unfold diag, floats. rewrite (nth_map _ _ _ _ _ 0) by auto. cbn. f_equal. unfold coord. destruct (Nat.eqb_spec i j) as [->|N]; ring.
Qed.
Lemma sep_jacobian : forall (g h : R -> R) x, (forall t, In t x -> derivable_pt_lim g t (h t)) ->
  jacobian_at (map g) x (fun i j => if Nat.eqb i j then coord i (map h x) else 0).
Proof.
  intros g h x HD v i Hv Hi. rewrite (msum_ext _ _ (fun j => if Nat.eqb i j then coord i (map h x) * coord j v else 0)) by (intros j Hj; destruct (Nat.eqb i j); ring).
  rewrite (msum_delta (length x) i (fun j => coord i (map h x) * coord j v)) by auto.
  unfold dir_deriv. apply (derivable_pt_lim_ext (fun t => g (coord i x + t * coord i v))).
  { intros t. unfold coord at 3. rewrite (nth_map _ _ _ _ _ 0) by (rewrite line_len; auto). f_equal. change (nth i (vadd x (vscal t v)) 0) with (coord i (vadd x (vscal t v))).
    rewrite coord_vadd by (rewrite length_vscal; auto). rewrite coord_vscal. reflexivity. }
  unfold coord at 3. rewrite (nth_map _ _ _ _ _ 0) by auto. apply (derivable_pt_lim_comp (fun t => coord i x + t * coord i v) g).
  - assert (L : derivable_pt_lim (fun t => coord i x + t * coord i v) 0 (0 + (1 * coord i v + 0 * 0))).
    { apply (derivable_pt_lim_plus (fun _ => coord i x) (fun t => t * coord i v)). apply derivable_pt_lim_const.
      apply (derivable_pt_lim_mult id (fun _ => coord i v)). apply derivable_pt_lim_id. apply derivable_pt_lim_const. }
    replace (0 + (1 * coord i v + 0 * 0)) with (coord i v) in L by ring. exact L.
  - replace (coord i x + 0 * coord i v) with (nth i x 0) by (unfold coord; ring). apply HD. apply nth_In. auto.
Qed.
Lemma inv_deriv : forall f l t, derivable_pt_lim f t l -> f t <> 0 -> derivable_pt_lim (fun t => 1 / f t) t (- l / (f t * f t)).
Proof.
  intros f l t Hf N. replace (- l / (f t * f t)) with ((0 * f t - l * 1) / Rsqr (f t)) by (unfold Rsqr; field; auto).
  apply (derivable_pt_lim_div (fun _ => 1) f); auto. apply derivable_pt_lim_const.
Qed.
Theorem log_hessian : forall x, open_box x -> hess_ok LogBarrierBox open_box x.
Proof.
  intros x Hx. exists (map (fun t => 1 / (1 - t) - 1 / (1 + t))). eexists. eexists. split; [|split; [|split]].
  - intros p Hp. apply log_grad_fin. auto.
  - apply (sep_jacobian _ (fun t => (1 / (1 - t)) * (1 / (1 - t)) + (1 / (1 + t)) * (1 / (1 + t)))). intros t Ht. specialize (Hx t Ht). cbv beta in Hx.
    replace (1 / (1 - t) * (1 / (1 - t)) + 1 / (1 + t) * (1 / (1 + t))) with (- (0 - 1) / ((1 - t) * (1 - t)) - (- (0 + 1) / ((1 + t) * (1 + t)))) by (field; lra).
    apply (derivable_pt_lim_minus (fun t => 1 / (1 - t)) (fun t => 1 / (1 + t))).
    + apply (inv_deriv (fun t => 1 - t)); [|lra]. apply (derivable_pt_lim_minus (fun _ => 1) id). apply derivable_pt_lim_const. apply derivable_pt_lim_id.
    + apply (inv_deriv (fun t => 1 + t)); [|lra]. apply (derivable_pt_lim_plus (fun _ => 1) id). apply derivable_pt_lim_const. apply derivable_pt_lim_id.
  - reflexivity.
  - intros i j Hi Hj. rewrite (map_floats _ (fun t => (1 / (1 - t)) * (1 / (1 - t)) + (1 / (1 + t)) * (1 / (1 + t)))).
    + apply diag_fin; rewrite map_length; auto.
    + intros t Ht. specialize (Hx t Ht). cbv beta in Hx. cbn [fsub fadd fopp]. cbn [kadd kopp ksub KOps_R]. rewrite !fdiv_fin by lra. reflexivity.
Qed.
Lemma nb_slope_deriv : forall t, unit_open t -> t <> 0 -> derivable_pt_lim nb_slope t ((-2 * Rabs t + 2) / ((1 - Rabs t) ^ 4)).
Proof.
  intros t Ht N. pose proof (unit_abs t Ht) as A. pose proof (abs_deriv t N) as DA.
  assert (D1 : derivable_pt_lim (fun t => 1 - Rabs t) t (0 - rsign t)) by (apply (derivable_pt_lim_minus (fun _ => 1) Rabs); auto; apply derivable_pt_lim_const).
  pose proof (derivable_pt_lim_mult _ _ _ _ _ D1 D1) as D2. unfold mult_fct in D2.
  pose proof (inv_deriv (fun t => (1 - Rabs t) * (1 - Rabs t)) _ t D2 ltac:(nra)) as D3. cbv beta in D3.
  assert (S : rsign t = 1 \/ rsign t = -1). { destruct (Rtotal_order t 0) as [L|[L|L]]; [right; apply rsign_neg|contradiction|left; apply rsign_pos]; auto. }
  pose proof (derivable_pt_lim_scal _ (rsign t) _ _ D3) as D4. unfold mult_real_fct in D4.
  set (l := rsign t * (- ((0 - rsign t) * (1 - Rabs t) + (1 - Rabs t) * (0 - rsign t)) / ((1 - Rabs t) * (1 - Rabs t) * ((1 - Rabs t) * (1 - Rabs t))))) in *.
  replace ((-2 * Rabs t + 2) / (1 - Rabs t) ^ 4) with l.
  2:{ unfold l. destruct S as [-> | ->]; field; lra. }
  (* nb_slope agrees with the function with the fixed sign near t *)
  intros eps He. destruct (D4 eps He) as [del Hdel].
  assert (Hm : 0 < Rmin del (Rabs t)) by (apply Rmin_pos; [apply cond_pos|apply Rabs_pos_lt; auto]).
  exists (mkposreal _ Hm). intros h Hh Hlt. cbn in Hlt. pose proof (Rmin_l del (Rabs t)). pose proof (Rmin_r del (Rabs t)).
  specialize (Hdel h Hh ltac:(lra)).
  assert (Sg : rsign (t + h) = rsign t).
  { assert (Hlt2 : Rabs h < Rabs t) by lra. apply Rabs_def2 in Hlt2. destruct (Rtotal_order t 0) as [L|[L|L]]; [|contradiction|].
    - rewrite (Rabs_left t) in Hlt2 by auto. rewrite !rsign_neg by lra. reflexivity.
    - rewrite (Rabs_right t) in Hlt2 by lra. rewrite !rsign_pos by lra. reflexivity. }
  unfold nb_slope. rewrite Sg. replace (1 + Rabs (t + h) * Rabs (t + h) - 2 * Rabs (t + h)) with ((1 - Rabs (t + h)) * (1 - Rabs (t + h))) by ring.
  replace (1 + Rabs t * Rabs t - 2 * Rabs t) with ((1 - Rabs t) * (1 - Rabs t)) by ring. unfold Rdiv in *. rewrite !Rmult_1_l in Hdel. exact Hdel.
Qed.
Theorem barrier_hessian : forall x, open_box x -> all_coord (fun t => t <> 0) x -> hess_ok NonsmoothBarrier open_box x.
Proof.
  intros x Hx H0. exists (map nb_slope). eexists. eexists. split; [|split; [|split]].
  - intros p Hp. apply barrier_grad_fin. auto.
  - apply (sep_jacobian _ (fun t => (-2 * Rabs t + 2) / ((1 - Rabs t) ^ 4))). intros t Ht. apply nb_slope_deriv. apply Hx; auto. apply H0; auto.
  - reflexivity.
  - intros i j Hi Hj. rewrite (map_floats _ (fun t => (-2 * Rabs t + 2) / ((1 - Rabs t) ^ 4))).
    + apply diag_fin; rewrite map_length; auto.
    + intros t Ht. specialize (Hx t Ht). apply unit_abs in Hx. cbn [fabs fmul fsub fadd fopp]. cbn [kadd kmul kopp ksub KOps_R].
      match goal with |- fdiv (Fin _) (Fin ?b) = _ => replace b with ((1 - Rabs t) ^ 4) by ring end. rewrite fdiv_fin by (apply pow_nonzero; lra). reflexivity.
Qed.
Theorem l2_hessian_wrong : forall lamda x, lamda <> 1 -> exists g H Hf, (forall p, mm_grad (L2 lamda) (floats p) = floats (g p)) /\ jacobian_at g x H /\
  mm_hess (L2 lamda) (floats x) = Some Hf /\ forall i, (i < length x)%nat -> Hf i i <> Fin (H i i).
Proof.
  intros lamda x N. exists (map (fun t => lamda * t)). eexists. eexists. split; [|split; [|split]].
  - intros p. apply l2_grad_fin.
  - apply (sep_jacobian _ (fun _ => lamda)). intros t _. pose proof (derivable_pt_lim_scal id lamda t 1 (derivable_pt_lim_id t)) as L. rewrite Rmult_1_r in L. exact L.
  - reflexivity.
  - intros i Hi. rewrite (map_floats _ (fun _ => 1)) by reflexivity. rewrite diag_fin by (rewrite map_length; auto). rewrite Nat.eqb_refl. unfold coord.
    rewrite !(nth_map _ _ _ _ _ 0) by auto. intros E. injection E as E. auto.
Qed.

(** ** weighted_L2 *)
Lemma dot_msum : forall u v d, length u = d -> length v = d -> dot u v = msum d (fun i => coord i u * coord i v).
Proof. intros u v d Hu Hv. rewrite (dot_sum u v d) by auto. reflexivity. Qed.
Lemma wl2_len : forall A x, length (wl2_grad A x) = length x.
Proof. intros. unfold wl2_grad. rewrite map_length, seq_length. reflexivity. Qed.
Lemma wl2_coord : forall A x i, (i < length x)%nat -> coord i (wl2_grad A x) = msum (length x) (fun j => 1 / 2 * (A i j + A j i) * coord j x).
Proof. intros A x i Hi. unfold coord at 1, wl2_grad. apply nth_map_seq. auto. Qed.
Lemma wl2_bil : forall A x, wl2_call A x = 1 / 2 * bil (length x) A x x.
Proof. intros A x. unfold wl2_call, bil. f_equal. apply msum_ext. intros j Hj. ring. Qed.
Theorem wl2_gradient : forall A x, gradient_at (wl2_call A) x (wl2_grad A x).
Proof.
  intros A x. split. apply wl2_len. intros h Hh. set (d := length x).
  unfold dir_deriv. apply (deriv_poly _ (1 / 2 * bil d A x x) _ (1 / 2 * bil d A h h)). intros t.
  rewrite wl2_bil, line_len by auto. fold d. rewrite bil_line_l, !bil_line_r by auto.
  assert (E : dot (wl2_grad A x) h = 1 / 2 * (bil d A h x + bil d A x h)); [|rewrite E; ring].
  rewrite (dot_msum _ _ d) by (auto; apply wl2_len).
  assert (B1 : bil d A h x = msum d (fun i => msum d (fun j => coord i h * A i j * coord j x))).
  { unfold bil. rewrite msum_swap. apply msum_ext. intros j Hj. rewrite <- msum_scal. apply msum_ext. intros i Hi. ring. }
  assert (B2 : bil d A x h = msum d (fun i => msum d (fun j => coord i h * A j i * coord j x))).
  { unfold bil. apply msum_ext. intros j Hj. rewrite <- msum_scal. apply msum_ext. intros i Hi. ring. }
  rewrite B1, B2, <- msum_add, <- msum_scal. apply msum_ext. intros i Hi. rewrite wl2_coord by auto. fold d.
  rewrite <- msum_add, <- msum_scal, <- msum_scal_r. apply msum_ext. intros j Hj. field.
Qed.
Theorem wl2_hessian : forall A x, hessian_at (wl2_call A) x (wl2_hess A).
Proof.
  intros A x. exists (wl2_grad A). split. intros p _. apply wl2_gradient. intros h i Hh Hi. unfold dir_deriv.
  apply (deriv_poly _ (coord i (wl2_grad A x)) _ 0). intros t. rewrite !wl2_coord by (rewrite ?line_len; auto). rewrite line_len by auto.
  rewrite Rmult_0_l, Rplus_0_r, <- msum_scal_r, <- msum_add. apply msum_ext. intros j Hj. rewrite coord_vadd by (rewrite length_vscal; auto). rewrite coord_vscal. unfold wl2_hess. ring.
Qed.
(** grad_conj inverts grad only for A + A^T = 2 I *)
Theorem wl2_roundtrip : forall A d, (forall x, length x = d -> wl2_conj A (wl2_grad A x) = x) <->
  forall i j, (i < d)%nat -> (j < d)%nat -> A i j + A j i = 2 * (if Nat.eqb i j then 1 else 0).
Proof.
  intros A d. unfold wl2_conj. split.
  - intros H i j Hi Hj. pose proof (f_equal (coord i) (H (unit d j) (unit_len d j))) as E. rewrite wl2_coord in E by (rewrite unit_len; auto).
    rewrite unit_len in E. rewrite coord_unit in E by auto.
    rewrite (msum_ext _ _ (fun k => if Nat.eqb j k then 1 / 2 * (A i k + A k i) else 0)) in E.
    2:{ intros k Hk. rewrite coord_unit by auto. destruct (Nat.eqb j k); ring. }
    rewrite msum_delta in E by auto. rewrite (Nat.eqb_sym i j). lra.
  - intros H x Hx. apply (coord_ext _ _ d). rewrite wl2_len. auto. auto. intros i Hi. rewrite wl2_coord by lia. rewrite Hx.
    rewrite (msum_ext _ _ (fun k => if Nat.eqb i k then coord k x else 0)). apply msum_delta. auto.
    intros k Hk. rewrite H by auto. destruct (Nat.eqb i k); lra.
Qed.

(** ** NonsmoothBarrier on an array *)
Lemma nb_array_fin : forall xs, (forall x, In x xs -> open_box x) -> nb_array (map floats xs) = Fin (Rsum (map (sep rational_barrier) xs)).
Proof.
  intros xs H. unfold nb_array. replace (concat (map floats xs)) with (floats (concat xs)) by (unfold floats; apply concat_map).
  rewrite (fsum_map _ rational_barrier).
  - f_equal. induction xs as [|x xs IH]. reflexivity. cbn [concat map]. rewrite map_app, Rsum_app, Rsum_cons, IH. reflexivity. intros y Hy. apply H. right. auto.
  - intros t Ht. apply nb_term_fin. apply in_concat in Ht. destruct Ht as (x & Hx & Ht). apply (H x Hx). auto.
Qed.
(** the value belonging to particle k also contains the differences of the functions of all the others *)
Theorem nb_bregman_mixed : forall ps qs k p q, length ps = length qs -> (forall x, In x ps -> open_box x) -> (forall x, In x qs -> open_box x) ->
  nth_error ps k = Some p -> nth_error qs k = Some q -> length p = length q ->
  exists D, bregman NonsmoothBarrier (floats p) (floats q) = Some (Fin D) /\
    nth_error (nb_bregman (map floats ps) (map floats qs)) k =
      Some (Fin (D + (Rsum (map (sep rational_barrier) ps) - sep rational_barrier p) - (Rsum (map (sep rational_barrier) qs) - sep rational_barrier q))).
Proof.
  intros ps qs k p q Hl HP HQ Ep Eq Hpq. pose proof (HP p (nth_error_In _ _ Ep)) as Bp. pose proof (HQ q (nth_error_In _ _ Eq)) as Bq.
  exists (breg (sep rational_barrier) (map nb_slope q) p q). split.
  - apply bregman_fin; auto using barrier_value, barrier_grad_fin, map_length.
  - unfold nb_bregman. rewrite !nb_array_fin by auto. rewrite map2_map.
    assert (N : forall (f : list R -> list R -> fl R) us vs k u v, nth_error us k = Some u -> nth_error vs k = Some v -> nth_error (map2 f us vs) k = Some (f u v)).
    { intros f us. induction us as [|a us IH]; intros [|b vs] [|j] u v Hu Hv; try discriminate; cbn in *; try congruence. eauto. }
    rewrite (N _ _ _ _ _ _ Ep Eq). f_equal. rewrite (slope_fin NonsmoothBarrier p q (map nb_slope q)) by auto using barrier_grad_fin, map_length.
    cbn. f_equal. unfold breg. ring.
Qed.

(** ** cases *)
Lemma ex_pot : open_box [1/2; -1/3] /\ all_coord (fun t => t <> 0) [1/2; -1/3] /\
  mm_call NonsmoothBarrier (floats [1/2; -1/3]) = Some (Fin (3/2)) /\ sep (net 1 2) [1; -2] = 17 / 2 /\
  2 * 1 + / 10 ^ 5 < vnorm [3; 4].
Proof.
  assert (B : open_box [1/2; -1/3]) by (intros a [<-|[<-|[]]]; lra). split; [auto|]. split. intros a [<-|[<-|[]]]; lra. split; [|split].
  - rewrite barrier_value by auto. do 2 f_equal. unfold sep, rational_barrier, Rsum. cbn. rewrite (Rabs_right (1 / 2)), (Rabs_left (-1 / 3)) by lra. field.
  - unfold sep, net, Rsum. cbn. rewrite (Rabs_right 1), (Rabs_left (-2)) by lra. field.
  - assert (E : vnorm [3; 4] = 5). { unfold vnorm, sqnorm, dot. cbn. replace (3 * 3 + (4 * 4 + 0)) with (5 * 5) by ring. apply sqrt_square. lra. }
    rewrite E. assert (/ 10 ^ 5 <= / 1). { apply Rinv_le_contravar. lra. apply pow_R1_Rle. lra. } lra.
Qed.
Lemma ex_nb_array : exists D, (forall x, In x [[0]; [1/2]] -> open_box x) /\ (forall x, In x [[0]; [0]] -> open_box x) /\
  bregman NonsmoothBarrier (floats [0]) (floats [0]) = Some (Fin 0) /\
  nth_error (nb_bregman (map floats [[0]; [1/2]]) (map floats [[0]; [0]])) 0 = Some (Fin D) /\ D = 1.
Proof.
  assert (P : forall x, In x [[0]; [1/2]] -> open_box x) by (intros x [<-|[<-|[]]] a [<-|[]]; lra).
  assert (Q : forall x, In x [[0]; [0]] -> open_box x) by (intros x [<-|[<-|[]]] a [<-|[]]; lra).
  assert (R0 : rational_barrier 0 = 0) by (unfold rational_barrier; rewrite Rabs_R0; field).
  assert (R1 : rational_barrier (1/2) = 1) by (unfold rational_barrier; rewrite Rabs_right by lra; field).
  assert (S0 : nb_slope 0 = 0) by (unfold nb_slope; rewrite rsign_0; unfold Rdiv; ring).
  destruct (nb_bregman_mixed [[0]; [1/2]] [[0]; [0]] 0 [0] [0] eq_refl P Q eq_refl eq_refl eq_refl) as (D0 & E0 & F0).
  assert (D0 = 0). { assert (B : open_box [0]) by (apply Q; left; auto).
    rewrite (bregman_fin _ (sep rational_barrier) _ _ (map nb_slope [0])) in E0 by (auto using barrier_value, barrier_grad_fin). injection E0 as <-.
    unfold breg, sep, dot, vsub, Rsum. cbn. rewrite R0, S0. ring. }
  subst D0. eexists. split; [exact P|]. split; [exact Q|]. split; [exact E0|]. split; [exact F0|].
  unfold sep, Rsum. cbn. rewrite R0, R1. ring.
Qed.
Lemma ex_entropy : length [1; 2] = length [2; 2] /\ [1; 2] <> [2; 2] /\ all_coord (fun t => 0 < t) [1; 2] /\
  forall i, (i < 2)%nat -> coord i [1; 2] <= coord i [2; 2].
Proof.
  split; [reflexivity|]. split. intros E. injection E. lra. split. intros t [<-|[<-|[]]]; lra.
  intros [|[|i]] Hi; [| |lia]; unfold coord; cbn; lra.
Qed.
