(** * Proofs on kernels and polarised consensus *)
From Coq Require Import List Arith Bool Reals Permutation Lia Lra.
From Verif Require Import Scalar Np NpFacts RVec RVecFacts Consensus ConsSpec ConsFacts Polar PolarSpec.
Import ListNotations.
Open Scope R_scope.

(** ** softmax in general *)
Definition ew (w : fl R) : R := match w with Fin x => exp x | _ => 0 end.
Definition soft_ok (w : list (fl R)) : Prop :=
  (forall v, In v w -> (exists x, v = Fin x) \/ v = NInf) /\ exists x, In (Fin x) w.

Lemma ew_nonneg : forall w, 0 <= ew w.
Proof. destruct w; cbn; try lra. left; apply exp_pos. Qed.
Lemma ew_sum_pos : forall w, soft_ok w -> 0 < Rsum (map ew w).
Proof. intros w [_ (x & Hx)]. apply Rsum_map_pos with (y := Fin x); auto; [intros; apply ew_nonneg|apply exp_pos]. Qed.
Lemma softmax_char : forall w, soft_ok w -> softmax w = map Fin (map (fun v => ew v / Rsum (map ew w)) w).
Proof.
  intros w H. assert (HS := ew_sum_pos _ H). destruct H as [H _]. unfold softmax, logsumexp.
  rewrite (map_ext_in fexp (fun v => Fin (ew v))).
  2:{ intros v Hv. destruct (H v Hv) as [(x & ->)| ->]; reflexivity. }
  rewrite <- (map_map ew Fin w), fsum_fin. unfold flog.
  replace (Rltb 0 (Rsum (map ew w))) with true by (symmetry; apply Rltb_true; auto).
  rewrite map_map. apply map_ext_in. intros v Hv. destruct (H v Hv) as [(x & ->)| ->]; cbn; f_equal; [|lra].
  unfold Rminus. rewrite exp_plus, exp_Ropp, exp_ln by auto. reflexivity.
Qed.

(** ** convex combinations *)
Lemma wmean_combination : forall ws N d X, ensemble N d X -> (1 <= N)%nat ->
  wmean (map Fin ws) (map floats X) = floats (combination ws d X).
Proof.
  intros ws N d X HX HN. rewrite (wmean_floats ws N d X) by auto. f_equal. apply map_ext. intros k.
  rewrite <- (map_id ws) at 1. rewrite map2_combine_r. apply Rsum_map_ext. intros; ring.
Qed.
Lemma combination_length : forall ws d X, length (combination ws d X) = d.
Proof. intros; unfold combination; rewrite map_length, seq_length; auto. Qed.
Lemma combination_hull : forall ws N d X v b, ensemble N d X -> length ws = N -> convex ws -> length v = d ->
  (forall p, In p X -> dot v p <= b) -> dot v (combination ws d X) <= b.
Proof.
  intros ws N d X v b HX HW [W1 W2] Hv H.
  rewrite (dot_sum v _ d) by (auto; apply combination_length).
  rewrite (Rsum_map_ext _ _ (fun i => Rsum (map (fun q => fst q * (nth i v 0 * coord i (snd q))) (combine ws X)))).
  2:{ intros i Hi. apply in_seq in Hi. unfold combination. rewrite nth_map_seq by lia. rewrite <- Rsum_map_scal. apply Rsum_map_ext. intros; ring. }
  rewrite (Rsum_swap _ _ (fun i q => fst q * (nth i v 0 * coord i (snd q)))).
  apply Rle_trans with (Rsum (map (fun q => b * fst q) (combine ws X))).
  - apply Rsum_map_le. intros [w p] Hq. cbn [fst snd]. rewrite Rsum_map_scal.
    replace (Rsum (map (fun a => nth a v 0 * coord a p) (seq 0 d))) with (dot v p).
    + assert (0 <= w) by (apply W1; eapply in_combine_l; eauto). assert (dot v p <= b) by (apply H; eapply in_combine_r; eauto). nra.
    + apply dot_sum; auto. apply HX. eapply in_combine_r; eauto.
  - rewrite Rsum_map_scal, combine_map_fst, W2 by (destruct HX; lia). lra.
Qed.

(** ** polarised consensus *)
Definition polar_ok (a kf : R) (nlrow e : list (fl R)) : Prop :=
  length nlrow = length e /\
  (forall n, In n nlrow -> (exists x, n = Fin x) \/ (n = PInf /\ 0 < kf)) /\
  (forall x, In x e -> (exists y, x = Fin y) \/ (x = PInf /\ 0 < a)) /\
  (exists j n y, nth_error nlrow j = Some (Fin n) /\ nth_error e j = Some (Fin y)).

Lemma pos_inf : forall k, 0 < k -> inf_sign k true = @PInf R.
Proof. intros. unfold inf_sign. cbn. replace (Rltb 0 k) with true; auto. symmetry. apply Rltb_true; auto. Qed.
Lemma neg_inf : forall k, 0 < k -> inf_sign (- k) true = @NInf R.
Proof.
  intros. unfold inf_sign. cbn. replace (Rltb 0 (- k)) with false by (symmetry; apply Rltb_false; lra).
  replace (Rltb (- k) 0) with true; auto. symmetry. apply Rltb_true; lra.
Qed.

Lemma pw_cases : forall a kf n e, ((exists x, n = Fin x) \/ (n = PInf /\ 0 < kf)) -> ((exists y, e = Fin y) \/ (e = PInf /\ 0 < a)) ->
  let w := fsub (fmul (fopp (Fin kf)) n) (fmul (Fin a) e) in
  ((exists x, w = Fin x) \/ w = NInf) /\ ew w = pweight a kf n e.
Proof.
  intros a kf n e [(x & ->)|(-> & Hk)] [(y & ->)|(-> & Ha)]; cbn; rewrite ?(pos_inf a), ?neg_inf by auto; cbn.
  - split; [eauto|]. rewrite <- exp_plus. f_equal. ring.
  - auto.
  - auto.
  - auto.
Qed.

Lemma map2_combine_id : forall A B C (f : A -> B -> C) l k, map2 f l k = map (fun q => f (fst q) (snd q)) (combine l k).
Proof. induction l; destruct k; cbn; auto. rewrite IHl. auto. Qed.

Lemma polar_coeffs_char : forall a kf nlrow e, polar_ok a kf nlrow e ->
  polar_coeffs e nlrow (Fin a) (Fin kf) = map Fin (polar_ws a kf nlrow e) /\ convex (polar_ws a kf nlrow e) /\
  length (polar_ws a kf nlrow e) = length e.
Proof.
  intros a kf nlrow e (HL & Hn & He & j & n & y & Hj1 & Hj2).
  unfold polar_coeffs. rewrite map2_combine_id.
  set (F := fun q : fl R * fl R => fsub (fmul (fopp (Fin kf)) (fst q)) (fmul (Fin a) (snd q))).
  assert (HF : forall q, In q (combine nlrow e) -> ((exists x, F q = Fin x) \/ F q = NInf) /\ ew (F q) = pweight a kf (fst q) (snd q)).
  { intros [n' e'] Hq. apply pw_cases; [apply Hn; eapply in_combine_l; eauto|apply He; eapply in_combine_r; eauto]. }
  assert (HS : soft_ok (map F (combine nlrow e))).
  { split.
    - intros v Hv. apply in_map_iff in Hv. destruct Hv as (q & <- & Hq). apply HF; auto.
    - exists (- kf * n - a * y). apply in_map_iff. exists (Fin n, Fin y). split; [reflexivity|].
      clear - Hj1 Hj2. revert j e Hj1 Hj2. induction nlrow; intros [|j] [|x e] H1 H2; cbn in *; try discriminate.
      + injection H1 as ->. injection H2 as ->. auto.
      + right. eapply IHnlrow; eauto. }
  assert (E : map ew (map F (combine nlrow e)) = map (fun q => pweight a kf (fst q) (snd q)) (combine nlrow e)).
  { rewrite map_map. apply map_ext_in. intros q Hq. apply HF; auto. }
  assert (HP := ew_sum_pos _ HS). rewrite E in HP.
  split; [|split].
  - rewrite softmax_char, E by auto. rewrite (map_map F). unfold polar_ws. f_equal. apply map_ext_in. intros q Hq. f_equal. apply HF; auto.
  - split.
    + intros w Hw. apply in_map_iff in Hw. destruct Hw as (q & <- & Hq). apply Rmult_le_pos; [|left; apply Rinv_0_lt_compat; auto].
      destruct q as [[]  []]; cbn; try lra. left. apply Rmult_lt_0_compat; apply exp_pos.
    + unfold polar_ws. rewrite Rsum_map_div. field. lra.
  - unfold polar_ws. rewrite map_length, combine_length. lia.
Qed.

Lemma polar_point : forall a kf nlrow e d X, polar_ok a kf nlrow e -> ensemble (length e) d X ->
  wmean (polar_coeffs e nlrow (Fin a) (Fin kf)) (map floats X) = floats (combination (polar_ws a kf nlrow e) d X) /\
  convex (polar_ws a kf nlrow e) /\ length (polar_ws a kf nlrow e) = length e.
Proof.
  intros a kf nlrow e d X HP HX. destruct (polar_coeffs_char a kf nlrow e HP) as (-> & H2 & H3).
  split; [|auto]. apply (wmean_combination _ (length e)); auto. destruct HP as (HL & _ & _ & j & n & y & _ & H).
  assert (j < length e)%nat by (apply nth_error_Some; congruence). lia.
Qed.

(** ** kernels *)
Lemma is0_false : forall x : R, x <> 0 -> k_is0 x = false.
Proof.
  intros x H. unfold k_is0. cbn. destruct (Rltb x 0) eqn:E1; auto. destruct (Rltb 0 x) eqn:E2; auto.
  apply Rltb_false in E1. apply Rltb_false in E2. exfalso. lra.
Qed.
Lemma finv_fin : forall x, x <> 0 -> finv (Fin x) = Fin (/ x).
Proof. intros. unfold finv. cbn. rewrite is0_false by auto. f_equal. cbn. lra. Qed.
Lemma finv_kappa : forall k, kappa_ok k -> exists c, finv k = Fin c /\ 0 <= c.
Proof.
  intros [x| | |] H; cbn in H; try tauto.
  - exists (/ x). split; [apply finv_fin; lra|]. left. apply Rinv_0_lt_compat; auto.
  - exists 0. split; [reflexivity|lra].
Qed.
Lemma gauss_factor : forall k, kappa_ok k -> exists c, finv (fmul (Fin 2) (fmul k k)) = Fin c /\ 0 <= c.
Proof.
  intros [x| | |] H; cbn [kappa_ok] in H; try tauto.
  - cbn [fmul]. exists (/ (2 * (x * x))). split; [apply finv_fin; cbn; nra|]. left. apply Rinv_0_lt_compat; nra.
  - cbn. rewrite pos_inf by lra. exists 0. split; [reflexivity|lra].
Qed.
Lemma const_ratio : forall k x, kappa_ok k -> 0 <= x -> exists r, fdiv (Fin x) k = Fin r /\ 0 <= r /\ (x = 0 -> r = 0).
Proof.
  intros [y| | |] x H Hx; cbn in H; try tauto.
  - cbn. rewrite is0_false by lra. exists (x / y). split; auto. split; [apply Rmult_le_pos; auto; left; apply Rinv_0_lt_compat; auto|].
    intros ->. unfold Rdiv. lra.
  - cbn. exists 0. split; auto. split; auto. lra.
Qed.

Lemma vsub_length : forall x y, length x = length y -> length (vsub x y) = length x.
Proof. intros. unfold vsub. rewrite map2_length. lia. Qed.
Lemma vsub_opp : forall x y, length x = length y -> vsub y x = vscal (-1) (vsub x y).
Proof. unfold vsub, vscal. induction x; destruct y; cbn; intros; try lia; auto. rewrite IHx by lia. f_equal. ring. Qed.
Lemma sqdist_sym : forall x y, length x = length y -> sqdist x y = sqdist y x.
Proof.
  intros. unfold sqdist. rewrite (vsub_opp x y) by auto. unfold sqnorm. rewrite dot_vscal_l, dot_vscal_r. ring.
Qed.
Lemma dist_sym : forall x y, length x = length y -> dist x y = dist y x.
Proof. intros. unfold dist, vnorm. fold (sqdist x y) (sqdist y x). rewrite sqdist_sym; auto. Qed.
Lemma sqdist_nonneg : forall x y, 0 <= sqdist x y.
Proof. intros; apply sqnorm_nonneg. Qed.
Lemma dist_nonneg : forall x y, 0 <= dist x y.
Proof. intros; apply vnorm_nonneg. Qed.
Lemma sqdist_self : forall x, sqdist x x = 0.
Proof.
  intros. unfold sqdist, vsub. rewrite map2_same. unfold sqnorm, dot. rewrite map2_map_same. apply Rsum_map_0. intros; ring.
Qed.
Lemma dist_self : forall x, dist x x = 0.
Proof. intros. unfold dist, vnorm. fold (sqdist x x). rewrite sqdist_self. apply sqrt_0. Qed.

(** neg_log in closed form: a non-negative number or +inf, zero for equal points *)
Lemma kernel_spec : forall k kappa x y, kappa_ok kappa ->
  exists v, kcall k kappa x y = Fin v /\ 0 <= v <= 1 /\ kneg_log k kappa x y = fopp (flog (Fin v)) /\
    ((exists n, kneg_log k kappa x y = Fin n /\ 0 <= n /\ v = exp (- n)) \/ (kneg_log k kappa x y = PInf /\ v = 0)).
Proof.
  assert (EX : forall n, 0 <= n -> 0 <= exp (- n) <= 1).
  { intros n Hn. split; [left; apply exp_pos|]. rewrite <- exp_0. destruct (Req_dec n 0) as [->|]; [rewrite Ropp_0; lra|].
    left. apply exp_increasing. lra. }
  assert (LE : forall n, fopp (flog (Fin (exp (- n)))) = @Fin R n).
  { intros n. unfold flog. replace (Rltb 0 (exp (- n))) with true by (symmetry; apply Rltb_true, exp_pos). cbn. rewrite ln_exp. f_equal. ring. }
  intros k kappa x y HK. destruct k; cbn [kcall kneg_log].
  - unfold gauss_call, gauss_neg_log. destruct (gauss_factor kappa HK) as (c & -> & Hc). cbn [fopp fmul fexp kopp kmul KOps_R].
    assert (D := sqdist_nonneg x y). assert (HN : 0 <= c * sqdist x y) by (apply Rmult_le_pos; auto).
    exists (exp (- (c * sqdist x y))). split; [do 2 f_equal; ring|]. split; [auto|]. split; [rewrite LE; auto|]. left. eauto.
  - unfold laplace_call, laplace_neg_log. destruct (finv_kappa kappa HK) as (c & -> & Hc). cbn [fopp fmul fexp kopp kmul KOps_R].
    assert (D := dist_nonneg x y). assert (HN : 0 <= c * dist x y) by (apply Rmult_le_pos; auto).
    exists (exp (- (c * dist x y))). split; [do 2 f_equal; ring|]. split; [auto|]. split; [rewrite LE; auto|]. left. eauto.
  - unfold const_call, const_neg_log. destruct (const_ratio kappa (dist x y) HK (dist_nonneg x y)) as (r & -> & Hr & _).
    unfold pow_inf. destruct (Rltb r 1); [|destruct (Rltb 1 r)].
    + exists (exp (- 0)). split; [reflexivity|]. split; [apply EX; lra|]. split; [rewrite LE; auto|]. left. exists 0. split; [auto|]. split; [lra|auto].
    + exists 0. split; [reflexivity|]. split; [lra|]. unfold flog. replace (Rltb 0 0) with false by (symmetry; apply Rltb_false; lra). cbn. auto.
    + exists (exp (Ropp 1)). split; [reflexivity|]. split; [exact (EX 1 Rle_0_1)|]. split; [symmetry; exact (LE 1)|]. left. exists 1. split; [auto|]. split; [lra|auto].
  - assert (C : exists q, invquad_call kappa x y = Fin (/ (1 + q * q))).
    { unfold invquad_call. destruct (finv_kappa kappa HK) as (c & -> & Hc). cbn [fmul fadd kmul kadd KOps_R].
      exists (c * dist x y). change (fdiv (Fin 1) ?a) with (finv a). rewrite finv_fin; [auto|]. assert (Q := Rle_0_sqr (c * dist x y)). unfold Rsqr in Q. lra. }
    destruct C as (q & HC). unfold invquad_neg_log. rewrite HC. set (v := / (1 + q * q)).
    assert (1 <= 1 + q * q) by (assert (Q := Rle_0_sqr q); unfold Rsqr in Q; lra). assert (0 < v) by (apply Rinv_0_lt_compat; lra).
    assert (v <= 1) by (unfold v; rewrite <- Rinv_1; apply Rinv_le_contravar; lra).
    exists v. split; auto. split; [lra|]. split; auto. left. unfold flog. replace (Rltb 0 v) with true by (symmetry; apply Rltb_true; auto).
    exists (- ln v). split; [reflexivity|]. split.
    + assert (ln v <= 0); [|lra]. rewrite <- ln_1. destruct (Req_dec v 1) as [->|]; [lra|]. left. apply ln_increasing; lra.
    + rewrite Ropp_involutive, exp_ln; auto.
Qed.

Lemma kernel_sym : forall k kappa x y, length x = length y -> kcall k kappa x y = kcall k kappa y x /\ kneg_log k kappa x y = kneg_log k kappa y x.
Proof.
  intros k kappa x y H. assert (S1 := sqdist_sym x y H). assert (S2 := dist_sym x y H).
  destruct k; cbn; unfold gauss_call, gauss_neg_log, laplace_call, laplace_neg_log, const_call, const_neg_log, invquad_neg_log, invquad_call; rewrite ?S1, ?S2; auto.
Qed.

Lemma kernel_self : forall k kappa x, kappa_ok kappa -> kcall k kappa x x = Fin 1 /\ kneg_log k kappa x x = Fin 0.
Proof.
  intros k kappa x HK. assert (S1 := sqdist_self x). assert (S2 := dist_self x).
  assert (N : kneg_log k kappa x x = Fin 0).
  { destruct k; cbn [kneg_log]; unfold gauss_neg_log, laplace_neg_log, const_neg_log, invquad_neg_log, invquad_call; rewrite ?S1, ?S2.
    - destruct (gauss_factor kappa HK) as (c & -> & _). cbn. f_equal. ring.
    - destruct (finv_kappa kappa HK) as (c & -> & _). cbn. f_equal. ring.
    - destruct (const_ratio kappa 0 HK ltac:(lra)) as (r & -> & _ & Hr). rewrite Hr by auto. cbn. replace (Rltb 0 1) with true; auto. symmetry; apply Rltb_true; lra.
    - destruct (finv_kappa kappa HK) as (c & -> & _). cbn [fmul fadd kmul kadd KOps_R]. replace (1 + c * 0 * (c * 0)) with 1 by ring.
      change (fdiv (Fin 1) ?a) with (finv a). rewrite finv_fin by lra. rewrite Rinv_1. unfold flog. replace (Rltb 0 1) with true by (symmetry; apply Rltb_true; lra).
      cbn. rewrite ln_1. f_equal. ring. }
  split; auto. destruct (kernel_spec k kappa x x HK) as (v & -> & _ & _ & [(n & H & _ & ->)|(H & _)]); rewrite N in H; [|discriminate].
  injection H as <-. rewrite Ropp_0, exp_0. auto.
Qed.

Lemma kernel_infinite : forall k x y, kneg_log k PInf x y = Fin 0.
Proof.
  intros k x y. destruct k; cbn [kneg_log]; unfold gauss_neg_log, laplace_neg_log, const_neg_log, invquad_neg_log, invquad_call.
  - cbn. rewrite pos_inf by lra. cbn. f_equal. ring.
  - cbn. f_equal. ring.
  - cbn. replace (Rltb 0 1) with true; auto. symmetry; apply Rltb_true; lra.
  - cbn [finv fdiv fmul fadd kmul kadd k0 KOps_R]. replace (1 + 0 * dist x y * (0 * dist x y)) with 1 by ring.
    change (if k_is0 1 then inf_sign 1 true else Fin (kdiv 1 1)) with (finv (Fin 1)). rewrite finv_fin by lra. rewrite Rinv_1. unfold flog. replace (Rltb 0 1) with true by (symmetry; apply Rltb_true; lra).
    cbn. rewrite ln_1. f_equal. ring.
Qed.

(** polarised consensus with a shipped kernel *)
Lemma nl_eval_nth : forall nl X i row, nth_error (nl_eval nl X) i = Some row ->
  exists xi, nth_error X i = Some xi /\ row = map (fun xj => nl xj xi) X.
Proof.
  intros nl X i row H. unfold nl_eval in H. rewrite nth_error_map in H. destruct (nth_error X i) as [xi|]; [|discriminate].
  cbn in H. injection H as <-. eauto.
Qed.

Lemma polar_ok_kernel : forall k kappa a kf E X i row, kappa_ok kappa -> 0 < kf ->
  (forall e, In e E -> (exists y, e = Fin y) \/ (e = PInf /\ 0 < a)) -> length X = length E ->
  nth_error (nl_eval (kneg_log k kappa) X) i = Some row -> (exists y, nth_error E i = Some (Fin y)) ->
  polar_ok a kf row E.
Proof.
  intros k kappa a kf E X i row HK Hkf HE HL Hr (y & Hy). destruct (nl_eval_nth _ _ _ _ Hr) as (xi & Hx & ->).
  split; [rewrite map_length; auto|]. split; [|split; auto].
  - intros n Hn. apply in_map_iff in Hn. destruct Hn as (xj & <- & _).
    destruct (kernel_spec k kappa xj xi HK) as (v & _ & _ & _ & [(n & H & _)|(H & _)]); eauto.
  - exists i, 0, y. split; auto. rewrite nth_error_map, Hx. cbn. f_equal. apply kernel_self; auto.
Qed.

Lemma cc_polar_point : forall k kappa a kf E d X i, kappa_ok kappa -> 0 < kf ->
  (forall e, In e E -> (exists y, e = Fin y) \/ (e = PInf /\ 0 < a)) -> ensemble (length E) d X ->
  (exists y, nth_error E i = Some (Fin y)) ->
  exists row ws, nth_error (nl_eval (kneg_log k kappa) X) i = Some row /\
    nth_error (cc_polar E (map floats X) (nl_eval (kneg_log k kappa) X) (Fin a) (Fin kf)) i = Some (floats (combination ws d X)) /\
    ws = polar_ws a kf row E /\ length ws = length E /\ convex ws.
Proof.
  intros k kappa a kf E d X i HK Hkf HE HX Hy.
  assert (Hi : (i < length X)%nat). { destruct Hy as (y & Hy). destruct HX as [-> _]. apply nth_error_Some. congruence. }
  destruct (nth_error (nl_eval (kneg_log k kappa) X) i) as [row|] eqn:Er.
  2:{ apply nth_error_None in Er. unfold nl_eval in Er. rewrite map_length in Er. lia. }
  assert (HO : polar_ok a kf row E) by (eapply polar_ok_kernel; eauto; apply HX).
  destruct (polar_point a kf row E d X HO HX) as (H1 & H2 & H3).
  exists row, (polar_ws a kf row E). split; auto. split; auto. unfold cc_polar. rewrite nth_error_map, Er. cbn. f_equal. auto.
Qed.

Lemma polar_hull : forall k kappa a kf E d X i c v b, kappa_ok kappa -> 0 < kf ->
  (forall e, In e E -> (exists y, e = Fin y) \/ (e = PInf /\ 0 < a)) -> ensemble (length E) d X ->
  (exists y, nth_error E i = Some (Fin y)) -> length v = d ->
  nth_error (cc_polar E (map floats X) (nl_eval (kneg_log k kappa) X) (Fin a) (Fin kf)) i = Some c ->
  (forall p, In p X -> dot v p <= b) -> exists c', c = floats c' /\ length c' = d /\ dot v c' <= b.
Proof.
  intros k kappa a kf E d X i c v b HK Hkf HE HX Hy Hv Hc Hb.
  destruct (cc_polar_point k kappa a kf E d X i HK Hkf HE HX Hy) as (row & ws & _ & H2 & _ & H4 & H5).
  rewrite H2 in Hc. injection Hc as <-. exists (combination ws d X). split; auto. split; [apply combination_length|].
  eapply combination_hull; eauto.
Qed.

(** constant kernel: the ordinary consensus for every particle *)
Lemma polar_constant : forall k a kf E d X, admissible a E -> ensemble (length E) d X ->
  cc_polar E (map floats X) (nl_eval (kneg_log k PInf) X) (Fin a) (Fin kf) =
  map (fun _ => hd [] (cc_default E (map floats X) (Fin a))) X.
Proof.
  intros k a kf E d X HA HX. unfold cc_polar, nl_eval. rewrite map_map. apply map_ext_in. intros xi _. cbn [hd cc_default].
  f_equal. unfold polar_coeffs, coeffs. f_equal.
  assert (HL : length X = length E) by apply HX. destruct HA as [HA _]. clear HX. revert E HL HA.
  induction X; destruct E; cbn; intros HL HA; try lia; auto. rewrite kernel_infinite. f_equal.
  - destruct (HA f (or_introl eq_refl)) as [(x & ->)|(-> & Ha)].
    + cbn. f_equal. ring.
    + cbn. rewrite pos_inf, neg_inf by auto. reflexivity.
  - apply IHX; [lia|]. intros; apply HA; auto.
Qed.

(** ** the Taz kernel *)
Lemma fold_Rmax_0 : forall l, (forall x, In x l -> x = 0) -> fold_right Rmax 0 l = 0.
Proof. induction l; cbn; intros; auto. rewrite IHl, (H a) by auto. apply Rmax_left. lra. Qed.

Lemma taz_collapsed : forall kappa p x y Xs, kappa_ok kappa -> (forall X q, In X Xs -> In q X -> q = p) -> x = p -> y = p ->
  taz_neg_log kappa Xs x y = NaN.
Proof.
  intros kappa p x y Xs HK H -> ->. unfold taz_neg_log.
  assert (T : taz_max Xs = 0).
  { unfold taz_max. apply fold_Rmax_0. intros r Hr. apply in_flat_map in Hr. destruct Hr as (X & HX & Hr).
    apply in_flat_map in Hr. destruct Hr as (q & Hq & Hr). apply in_map_iff in Hr. destruct Hr as (q' & <- & Hq').
    rewrite (H X q HX Hq), (H X q' HX Hq'). apply dist_self. }
  rewrite T, dist_self. destruct (finv_kappa kappa HK) as (c & -> & _). cbn [fmul kmul KOps_R].
  replace (c * 0) with 0 by ring. unfold fdiv. unfold k_is0, inf_sign. cbn. 
  replace (Rltb 0 0) with false by (symmetry; apply Rltb_false; lra). reflexivity.
Qed.

Lemma dist1 : forall a b, dist [a] [b] = Rabs (a - b).
Proof.
  intros. unfold dist, vnorm, sqnorm, dot, vsub. cbn. rewrite Rplus_0_r. change ((a - b) * (a - b)) with (Rsqr (a - b)). apply sqrt_Rsqr_abs.
Qed.

(** the value for two points of run 0 depends on the ensemble of run 1 *)
Lemma taz_depends : taz_neg_log (Fin 1) [[[0]; [1]]; [[0]; [1]]] [0] [1] <> taz_neg_log (Fin 1) [[[0]; [1]]; [[0]; [2]]] [0] [1].
Proof.
  unfold taz_neg_log, taz_max. cbn [flat_map map app fold_right]. rewrite !dist1.
  replace (Rabs (0 - 0)) with 0 by (replace (0 - 0) with 0 by ring; rewrite Rabs_R0; auto).
  replace (Rabs (1 - 1)) with 0 by (replace (1 - 1) with 0 by ring; rewrite Rabs_R0; auto).
  replace (Rabs (2 - 2)) with 0 by (replace (2 - 2) with 0 by ring; rewrite Rabs_R0; auto).
  replace (Rabs (1 - 0)) with 1 by (rewrite Rabs_pos_eq; lra). replace (Rabs (0 - 1)) with 1 by (rewrite Rabs_left; lra).
  replace (Rabs (2 - 0)) with 2 by (rewrite Rabs_pos_eq; lra). replace (Rabs (0 - 2)) with 2 by (rewrite Rabs_left; lra).
  replace (Rmax 0 (Rmax 1 (Rmax 1 (Rmax 0 (Rmax 0 (Rmax 1 (Rmax 1 (Rmax 0 0)))))))) with 1 by (unfold Rmax; repeat destruct (Rle_dec _ _); lra).
  replace (Rmax 0 (Rmax 1 (Rmax 1 (Rmax 0 (Rmax 0 (Rmax 2 (Rmax 2 (Rmax 0 0)))))))) with 2 by (unfold Rmax; repeat destruct (Rle_dec _ _); lra).
  rewrite finv_fin by lra. rewrite Rinv_1. cbn. rewrite !is0_false by lra. cbn. intros [= H]. lra.
Qed.

(** every entry of the evaluated kernel is NaN, and the matrix of run 0 depends on run 1 *)
Lemma taz_eval_collapsed : forall kappa p Xs m i j row rr v, kappa_ok kappa -> (forall X q, In X Xs -> In q X -> q = p) ->
  nth_error (taz_eval kappa Xs) m = Some row -> nth_error row i = Some rr -> nth_error rr j = Some v -> v = NaN.
Proof.
  intros kappa p Xs m i j row rr v HK H H1 H2 H3. unfold taz_eval in H1. rewrite nth_error_map in H1.
  destruct (nth_error Xs m) as [X|] eqn:E1; [|discriminate]. injection H1 as <-. unfold nl_eval in H2. rewrite nth_error_map in H2.
  destruct (nth_error X i) as [xi|] eqn:E2; [|discriminate]. injection H2 as <-. rewrite nth_error_map in H3.
  destruct (nth_error X j) as [xj|] eqn:E3; [|discriminate]. injection H3 as <-.
  apply nth_error_In in E1, E2, E3. apply (taz_collapsed kappa p); eauto.
Qed.
Lemma taz_eval_depends : nth_error (taz_eval (Fin 1) [[[0]; [1]]; [[0]; [1]]]) 0 <> nth_error (taz_eval (Fin 1) [[[0]; [1]]; [[0]; [2]]]) 0.
Proof.
  unfold taz_eval, nl_eval. cbn [map nth_error]. intros [= _ _ H _]. revert H. exact taz_depends.
Qed.
