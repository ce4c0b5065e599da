(** * PolarCBO: kernels and their documentation *)
From Coq Require Import String List Arith Bool Reals Lia Lra.
From Verif Require Import Scalar Np NpFacts RVec RVecFacts Consensus ConsSpec ConsFacts Polar PolarSpec PolarFacts PolarObj PolarDocSpec.
Import ListNotations.
Open Scope R_scope.
Open Scope list_scope.

Lemma sqdist_dist : forall x y, sqdist x y = dist x y ^ 2.
Proof. intros. unfold dist, vnorm. fold (sqdist x y). cbn. rewrite Rmult_1_r, sqrt_sqrt; auto. apply sqdist_nonneg. Qed.

Lemma gauss_doc : forall kappa x y, 0 < kappa -> kcall KGauss (Fin kappa) x y = Fin (doc_gaussian kappa (dist x y)).
Proof.
  intros kappa x y H. cbn [kcall]. unfold gauss_call. cbn [fmul kmul KOps_R]. rewrite finv_fin by (cbn; nra).
  cbn [fopp fmul fexp kopp kmul KOps_R]. unfold doc_gaussian. rewrite sqdist_dist. do 3 f_equal. cbn. field. lra.
Qed.
Lemma laplace_doc : forall kappa x y, 0 < kappa -> kcall KLaplace (Fin kappa) x y = Fin (doc_laplace kappa (dist x y)).
Proof.
  intros kappa x y H. cbn [kcall]. unfold laplace_call. rewrite finv_fin by lra. cbn [fopp fmul fexp kopp kmul KOps_R]. unfold doc_laplace.
  do 3 f_equal. field. lra.
Qed.
Lemma ratio : forall kappa r, 0 < kappa -> fdiv (Fin r) (Fin kappa) = Fin (r / kappa).
Proof. intros. cbn. rewrite is0_false by lra. reflexivity. Qed.
Lemma div_lt1 : forall r k, 0 < k -> (r / k < 1 <-> r < k).
Proof.
  intros r k H. split; intros L.
  - apply (Rmult_lt_compat_r k) in L; auto. unfold Rdiv in L. rewrite Rmult_assoc, Rinv_l in L; lra.
  - apply (Rmult_lt_reg_r k); auto. unfold Rdiv. rewrite Rmult_assoc, Rinv_l; lra.
Qed.
Lemma div_gt1 : forall r k, 0 < k -> (1 < r / k <-> k < r).
Proof.
  intros r k H. split; intros L.
  - apply (Rmult_lt_compat_r k) in L; auto. unfold Rdiv in L. rewrite Rmult_assoc, Rinv_l in L; lra.
  - apply (Rmult_lt_reg_r k); auto. unfold Rdiv. rewrite Rmult_assoc, Rinv_l; lra.
Qed.
Lemma const_nl : forall kappa x y, 0 < kappa ->
  (dist x y < kappa -> kneg_log KConst (Fin kappa) x y = Fin 0) /\ (dist x y = kappa -> kneg_log KConst (Fin kappa) x y = Fin 1) /\
  (kappa < dist x y -> kneg_log KConst (Fin kappa) x y = PInf).
Proof.
  intros kappa x y H. cbn [kneg_log]. unfold const_neg_log. rewrite ratio by auto. unfold pow_inf. split; [|split]; intros L.
  - replace (Rltb (dist x y / kappa) 1) with true; auto. symmetry. apply Rltb_true, div_lt1; auto.
  - rewrite L. unfold Rdiv. rewrite Rinv_r by lra. replace (Rltb 1 1) with false; auto. symmetry. apply Rltb_false. lra.
  - replace (Rltb (dist x y / kappa) 1) with false. 2:{ symmetry. apply Rltb_false. apply div_gt1 in L; auto. lra. }
    replace (Rltb 1 (dist x y / kappa)) with true; auto. symmetry. apply Rltb_true, div_gt1; auto.
Qed.
Lemma const_doc : forall kappa x y, 0 < kappa ->
  (dist x y < kappa -> kcall KConst (Fin kappa) x y = Fin doc_constant_inside) /\
  (dist x y = kappa -> kcall KConst (Fin kappa) x y = Fin (exp (- (1)))) /\
  (kappa < dist x y -> kcall KConst (Fin kappa) x y = Fin 0).
Proof.
  intros kappa x y H. destruct (const_nl kappa x y H) as (A & B & C). cbn [kneg_log kcall] in *. unfold const_call. fold (const_neg_log (Fin kappa) x y).
  split; [|split]; intros L.
  - rewrite A by auto. cbn. rewrite Ropp_0, exp_0. reflexivity.
  - rewrite B by auto. reflexivity.
  - rewrite C by auto. reflexivity.
Qed.
Lemma exp_m1 : exp (- (1)) < 1.
Proof. rewrite <- exp_0 at 2. apply exp_increasing. lra. Qed.
Lemma const_boundary : exists kappa x y, 0 < kappa /\ dist x y <= kappa /\ kcall KConst (Fin kappa) x y <> Fin doc_constant_inside.
Proof.
  exists 1, [1], [0]. assert (D : dist [1] [0] = 1) by (rewrite dist1, Rminus_0_r, Rabs_R1; auto).
  split; [lra|]. split; [lra|]. destruct (const_doc 1 [1] [0] ltac:(lra)) as (_ & B & _). rewrite (B D). intros E. injection E as E. pose proof exp_m1. unfold doc_constant_inside in E. lra.
Qed.

Lemma inv_doc : forall kappa x y, 0 < kappa ->
  kcall KInvQuad (Fin kappa) x y = Fin (1 / (1 + (dist x y / kappa) ^ 2)) /\
  (kcall KInvQuad (Fin kappa) x y = Fin (doc_inverse_quadratic kappa (dist x y)) <-> kappa = 1 \/ dist x y = 0).
Proof.
  intros kappa x y H. cbn [kcall].
  assert (E : invquad_call (Fin kappa) x y = Fin (1 / (1 + (dist x y / kappa) ^ 2))).
  { unfold invquad_call. rewrite finv_fin by lra. cbn [fmul fadd kmul kadd KOps_R].
    assert (Q := Rle_0_sqr (/ kappa * dist x y)). unfold Rsqr in Q.
    change (fdiv (Fin 1) ?a) with (finv a). rewrite finv_fin by lra. f_equal. unfold Rdiv. rewrite Rmult_1_l. f_equal. f_equal. cbn. rewrite Rmult_1_r. f_equal; apply Rmult_comm. }
  split; [exact E|]. rewrite E. unfold doc_inverse_quadratic. set (r := dist x y). assert (R0 : 0 <= r) by apply dist_nonneg.
  assert (I : 0 < / kappa) by (apply Rinv_0_lt_compat; auto).
  split.
  - intros F. assert (F' : forall u v : R, Fin u = Fin v -> u = v) by (intros; congruence). apply F' in F. clear F'.
    assert (G : 1 + (r / kappa) ^ 2 = 1 + / kappa * r ^ 2).
    { assert (T : forall u, 1 / u = / u) by (intros; unfold Rdiv; apply Rmult_1_l). rewrite (T (1 + (r / kappa) ^ 2)), (T (1 + / kappa * r ^ 2)) in F.
      apply (f_equal Rinv) in F. rewrite !Rinv_inv in F. exact F. }
    assert (G' : r ^ 2 * / kappa * (/ kappa - 1) = 0).
    { unfold Rdiv in G. rewrite Rpow_mult_distr in G. cbn in *. lra. }
    apply Rmult_integral in G'. destruct G' as [G'|G'].
    + apply Rmult_integral in G'. destruct G' as [G'|G']; [|lra]. right. cbn in G'. rewrite Rmult_1_r in G'. apply Rmult_integral in G'. tauto.
    + left. assert (/ kappa = 1) by lra. rewrite <- (Rinv_inv kappa), H0. apply Rinv_1.
  - intros [->|Z].
    + do 3 f_equal. unfold Rdiv. rewrite Rinv_1, Rmult_1_r. ring.
    + rewrite Z. do 3 f_equal. unfold Rdiv. ring.
Qed.
Lemma inv_wrong : exists kappa x y, 0 < kappa /\ kcall KInvQuad (Fin kappa) x y <> Fin (doc_inverse_quadratic kappa (dist x y)).
Proof.
  exists 2, [1], [0]. assert (D : dist [1] [0] = 1) by (rewrite dist1, Rminus_0_r, Rabs_R1; auto). split; [lra|].
  intros E. apply inv_doc in E; [|lra]. rewrite D in E. lra.
Qed.

(** ** Monotonicity *)

Lemma nl_monotone : forall k k1 k2 x y u v, 0 < k1 -> k1 <= k2 -> dist x y <= dist u v ->
  at_most (kneg_log k (Fin k2) x y) (kneg_log k (Fin k1) u v).
Proof.
  intros k k1 k2 x y u v H1 H2 HD. assert (D := dist_nonneg x y). assert (D' := dist_nonneg u v).
  assert (I : / k2 <= / k1) by (apply Rinv_le_contravar; auto). assert (I0 : 0 < / k2) by (apply Rinv_0_lt_compat; lra).
  assert (Q : / k2 * dist x y <= / k1 * dist u v) by (apply Rmult_le_compat; lra).
  destruct k; cbn [kneg_log].
  - unfold gauss_neg_log. cbn [fmul kmul KOps_R]. rewrite !finv_fin by (cbn; nra). cbn [fmul kmul KOps_R at_most]. rewrite !sqdist_dist.
    assert (S : dist x y ^ 2 <= dist u v ^ 2) by (apply pow_incr; lra).
    apply Rmult_le_compat; [left; apply Rinv_0_lt_compat; nra|apply pow_le; auto|apply Rinv_le_contravar; nra|auto].
  - unfold laplace_neg_log. rewrite !finv_fin by lra. exact Q.
  - destruct (const_nl k1 u v H1) as (A & B & C). destruct (const_nl k2 x y ltac:(lra)) as (A' & B' & C'). cbn [kneg_log] in *.
    destruct (Rtotal_order (dist u v) k1) as [L|[L|L]].
    + rewrite A, A' by lra. cbn. lra.
    + rewrite B by auto. destruct (Rtotal_order (dist x y) k2) as [M|[M|M]]; [rewrite A' by auto|rewrite B' by auto|lra]; cbn; lra.
    + rewrite C by lra. destruct (Rtotal_order (dist x y) k2) as [M|[M|M]]; [rewrite A' by auto|rewrite B' by auto|rewrite C' by auto]; cbn; discriminate.
  - unfold invquad_neg_log. cbn [kcall] in *. destruct (inv_doc k1 u v H1) as [E1 _]. destruct (inv_doc k2 x y ltac:(lra)) as [E2 _]. cbn [kcall] in *.
    rewrite E1, E2. unfold Rdiv in *. rewrite !Rmult_1_l.
    set (p := dist x y * / k2). set (q := dist u v * / k1). assert (P : p <= q) by (unfold p, q; lra). assert (P0 : 0 <= p) by (unfold p; apply Rmult_le_pos; lra).
    assert (S : p ^ 2 <= q ^ 2) by (apply pow_incr; lra). assert (S0 : 0 <= p ^ 2) by (apply pow_le; auto).
    assert (V1 : 0 < / (1 + p ^ 2)) by (apply Rinv_0_lt_compat; lra). assert (V2 : 0 < / (1 + q ^ 2)) by (apply Rinv_0_lt_compat; lra).
    unfold flog. replace (Rltb 0 (/ (1 + p ^ 2))) with true by (symmetry; apply Rltb_true; auto).
    replace (Rltb 0 (/ (1 + q ^ 2))) with true by (symmetry; apply Rltb_true; auto). cbn [fopp kopp KOps_R at_most].
    apply Ropp_le_contravar. assert (V : / (1 + q ^ 2) <= / (1 + p ^ 2)) by (apply Rinv_le_contravar; lra).
    destruct V as [V| ->]; [left; apply ln_increasing; auto|right; reflexivity].
Qed.

Lemma combine_nth_error : forall A B (l : list A) (k : list B) j a b, nth_error l j = Some a -> nth_error k j = Some b -> nth_error (combine l k) j = Some (a, b).
Proof. induction l; intros [|c k] [|j] a' b H1 H2; cbn in *; try discriminate. - congruence. - eauto. Qed.

Lemma weight_order : forall k kappa a kf E X xi row i j l xj xl ej el wj wl, 0 < kappa -> 0 <= a -> 0 < kf -> length X = length E ->
  (forall e, In e E -> (exists y, e = Fin y) \/ (e = PInf /\ 0 < a)) ->
  nth_error X i = Some xi -> (exists y, nth_error E i = Some (Fin y)) -> row = map (fun x => kneg_log k (Fin kappa) x xi) X ->
  nth_error X j = Some xj -> nth_error X l = Some xl -> nth_error E j = Some (Fin ej) -> nth_error E l = Some (Fin el) ->
  nth_error (polar_coeffs E row (Fin a) (Fin kf)) j = Some wj -> nth_error (polar_coeffs E row (Fin a) (Fin kf)) l = Some wl ->
  ej <= el -> dist xj xi <= dist xl xi -> at_most wl wj.
Proof.
  intros k kappa a kf E X xi row i j l xj xl ej el wj wl HK Ha Hkf HL HE Hxi Hei -> Hj Hl Ej El Wj Wl Oe Od.
  set (row := map (fun x => kneg_log k (Fin kappa) x xi) X) in *.
  assert (OK : polar_ok a kf row E).
  { apply (polar_ok_kernel k (Fin kappa) a kf E X i row); auto. unfold nl_eval. rewrite nth_error_map, Hxi. reflexivity. }
  destruct (polar_coeffs_char a kf row E OK) as (Ec & _ & _). rewrite Ec in Wj, Wl. unfold polar_ws in Wj, Wl.
  assert (Rj : nth_error row j = Some (kneg_log k (Fin kappa) xj xi)) by (unfold row; rewrite nth_error_map, Hj; reflexivity).
  assert (Rl : nth_error row l = Some (kneg_log k (Fin kappa) xl xi)) by (unfold row; rewrite nth_error_map, Hl; reflexivity).
  rewrite !nth_error_map, (combine_nth_error _ _ _ _ _ _ _ Rj Ej) in Wj. rewrite !nth_error_map, (combine_nth_error _ _ _ _ _ _ _ Rl El) in Wl.
  cbn [option_map fst snd] in Wj, Wl. injection Wj as <-. injection Wl as <-. cbn [at_most].
  set (S := Rsum _).
  assert (HS : 0 < S).
  { destruct Hei as (y & Hy). assert (Ri : nth_error row i = Some (Fin 0)).
    { unfold row. rewrite nth_error_map, Hxi. cbn. f_equal. apply kernel_self. exact HK. }
    unfold S. apply Rsum_map_pos with (y := (Fin 0, Fin y)).
    - intros [n e] _. cbn. destruct n, e; cbn; try lra. left. apply Rmult_lt_0_compat; apply exp_pos.
    - apply (nth_error_In _ i). apply combine_nth_error; auto.
    - cbn. apply Rmult_lt_0_compat; apply exp_pos. }
  apply Rmult_le_compat_r; [left; apply Rinv_0_lt_compat; auto|].
  pose proof (nl_monotone k kappa kappa xj xi xl xi HK (Rle_refl _) Od) as HM.
  destruct (kneg_log k (Fin kappa) xj xi) as [nj| | |] eqn:Nj, (kneg_log k (Fin kappa) xl xi) as [nl'| | |] eqn:Nl; cbn in HM; try contradiction; cbn [pweight]; try lra.
  - assert (Ex : forall p q, p <= q -> exp (- q) <= exp (- p)) by (intros p q [Hp| ->]; [left; apply exp_increasing; lra|lra]).
    apply Rmult_le_compat; try (left; apply exp_pos); apply Ex; apply Rmult_le_compat_l; lra.
  - left. apply Rmult_lt_0_compat; apply exp_pos.
Qed.

(** ** kappa = 0 *)

Lemma zero_nan : forall k x, kneg_log k (Fin 0) x x = NaN.
Proof.
  intros k x. assert (S1 := sqdist_self x). assert (S2 := dist_self x).
  assert (Z : k_is0 0 = true) by (unfold k_is0; cbn; rewrite !(proj2 (Rltb_false 0 0)) by lra; reflexivity).
  assert (L0 : Rltb 0 0 = false) by (apply Rltb_false; lra). assert (L1 : Rltb 0 1 = true) by (apply Rltb_true; lra).
  assert (FI : finv (Fin 0) = PInf) by (unfold finv; cbn [fdiv]; rewrite Z; unfold inf_sign; cbn; rewrite L1; reflexivity).
  destruct k; cbn [kneg_log]; unfold gauss_neg_log, laplace_neg_log, const_neg_log, invquad_neg_log, invquad_call; rewrite ?S1, ?S2.
  - cbn [fmul kmul KOps_R]. replace (2 * (0 * 0)) with 0 by ring. rewrite FI. cbn [fmul]. unfold inf_sign. cbn. rewrite L0. reflexivity.
  - rewrite FI. cbn [fmul]. unfold inf_sign. cbn. rewrite L0. reflexivity.
  - cbn [fdiv]. rewrite Z. unfold inf_sign. cbn. rewrite L0. reflexivity.
  - rewrite FI. cbn [fmul]. unfold inf_sign. cbn [kltb k0 KOps_R]. rewrite L0. reflexivity.
Qed.
Lemma softmax_nan_all : forall w, In NaN w -> forall v, In v (softmax w) -> v = NaN.
Proof.
  intros w H v Hv. unfold softmax, logsumexp in Hv. rewrite fsum_nan in Hv. 2:{ apply in_map_iff. exists NaN. auto. }
  cbn [flog] in Hv. apply in_map_iff in Hv. destruct Hv as (q & <- & _). destruct q; reflexivity.
Qed.
Lemma zero_weights : forall k a kf E X i xi row w, length X = length E -> nth_error X i = Some xi ->
  row = map (fun x => kneg_log k (Fin 0) x xi) X -> In w (polar_coeffs E row a kf) -> w = NaN.
Proof.
  intros k a kf E X i xi row w HL Hi -> Hw. revert Hw. apply softmax_nan_all. rewrite map2_combine_id. apply in_map_iff.
  destruct (nth_error E i) as [e|] eqn:Ee. 2:{ apply nth_error_None in Ee. assert (i < length X)%nat by (apply nth_error_Some; congruence). lia. }
  exists (NaN, e). split; [destruct kf; reflexivity|]. apply (nth_error_In _ i). apply combine_nth_error; auto.
  rewrite nth_error_map, Hi. cbn. f_equal. apply zero_nan.
Qed.

(** ** The kernel in use *)

Lemma prun_kappa : forall l o, po_kappa (prun o l) = last_kappa (po_kappa o) l.
Proof.
  induction l as [|p l IH]; intros o; [reflexivity|]. cbn [prun fold_left]. fold (prun (papply o p) l). rewrite IH.
  destruct p as [v|a|v|m]; cbn; auto. unfold set_kernel. destruct (kernel_for (po_kappa o) a); reflexivity.
Qed.
Lemma prun_untouched : forall l o, forallb (fun p => negb (replaces p)) l = true -> po_kernel (prun o l) = po_kernel o.
Proof.
  induction l as [|p l IH]; intros o H; [reflexivity|]. cbn [forallb] in H. apply andb_true_iff in H. destruct H as [H1 H2].
  cbn [prun fold_left]. fold (prun (papply o p) l). rewrite IH by auto.
  destruct p as [v|[s|k]|v|m]; cbn [replaces negb papply] in *; auto; try discriminate. unfold set_kernel. cbn [kernel_for]. destruct (lookup s kernel_dict); [discriminate|reflexivity].
Qed.
Lemma kernel_in_use : forall o pre s c post, lookup s kernel_dict = Some c -> forallb (fun p => negb (replaces p)) post = true ->
  po_kernel (prun o (pre ++ PKernel (AName s) :: post)) = KShipped c (last_kappa (po_kappa o) pre) /\
  po_kappa (prun o (pre ++ PKernel (AName s) :: post)) = last_kappa (last_kappa (po_kappa o) pre) post.
Proof.
  intros o pre s c post HL HP. unfold prun. rewrite fold_left_app. cbn [fold_left]. fold (prun o pre).
  change (fold_left papply post (papply (prun o pre) (PKernel (AName s)))) with (prun (papply (prun o pre) (PKernel (AName s))) post).
  assert (E : papply (prun o pre) (PKernel (AName s)) = {| po_kappa := po_kappa (prun o pre); po_kernel := KShipped c (po_kappa (prun o pre)); po_mode := po_mode (prun o pre) |}).
  { cbn [papply]. unfold set_kernel. cbn [kernel_for]. rewrite HL. reflexivity. }
  rewrite E. split.
  - rewrite prun_untouched by auto. cbn. rewrite prun_kappa. reflexivity.
  - rewrite prun_kappa. cbn. rewrite prun_kappa. reflexivity.
Qed.
Lemma constructed_kernel : forall s c kappa mode l o, lookup s kernel_dict = Some c -> construct (AName s) kappa mode = Ok o ->
  forallb (fun p => negb (replaces p)) l = true ->
  po_kernel (prun o l) = KShipped c kappa /\ po_kappa (prun o l) = last_kappa kappa l.
Proof.
  intros s c kappa mode l o HL HC HP. unfold construct in HC. cbn [kernel_for] in HC. rewrite HL in HC. cbn [bind] in HC. injection HC as <-.
  split; [rewrite prun_untouched by auto; reflexivity|rewrite prun_kappa; reflexivity].
Qed.
Lemma kappa_has_no_effect : exists o, construct (AName "Gaussian") (Fin 1) "alpha" = Ok o /\
  po_kappa (prun o [PKappa (Fin 2)]) = Fin 2 /\ po_kernel (prun o [PKappa (Fin 2)]) = KShipped Gaussian (Fin 1).
Proof. eexists. split; [reflexivity|]. split; reflexivity. Qed.
Lemma unknown_name : forall s, (forall c, ~ In (s, c) kernel_dict) ->
  (forall kappa mode, construct (AName s) kappa mode = Err ValueError) /\ (forall o, set_kernel (AName s) o = Err ValueError /\ papply o (PKernel (AName s)) = o).
Proof.
  intros s H. assert (L : forall l, (forall c, ~ In (s, c) l) -> lookup s l = None).
  { induction l as [|[n c] l IH]; intros F; cbn; auto. destruct (String.eqb_spec s n) as [->|_]; [exfalso; apply (F c); left; auto|]. apply IH. intros c' Hc. apply (F c'). right; auto. }
  specialize (L _ H). unfold construct, set_kernel, papply. cbn [kernel_for]. rewrite L. cbn. split; auto. intros o. unfold set_kernel. cbn [kernel_for]. rewrite L. auto.
Qed.
Lemma modes : forall a kappa m k, kernel_for kappa a = Ok k -> exists o, construct a kappa m = Ok o /\ forall alpha,
  (m = "const"%string -> kernel_factor_of o alpha = Ok (Fin 1)) /\ (m = "alpha"%string -> kernel_factor_of o alpha = Ok alpha) /\
  (m <> "const"%string -> m <> "alpha"%string -> kernel_factor_of o alpha = Err NotImplemented).
Proof.
  intros a kappa m k H. unfold construct. rewrite H. cbn. eexists. split; [reflexivity|]. intros alpha. unfold kernel_factor_of. cbn.
  split; [intros ->; reflexivity|]. split; [intros ->; reflexivity|]. intros H1 H2.
  apply String.eqb_neq in H1, H2. rewrite H1, H2. reflexivity.
Qed.
Lemma alpha_mode_wrong : exists o alpha, construct (AName "Gaussian") (Fin 1) "alpha" = Ok o /\ kernel_factor_of o alpha = Ok (Fin 10) /\ po_kappa o = Fin 1.
Proof. eexists. exists (Fin 10). split; [reflexivity|]. split; reflexivity. Qed.

Lemma ex_weights : exists xi xj xl : list R, let X := [xi; xj; xl] in let E := map Fin [0; 1; 2] in
  dist xj xi <= dist xl xi /\ length X = length E /\ (forall e, In e E -> (exists y, e = Fin y) \/ (e = PInf /\ 0 < 1)) /\ dist xl xi = 2.
Proof.
  exists [0], [1], [-2]. cbn. rewrite !dist1. replace (1 - 0) with 1 by ring. replace (-2 - 0) with (- (2)) by ring.
  rewrite Rabs_Ropp, Rabs_R1, (Rabs_right 2) by lra. split; [lra|]. split; [auto|]. split; [|auto].
  intros e [<-|[<-|[<-|[]]]]; eauto.
Qed.

Lemma kernel_names : forall s kappa mode k, (exists o, construct (AName s) kappa mode = Ok o /\ po_kernel o = k) <->
  (s = "Gaussian" /\ k = KShipped Gaussian kappa) \/ (s = "Laplace" /\ k = KShipped Laplace kappa) \/ (s = "Constant" /\ k = KShipped Constant kappa) \/
  (s = "InverseQuadratic" /\ k = KShipped InverseQuadratic kappa) \/ (s = "Taz" /\ k = KShipped Taz kappa).
Proof.
  intros s kappa mode k. split.
  - intros (o & E & <-). unfold construct in E. cbn [kernel_for] in E. unfold kernel_dict in E. cbn [lookup] in E.
    repeat match type of E with context [String.eqb s ?n] => destruct (String.eqb s n) eqn:Q; [apply String.eqb_eq in Q; subst; cbn [bind] in E; injection E as <-; cbn [po_kernel]; tauto|clear Q] end.
    discriminate E.
  - intros [[-> ->]|[[-> ->]|[[-> ->]|[[-> ->]|[-> ->]]]]]; eexists; split; reflexivity.
Qed.
