(** * The regulariser functions: lemmas *)
From Coq Require Import List Arith Bool Reals Lra Lia Psatz.
From Verif Require Import Scalar ScalarFacts Np NpFacts RVec RVecFacts ConsSpec PostProc MatSqrt CboFacts RegFacts MirrorProj Regularizers RegzSpec.
Import ListNotations.
Open Scope R_scope.

Lemma vsub_vsub : forall x u, length u = length x -> vsub x (vsub x u) = u.
Proof.
  unfold vsub. induction x as [|a x IH]; intros [|b u] H; try discriminate; auto. cbn [map2]. f_equal. ring. apply IH. cbn in H; lia.
Qed.
Lemma vnorm_lower : forall x y, length x = length y -> Rabs (vnorm x - vnorm y) <= vnorm (vsub x y).
Proof.
  intros x y H. apply Rsqr_incr_0_var; [|apply vnorm_nonneg]. rewrite <- Rsqr_abs. unfold Rsqr. rewrite vnorm_sq, sqnorm_sub by auto.
  pose proof (dot_cs_norm x y H) as C. pose proof (Rle_abs (dot x y)). rewrite <- (vnorm_sq x), <- (vnorm_sq y). nra.
Qed.
Lemma vnorm_nil_pos : forall a, vnorm a <> 0 -> 0 < vnorm a.
Proof. intros a H. pose proof (vnorm_nonneg a). lra. Qed.

Lemma plane_distance_gen : forall a b x, length a = length x -> vnorm a <> 0 ->
  is_distance (hyperplane a b) x (Rabs (dot a x - b) / vnorm a).
Proof.
  intros a b x L Ha. pose proof (vnorm_nil_pos a Ha) as Hp. pose proof (vnorm_sq a) as Hs.
  assert (Hsq : 0 < sqnorm a) by nra.
  set (t := (dot a x - b) / sqnorm a). split.
  - assert (Lt : length (vscal t a) = length x) by (rewrite length_vscal; auto).
    exists (vsub x (vscal t a)). split. { apply length_vsub; auto. } split.
    + unfold hyperplane. rewrite dot_vsub_r by auto. rewrite dot_vscal_r. fold (sqnorm a). unfold t. field. lra.
    + rewrite vsub_vsub by auto. rewrite vnorm_scal. unfold t. unfold Rdiv. rewrite Rabs_mult, (Rabs_right (/ sqnorm a)).
      2:{ apply Rle_ge. left. apply Rinv_0_lt_compat. lra. } rewrite <- Hs. field. lra.
  - intros y Ly Hy. unfold hyperplane in Hy. subst b. rewrite <- dot_vsub_r by auto.
    assert (C : Rabs (dot a (vsub x y)) <= vnorm a * vnorm (vsub x y)). { apply dot_cs_norm. rewrite (length_vsub x y (length x)); auto. }
    apply (Rmult_le_reg_l (vnorm a)); auto. replace (vnorm a * (Rabs (dot a (vsub x y)) / vnorm a)) with (Rabs (dot a (vsub x y))) by (field; lra). auto.
Qed.

Theorem plane_reg_distance : forall a b x, length a = length x -> vnorm a <> 0 ->
  exists r, plane_reg (NVector a) b x = Ok (Fin r) /\ is_distance (hyperplane a b) x r.
Proof.
  intros a b x L Ha. exists (Rabs (dot a x - b) / vnorm a). split.
  - unfold plane_reg, ntimes. rewrite L, Nat.eqb_refl. cbn [bind nnorm]. rewrite fdiv_fin by auto. reflexivity.
  - apply plane_distance_gen; auto.
Qed.

Lemma dist_unique : forall S x r r', is_distance S x r -> is_distance S x r' -> r = r'.
Proof.
  intros S x r r' [(y & L & Sy & E) H] [(y' & L' & Sy' & E') H']. apply Rle_antisym.
  - rewrite <- E'. auto. - rewrite <- E. auto.
Qed.
Lemma vscal_dot_ones : forall a x, Rsum (vscal a x) = dot (repeat a (length x)) x.
Proof.
  intros a x. unfold vscal, dot. induction x as [|v x IH]; [reflexivity|]. cbn [map length repeat map2]. rewrite !Rsum_cons, IH. reflexivity.
Qed.
Lemma vnorm_repeat : forall a n, vnorm (repeat a n) = sqrt (INR n) * Rabs a.
Proof.
  intros a n. unfold vnorm. assert (E : sqnorm (repeat a n) = INR n * (a * a)).
  { unfold sqnorm, dot. induction n as [|n IH]. { cbn. ring. } cbn [repeat map2]. rewrite Rsum_cons, IH, S_INR. ring. }
  rewrite E, sqrt_mult; [|apply pos_INR|nra]. f_equal. change (a * a) with (Rsqr a). apply sqrt_Rsqr_abs.
Qed.

(** a number as normal: sqrt d times the distance to the hyperplane with that number in every coordinate *)
Theorem plane_reg_scalar : forall a b x, a <> 0 -> x <> [] -> exists r, plane_reg (NScalar a) b x = Ok (Fin r) /\
  is_distance (hyperplane (repeat a (length x)) b) x (r / sqrt (INR (length x))).
Proof.
  intros a b x Ha Hx. exists (Rabs (dot (repeat a (length x)) x - b) / Rabs a). split.
  - unfold plane_reg, ntimes. cbn [bind nnorm]. rewrite fdiv_fin by (apply Rabs_no_R0; auto). rewrite vscal_dot_ones. reflexivity.
  - assert (Hd : 0 < INR (length x)) by (apply lt_0_INR; destruct x; [congruence|cbn; lia]).
    assert (Hs : 0 < sqrt (INR (length x))) by (apply sqrt_lt_R0; auto).
    assert (Haa : 0 < Rabs a) by (apply Rabs_pos_lt; auto).
    replace (Rabs (dot (repeat a (length x)) x - b) / Rabs a / sqrt (INR (length x)))
      with (Rabs (dot (repeat a (length x)) x - b) / vnorm (repeat a (length x))).
    2:{ rewrite vnorm_repeat. field. lra. }
    apply plane_distance_gen. { apply repeat_length. } rewrite vnorm_repeat. nra.
Qed.

Theorem plane_reg_default_wrong : forall b x r, (2 <= length x)%nat -> Rsum x <> b -> plane_reg (NScalar 1) b x = Ok (Fin r) ->
  ~ is_distance (hyperplane (repeat 1 (length x)) b) x r.
Proof.
  intros b x r Hd Hx H D. destruct (plane_reg_scalar 1 b x) as (r0 & E & D0). { lra. } { destruct x; [cbn in Hd; lia|discriminate]. }
  rewrite H in E. injection E as <-. pose proof (dist_unique _ _ _ _ D D0) as U.
  assert (Hr : r = Rabs (Rsum x - b)).
  { unfold plane_reg, ntimes in H. cbn [bind nnorm] in H. rewrite fdiv_fin in H by (rewrite Rabs_R1; lra). injection H as <-.
    rewrite Rabs_R1. unfold Rdiv. rewrite Rinv_1, Rmult_1_r. do 2 f_equal. unfold vscal. rewrite (Rsum_map_ext _ _ (fun t => t)), map_id; auto. intros. ring. }
  assert (Hp : 0 < r) by (rewrite Hr; apply Rabs_pos_lt; lra).
  assert (Hs : 1 < sqrt (INR (length x))). { rewrite <- sqrt_1. apply sqrt_lt_1; try lra. apply pos_INR. apply le_INR in Hd. cbn in Hd. lra. }
  assert (r * sqrt (INR (length x)) = r). { rewrite U at 1. field. lra. } nra.
Qed.

Theorem plane_reg_zero_normal : forall b x a, length a = length x -> vnorm a = 0 ->
  plane_reg (NVector a) b x = Ok (if Req_EM_T b 0 then NaN else PInf).
Proof.
  intros b x a L Ha. unfold plane_reg, ntimes. rewrite L, Nat.eqb_refl. cbn [bind nnorm]. rewrite Ha.
  assert (E : Rsum (map2 Rmult a x) = 0).
  { pose proof (dot_cs_norm a x L) as C. unfold dot in C. rewrite Ha, Rmult_0_l in C. pose proof (Rabs_pos (Rsum (map2 Rmult a x))).
    destruct (Req_dec (Rsum (map2 Rmult a x)) 0) as [Z|Z]; auto. apply Rabs_pos_lt in Z. lra. }
  rewrite E. f_equal. unfold fdiv, k_is0, inf_sign. cbn [kltb k0 KOps_R]. rewrite !(proj2 (Rltb_false 0 0)) by lra. cbn [negb andb].
  destruct (Req_EM_T b 0) as [->|Hb].
  - rewrite Rminus_0_r, Rabs_R0. rewrite !(proj2 (Rltb_false 0 0)) by lra. auto.
  - assert (0 < Rabs (0 - b)) by (apply Rabs_pos_lt; lra). rewrite (proj2 (Rltb_true 0 (Rabs (0 - b)))) by auto. auto.
Qed.

(** ** sphere *)
Theorem sphere_reg_distance : forall r x, 0 <= r -> x <> [] -> is_distance (round_sphere r) x (sphere_reg r x).
Proof.
  intros r x Hr Hx. unfold sphere_reg. split.
  - destruct (Req_dec (vnorm x) 0) as [Z|Z].
    + destruct x as [|v x]; [congruence|]. exists (r :: repeat 0 (length x)). cbn [length]. rewrite repeat_length. split; auto.
      assert (S0 : forall n, sqnorm (repeat 0 n) = 0). { intros n. unfold sqnorm, dot. induction n; cbn; auto. rewrite Rmult_0_l, Rplus_0_l. auto. }
      assert (E : vnorm (r :: repeat 0 (length x)) = r).
      { unfold vnorm. rewrite sqnorm_cons, S0, Rplus_0_r. apply sqrt_square. auto. }
      split; auto. assert (Z' : forall i, nth i (v :: x) 0 = 0) by (apply vnorm_0; auto). rewrite Z.
      pose proof (Z' 0%nat) as Hv. cbn in Hv. subst v. assert (Hx0 : x = repeat 0 (length x)).
      { apply (list_nth_ext _ 0 _ _ (length x)); auto. apply repeat_length. intros i _. rewrite nth_repeat. exact (Z' (S i)). }
      unfold vnorm. replace (sqnorm (vsub (0 :: x) (r :: repeat 0 (length x)))) with (r * r).
      { rewrite sqrt_square by auto. rewrite Rminus_0_l, Rabs_Ropp, Rabs_right; lra. }
      change (vsub (0 :: x) (r :: repeat 0 (length x))) with ((0 - r) :: vsub x (repeat 0 (length x))). rewrite sqnorm_cons.
      replace (vsub x (repeat 0 (length x))) with x. { rewrite Hx0, S0. ring. }
      unfold vsub. clear. induction x; cbn; auto. f_equal; auto. ring.
    + pose proof (vnorm_nonneg x). assert (Hp : 0 < vnorm x) by lra. exists (vscal (r / vnorm x) x). rewrite length_vscal. split; auto. split.
      * unfold round_sphere. rewrite vnorm_scal. rewrite Rabs_right. field; lra. apply Rle_ge. apply Rmult_le_pos; auto. left. apply Rinv_0_lt_compat. auto.
      * replace (vsub x (vscal (r / vnorm x) x)) with (vscal (1 - r / vnorm x) x).
        2:{ unfold vsub, vscal. generalize (r / vnorm x). intros q. clear. induction x as [|v x IH]; cbn; auto. f_equal. ring. auto. }
        rewrite vnorm_scal. replace (vnorm x) with (Rabs (vnorm x)) at 2 by (apply Rabs_right; lra). rewrite <- Rabs_mult. f_equal. field. lra.
  - intros y L Hy. rewrite <- Hy. apply vnorm_lower. auto.
Qed.

(** ** L0, L1 *)
Lemma close0_iff : forall t, close0 t = true <-> Rabs t <= 1 / 100000000.
Proof.
  intros t. unfold close0. destruct (Rltb (1 / 100000000) (Rabs t)) eqn:E; cbn.
  - apply Rltb_true in E. split; [discriminate|lra].
  - apply Rltb_false in E. split; auto.
Qed.
Theorem l0_zero_iff : forall lamda x, lamda <> 0 -> (l0 lamda x = 0 <-> forall t, In t x -> Rabs t <= 1 / 100000000).
Proof.
  intros lamda x Hl. unfold l0. split.
  - intros H t Ht. apply close0_iff. destruct (close0 t) eqn:E; auto. exfalso.
    assert (Hin : In t (filter (fun t => negb (close0 t)) x)). { apply filter_In. split; auto. rewrite E. auto. }
    destruct (filter _ x) as [|y l] eqn:Ef; [contradiction|]. apply Rmult_integral in H. destruct H as [H|H]; [congruence|].
    revert H. apply not_0_INR. discriminate.
  - intros H. replace (filter (fun t => negb (close0 t)) x) with (@nil R). { cbn. ring. }
    symmetry. induction x as [|t x IH]; auto. cbn. rewrite (proj2 (close0_iff t)) by (apply H; left; auto). cbn. apply IH. intros u Hu. apply H. right. auto.
Qed.
(** entries that are 0 or larger than the tolerance are counted exactly *)
Theorem l0_count : forall lamda x, (forall t, In t x -> t = 0 \/ 1 / 100000000 < Rabs t) ->
  l0 lamda x = lamda * Rsum (map (fun t => if Req_EM_T t 0 then 0 else 1) x).
Proof.
  intros lamda x H. unfold l0. f_equal. induction x as [|t x IH]; auto. cbn [filter map]. rewrite Rsum_cons.
  rewrite <- IH by (intros u Hu; apply H; right; auto). destruct (Req_EM_T t 0) as [->|Ht].
  - rewrite (proj2 (close0_iff 0)). cbn [negb]. ring. rewrite Rabs_R0. lra.
  - destruct (close0 t) eqn:E; cbn [negb].
    + apply close0_iff in E. destruct (H t (or_introl eq_refl)) as [->|G]; [congruence|lra].
    + cbn [length]. rewrite S_INR. ring.
Qed.

Theorem l1_norm : forall lamda x y a, 0 < lamda -> length x = length y ->
  (l1 lamda x = 0 <-> x = repeat 0 (length x)) /\ l1 lamda (vscal a x) = Rabs a * l1 lamda x /\ l1 lamda (vadd x y) <= l1 lamda x + l1 lamda y /\ 0 <= l1 lamda x.
Proof.
  intros lamda x y a Hl L. unfold l1.
  assert (P : forall z, 0 <= Rsum (map Rabs z)). { intros z. apply Rsum_map_nonneg. intros. apply Rabs_pos. }
  split; [|split; [|split]].
  - split.
    + intros H. assert (E : Rsum (map Rabs x) = 0) by nra. clear - E P. induction x as [|v x IH]; auto. cbn [map] in E. rewrite Rsum_cons in E.
      pose proof (Rabs_pos v). pose proof (P x). cbn [length repeat]. rewrite <- IH by lra. f_equal.
      destruct (Req_dec v 0) as [Z|Z]; auto. apply Rabs_pos_lt in Z. lra.
    + intros ->. rewrite (Rsum_map_0 _ Rabs). ring. intros v Hv. apply repeat_spec in Hv. subst v. apply Rabs_R0.
  - unfold vscal. rewrite map_map. rewrite (Rsum_map_ext _ _ (fun v => Rabs a * Rabs v)). rewrite Rsum_map_scal. ring. intros. apply Rabs_mult.
  - assert (Rsum (map Rabs (vadd x y)) <= Rsum (map Rabs x) + Rsum (map Rabs y)); [|nra]. clear - L. unfold vadd.
    revert y L. induction x as [|v x IH]; intros [|w y] L; try discriminate. { cbn. lra. }
    cbn [map2 map]. rewrite !Rsum_cons. specialize (IH y ltac:(cbn in L; lia)). pose proof (Rabs_triang v w). lra.
  - pose proof (P x). nra.
Qed.

(** ** quadric *)
Theorem quadric_reg_zero : forall A b c x, quadric_reg (Some A) (Some b) c x =
    Ok (Rabs (msum (length x) (fun i => msum (length x) (fun j => coord i x * A i j * coord j x)) + dot x b + c)).
Proof.
  intros A b c x. unfold quadric_reg, vmat_t. do 4 f_equal.
  rewrite (dot_sum x _ (length x)) by (auto; rewrite map_length, seq_length; auto). unfold msum. apply (f_equal Rsum).
  apply map_ext_in. intros i Hi. apply in_seq in Hi. rewrite nth_map_seq by lia. rewrite <- Rsum_map_scal. apply (f_equal Rsum).
  apply map_ext. intros j. unfold coord. ring.
Qed.
(** not a distance: in dimension 1, the quadric t^2 - 1 = 0 and the point 2 *)
Lemma quadric_reg_defaults : forall A b c x, A = None \/ b = None -> exists e, quadric_reg A b c x = Err e.
Proof. intros [A|] [b|] c x [H|H]; try discriminate; cbn; eauto. Qed.
Lemma quadric_reg_not_distance : quadric_reg (Some (fun _ _ => 1)) (Some [0]) (-1) [2] = Ok 3 /\
  is_distance (fun y => quadric_reg (Some (fun _ _ => 1)) (Some [0]) (-1) y = Ok 0) [2] 1.
Proof.
  split. { rewrite quadric_reg_zero. f_equal. cbn. unfold coord. cbn. rewrite Rabs_right; lra. } split.
  - exists [1]. split; auto. split. { rewrite quadric_reg_zero. f_equal. cbn. unfold coord. cbn. replace (_ + _) with 0 by lra. apply Rabs_R0. }
    unfold vnorm. replace (sqnorm (vsub [2] [1])) with (1 * 1). apply sqrt_square; lra. unfold sqnorm, dot, vsub. cbn. lra.
  - intros [|t [|]] L Hy; try discriminate. rewrite quadric_reg_zero in Hy.
    match type of Hy with Ok ?a = _ => assert (E : a = 0) by congruence end. clear Hy. cbn in E. unfold coord in E. cbn in E.
    assert (Ht : t * t = 1). { match type of E with Rabs ?a = 0 => assert (E2 : a = 0) by (destruct (Req_dec a 0) as [Z|Z]; auto; apply Rabs_no_R0 in Z; contradiction) end. lra. }
    unfold vnorm. rewrite <- sqrt_1. apply sqrt_le_1; [lra|apply sqnorm_nonneg|]. unfold sqnorm, dot, vsub. cbn. nra.
Qed.
Lemma l0_small : l0 1 [1 / 1000000000] = 0 /\ 1 / 1000000000 <> 0.
Proof.
  split; [|lra]. apply l0_zero_iff. lra. intros t [<-|[]]. rewrite Rabs_right; lra.
Qed.
Lemma plane_case : plane_reg (NVector [3; 4]) 5 [2; 1] = Ok (Fin 1) /\ plane_reg (NScalar 1) 0 [1; 1] = Ok (Fin 2).
Proof.
  split; unfold plane_reg, ntimes; cbn [length Nat.eqb bind nnorm map2 vscal map].
  - assert (E : vnorm [3; 4] = 5). { unfold vnorm. replace (sqnorm [3; 4]) with (5 * 5) by (unfold sqnorm, dot; cbn; lra). apply sqrt_square. lra. }
    rewrite E, fdiv_fin by lra. do 2 f_equal. cbn. rewrite Rabs_right; lra.
  - rewrite Rabs_R1, fdiv_fin by lra. do 2 f_equal. unfold vscal. cbn. rewrite Rabs_right; lra.
Qed.
