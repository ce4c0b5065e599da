(** * Particles of any shape: PolarCBO, the update norm, objectives *)
From Coq Require Import List Arith Bool Reals Lia.
From Verif Require Import Scalar Np RVec Consensus Nd Cbo Polar NdPart NdPartSpec CovFacts NdPartFacts.
Import ListNotations.
Open Scope nat_scope.

(** ** PolarCBO with the Gaussian kernel *)

Section Gauss.
Variables (M N : nat) (dims : list nat).

Lemma gauss_nl_ok : forall kappa x, shape x = M :: N :: dims ->
  exists nl, nd_neg_log KGauss kappa (newaxis1 x) (newaxis2 x) = Ok nl /\ shape nl = [M; N; N] /\
    (forall m i j, m < M -> i < N -> j < N -> get nl [m; i; j] = gauss_nl kappa (point x m j) (point x m i)).
Proof.
  intros kappa x Hx. unfold nd_neg_log.
  rewrite (lift2_ok _ _ _ _ _ _ (M :: N :: N :: dims)).
  2:{ apply bok_bshape. unfold newaxis1, newaxis2. rewrite Hx. cbn. repeat constructor; auto using bdim_same, bdim_1_l, bdim_1_r, bok_refl. }
  cbn [bind]. eexists. split; [reflexivity|]. split; [reflexivity|]. intros m i j Hm Hi Hj.
  cbn [lift1 get sum_from3 shape skipn app]. unfold gauss_nl. f_equal. f_equal. unfold point. rewrite Hx. cbn [skipn].
  rewrite map2_map, map_map. apply map_ext_in. intros ix Hix. apply in_indices in Hix.
  assert (H1 : bget (newaxis1 x) (m :: i :: j :: ix) = get x (m :: j :: ix)).
  { unfold newaxis1. rewrite Hx. rewrite bget_bproj by (cbn; do 3 f_equal; apply inb_len; auto). cbn [shape get bproj map2].
    rewrite bproj_lt by auto. rewrite (bproj_lt N j) by auto. fold (bproj dims ix). rewrite bproj_inb by auto. reflexivity. }
  assert (H2 : bget (newaxis2 x) (m :: i :: j :: ix) = get x (m :: i :: ix)).
  { unfold newaxis2. rewrite Hx. rewrite bget_bproj by (cbn; do 3 f_equal; apply inb_len; auto). cbn [shape get bproj map2].
    rewrite bproj_lt by auto. rewrite (bproj_lt N i) by auto. fold (bproj dims ix). rewrite bproj_inb by auto. reflexivity. }
  rewrite H1, H2. reflexivity.
Qed.

Lemma bproj3_1 : forall m i j, m < M -> bproj [M; 1; 1] [m; i; j] = [m; 0; 0].
Proof. intros. cbn. rewrite bproj_lt by auto. reflexivity. Qed.

Lemma polar_gauss_flat : forall kappa energy x alpha kf, shape energy = [M; N] -> shape x = M :: N :: dims ->
  shape alpha = [M; 1; 1] -> shape kf = [M; 1; 1] ->
  exists c, nd_polar_consensus KGauss kappa energy x alpha kf = Ok c /\ shape c = M :: N :: dims /\
    (forall m n, m < M -> n < N -> point c m n =
       wmean (polar_coeffs (row energy m) (map (fun p => gauss_nl kappa p (point x m n)) (points x m)) (get alpha [m; 0; 0]) (get kf [m; 0; 0])) (points x m)).
Proof.
  intros kappa energy x alpha kf He Hx Ha Hk. unfold nd_polar_consensus.
  destruct (gauss_nl_ok kappa x Hx) as (nl & -> & Hnl & Gnl). cbn [bind].
  rewrite (lift2_ok _ _ _ _ _ _ [M; N; N]).
  2:{ apply bok_bshape. cbn. rewrite Hk, Hnl. repeat constructor; auto using bdim_same, bdim_1_l. }
  cbn [bind]. rewrite (lift2_ok _ _ _ _ _ _ [M; 1; N]).
  2:{ apply bok_bshape. unfold newaxis1. rewrite He, Ha. cbn. repeat constructor; auto using bdim_same, bdim_1_l. }
  cbn [bind]. rewrite (lift2_ok _ _ _ _ _ _ [M; N; N]).
  2:{ apply bok_bshape. cbn. repeat constructor; auto using bdim_same, bdim_1_l, bdim_1_r. }
  cbn [bind]. rewrite (lift2_ok _ _ _ _ _ _ (M :: N :: N :: dims)).
  2:{ apply bok_bshape. unfold newaxis1. cbn. rewrite Hx. cbn. rewrite Nat.sub_0_r. repeat constructor; auto using bdim_same, bdim_1_l, bok_ones. }
  cbn [bind]. eexists. split; [reflexivity|]. split; [reflexivity|]. intros m n Hm Hn.
  rewrite (points_eq M N dims) by auto. rewrite (wmean_points _ (fun j ix => get x (m :: j :: ix))) by lia.
  unfold point at 1. cbn [sum_axis2 shape skipn get]. apply map_ext_in. intros ix Hix. apply in_indices in Hix.
  unfold polar_coeffs. rewrite <- sum_coeffs.
  2:{ unfold row. rewrite He. cbn [nth]. rewrite map_map, map2_map, map_length, seq_length. auto. }
  assert (Hlen : length dims = length ix) by (apply inb_len; auto).
  f_equal. apply map_ext_in. intros j Hj. apply in_seq in Hj. f_equal.
  - unfold newaxis1. rewrite Hx. rewrite bget_bproj by (cbn; lia). cbn [shape get bproj map2].
    rewrite bproj_lt by auto. rewrite (bproj_lt N j) by lia. fold (bproj dims ix). rewrite bproj_inb by auto. reflexivity.
  - rewrite bget_bproj by (cbn; rewrite Hx; cbn; rewrite repeat_length; lia).
    cbn [expand_last shape softmax_last app length get]. rewrite Hx. cbn [length Nat.sub bproj map2 firstn].
    rewrite bproj_lt by auto. rewrite (bproj_lt N n), (bproj_lt N j) by lia. cbn [last removelast app].
    f_equal. f_equal. unfold row. rewrite map_map, He. cbn [nth]. rewrite map2_map. apply map_ext_in. intros l Hl. apply in_seq in Hl.
    rewrite bget_inb by (cbn; repeat constructor; auto; lia). cbn [get].
    rewrite (bget_bproj _ (mknd [M; 1; N] _)) by reflexivity. cbn [shape get bproj map2].
    rewrite bproj_lt by auto. rewrite (bproj_lt N l) by lia. cbn [Nat.eqb]. f_equal; f_equal.
    + rewrite bget_bproj by (cbn; rewrite Hk; auto). cbn [lift1 shape get]. rewrite Hk, bproj3_1 by auto. reflexivity.
    + rewrite bget_inb by (rewrite Hnl; repeat constructor; auto; lia). rewrite Gnl by (auto; lia). unfold point at 1. rewrite Hx. reflexivity.
    + rewrite bget_bproj by (rewrite Ha; auto). rewrite Ha, bproj3_1 by auto. reflexivity.
    + unfold newaxis1. rewrite He. rewrite bget_bproj by reflexivity. cbn [shape get bproj map2]. rewrite bproj_lt by auto. rewrite (bproj_lt N l) by lia. reflexivity.
Qed.

Lemma polar_step_flat : forall k kappa lamda dt sigma energy x alpha kf z, shape energy = [M; N] -> shape x = M :: N :: dims ->
  shape alpha = [M; 1; 1] -> shape kf = [M; 1; 1] -> shape z = M :: N :: dims ->
  exists x', nd_polar_step k KGauss kappa lamda dt sigma energy x alpha kf z = Ok x' /\ shape x' = M :: N :: dims /\
    (forall m n, m < M -> n < N -> point x' m n = moved k lamda dt sigma (point x m n)
       (wmean (polar_coeffs (row energy m) (map (fun p => gauss_nl kappa p (point x m n)) (points x m)) (get alpha [m; 0; 0]) (get kf [m; 0; 0])) (points x m))
       (point z m n)).
Proof.
  intros k kappa lamda dt sigma energy x alpha kf z He Hx Ha Hk Hz. unfold nd_polar_step.
  destruct (polar_gauss_flat kappa energy x alpha kf He Hx Ha Hk) as (c & -> & Hc & Pc). cbn [bind].
  destruct (move_ok M N dims k lamda dt sigma x c z N Hx Hc (or_intror eq_refl) Hz) as (x' & E & Hx' & P).
  exists x'. split; [auto|]. split; [auto|]. intros m n Hm Hn. rewrite P by auto.
  replace (if N =? 1 then 0 else n) with n by (destruct (Nat.eqb_spec N 1); lia). rewrite Pc by auto. reflexivity.
Qed.
End Gauss.

(** on real coordinates this is the kernel of two vectors *)
Lemma fsum_fin : forall l, fsum (map Fin l) = Fin (fold_right Rplus 0%R l).
Proof. induction l; cbn; auto. unfold fsum in IHl. rewrite IHl. reflexivity. Qed.
Lemma gauss_nl_real : forall kappa u v, gauss_nl kappa (map Fin u) (map Fin v) = gauss_neg_log kappa u v.
Proof.
  intros. unfold gauss_nl, gauss_neg_log. f_equal. unfold sqdist, sqnorm, vsub.
  assert (E : map2 fsub (map Fin u) (map Fin v) = map Fin (map2 Rminus u v)).
  { revert v. induction u; intros [|b v]; cbn; auto. rewrite IHu. reflexivity. }
  rewrite E. clear E. induction (map2 Rminus u v) as [|a l IH]; [reflexivity|].
  cbn [map]. unfold fsum in *. cbn [fold_right]. rewrite IH. reflexivity.
Qed.

(** ** PolarCBO with the other kernels *)

Lemma brev_length : forall r1 r2 r, brev r1 r2 = Some r -> length r = Nat.max (length r1) (length r2).
Proof.
  induction r1 as [|a r1 IH]; intros [|b r2] r E; cbn in *; try (injection E as <-; cbn; lia).
  destruct (bdim a b); [|discriminate]. destruct (brev r1 r2) eqn:E'; [|discriminate]. injection E as <-. cbn. rewrite (IH _ _ E'). reflexivity.
Qed.
Lemma lift2_inv : forall A B C (f : A -> B -> C) x y z, lift2 f x y = Ok z -> length (shape z) = Nat.max (length (shape x)) (length (shape y)).
Proof.
  intros A B C f x y z E. unfold lift2 in E. destruct (bshape (shape x) (shape y)) as [s|] eqn:S; [|discriminate]. injection E as <-. cbn.
  unfold bshape in S. destruct (brev (rev (shape x)) (rev (shape y))) as [r|] eqn:S'; [|discriminate]. injection S as <-.
  apply brev_length in S'. rewrite !rev_length in *. auto.
Qed.
Lemma removelast_length : forall A (l : list A), length (removelast l) = length l - 1.
Proof. induction l as [|a [|b l] IH]; cbn in *; auto. rewrite IH. lia. Qed.
Lemma sum_axis2_len : forall x, length (shape x) - 1 <= length (shape (sum_axis2 x)).
Proof. intros x. unfold sum_axis2. destruct (shape x) as [|a [|b [|c r]]] eqn:E; cbn [shape length]; rewrite ?E; cbn; lia. Qed.
Lemma newaxis1_len : forall A (x : nd A), length (shape x) <= length (shape (newaxis1 x)).
Proof. intros. unfold newaxis1. destruct (shape x) eqn:E; cbn; rewrite ?E; cbn; lia. Qed.

Lemma move_len : forall k lamda dt sigma x c z x', nd_move k lamda dt sigma x c z = Ok x' -> length (shape c) <= length (shape x).
Proof.
  intros k lamda dt sigma x c z x' E. unfold nd_move in E.
  destruct (lift2 fsub x c) as [dr|] eqn:E1; [|discriminate]. cbn [bind] in E.
  destruct (nd_noise k dt dr z) as [nz|] eqn:E2; [|discriminate]. cbn [bind] in E.
  destruct (lift2 fadd _ _) as [u|] eqn:E3; [|discriminate]. cbn [bind] in E.
  unfold iadd in E. destruct (lift2 fadd x u) as [w|] eqn:E4; [|discriminate]. cbn [bind] in E.
  destruct (list_eq_dec Nat.eq_dec (shape w) (shape x)) as [W|]; [|discriminate].
  apply lift2_inv in E1, E3, E4. cbn in E3. rewrite W in E4. lia.
Qed.

Lemma polar_other_raises : forall k kn kappa lamda dt sigma energy x alpha kf z,
  kn <> KGauss -> 4 <= length (shape x) -> exists e, nd_polar_step k kn kappa lamda dt sigma energy x alpha kf z = Err e.
Proof.
  intros k kn kappa lamda dt sigma energy x alpha kf z Hk Hx. unfold nd_polar_step.
  destruct (nd_polar_consensus kn kappa energy x alpha kf) as [c|e] eqn:E; [|exists e; reflexivity]. cbn [bind].
  destruct (nd_move k lamda dt sigma x c z) as [x'|e] eqn:E'; [exfalso|exists e; reflexivity].
  apply move_len in E'. unfold nd_polar_consensus in E.
  destruct (nd_neg_log kn kappa (newaxis1 x) (newaxis2 x)) as [nl|] eqn:E1; [|discriminate]. cbn [bind] in E.
  destruct (lift2 fmul (lift1 fopp kf) nl) as [a|] eqn:E2; [|discriminate]. cbn [bind] in E.
  destruct (lift2 fmul alpha (newaxis1 energy)) as [b|] eqn:E3; [|discriminate]. cbn [bind] in E.
  destruct (lift2 fsub a b) as [w|] eqn:E4; [|discriminate]. cbn [bind] in E.
  destruct (lift2 fmul (newaxis1 x) _) as [p|] eqn:E5; [|discriminate]. cbn [bind] in E. injection E as <-.
  pose proof (sum_axis2_len p). apply lift2_inv in E2, E4, E5. cbn in E5. rewrite app_length, repeat_length in E5.
  assert (Hn : length (shape x) <= length (shape nl)).
  { unfold nd_neg_log in E1. destruct (lift2 fsub (newaxis1 x) (newaxis2 x)) as [d|] eqn:E6; [|discriminate]. cbn [bind] in E1.
    apply lift2_inv in E6. assert (S : length (shape nl) = length (shape d) - 1).
    { destruct kn; [congruence| | |]; injection E1 as <-; cbn; apply removelast_length. }
    destruct (shape x) as [|n0 r] eqn:Sx; [cbn in Hx; lia|]. unfold newaxis1 in E6. rewrite Sx in E6. cbn [shape length] in E6. cbn [length]. lia. }
  lia.
Qed.

(** ** The update norm and the mean drift *)

Lemma over_last2_vec : forall f x M N d, shape x = [M; N; d] ->
  exists y, over_last2 f x = Ok y /\ shape y = [M] /\ (forall m, get y [m] = f (concat (points x m))).
Proof.
  intros f x M N d Hx. unfold over_last2. rewrite Hx. cbn [rev app]. eexists. split; [reflexivity|]. split; [reflexivity|].
  intros m. cbn [get app]. f_equal. unfold points, point. rewrite Hx. cbn [nth skipn indices]. rewrite <- flat_map_concat_map.
  generalize (seq 0 N). induction l as [|n l IH]; [reflexivity|]. cbn [flat_map]. rewrite map_app, IH. f_equal. rewrite map_map. reflexivity.
Qed.

Lemma map2_points : forall x y z M N dims m, shape x = M :: N :: dims -> shape y = M :: N :: dims ->
  lift2 fsub x y = Ok z -> m < M -> shape z = M :: N :: dims /\ points z m = map2 (map2 fsub) (points x m) (points y m).
Proof.
  intros x y z M N dims m Hx Hy E Hm. rewrite (lift2_ok _ _ _ _ _ _ (M :: N :: dims)) in E by (apply bok_bshape; rewrite Hx, Hy; apply bok_refl).
  injection E as <-. split; [reflexivity|]. unfold points. rewrite Hx, Hy. cbn [shape nth]. rewrite map2_map. apply map_ext_in. intros n Hn. apply in_seq in Hn.
  unfold point. cbn [shape get]. rewrite Hx, Hy. cbn [skipn]. rewrite map2_map. apply map_ext_in. intros ix Hix. apply in_indices in Hix.
  f_equal; apply bget_inb; rewrite ?Hx, ?Hy; repeat constructor; auto; lia.
Qed.

Lemma update_diff_vec : forall M N d x xo, shape x = [M; N; d] -> shape xo = [M; N; d] ->
  exists u, nd_update_diff N x xo = Ok u /\ shape u = [M] /\
    (forall m, m < M -> get u [m] = fdiv (fnorm (concat (map2 (map2 fsub) (points x m) (points xo m)))) (Fin (INR N))).
Proof.
  intros M N d x xo Hx Ho. unfold nd_update_diff.
  destruct (lift2 fsub x xo) as [df|] eqn:E.
  2:{ rewrite (lift2_ok _ _ _ _ _ _ [M; N; d]) in E by (apply bok_bshape; rewrite Hx, Ho; apply bok_refl). discriminate. }
  cbn [bind].
  assert (Hd : shape df = [M; N; d]).
  { rewrite (lift2_ok _ _ _ _ _ _ [M; N; d]) in E by (apply bok_bshape; rewrite Hx, Ho; apply bok_refl). injection E as <-. reflexivity. }
  destruct (over_last2_vec fnorm df M N d Hd) as (y & -> & Hy & G). cbn [bind]. eexists. split; [reflexivity|]. split; [exact Hy|].
  intros m Hm. cbn [lift1 get]. rewrite G. destruct (map2_points x xo df M N [d] m Hx Ho E Hm) as (_ & ->). reflexivity.
Qed.

Lemma diff_tol_vec : forall M tol u, shape u = [M] -> nd_diff_tol M tol u = Ok (map (fun m => fltb (get u [m]) tol) (seq 0 M)).
Proof.
  intros M tol u Hu. unfold nd_diff_tol, assign_runs. cbn [lift1 shape get]. rewrite Hu.
  assert (S : strip_ones [M] = [M]) by (destruct M as [|[|]]; reflexivity). rewrite S, Nat.eqb_refl. cbn [orb]. f_equal. apply map_ext_in.
  intros m Hm. apply in_seq in Hm. cbn [length Nat.sub repeat app]. destruct (Nat.eqb_spec M 1); auto. do 3 f_equal. lia.
Qed.

Lemma drift_mean_vec : forall M N d drift, shape drift = [M; N; d] ->
  exists u, nd_drift_mean drift = Ok u /\ shape u = [M] /\ (forall m, get u [m] = fmean (map fabs (concat (points drift m)))).
Proof.
  intros M N d drift Hd. unfold nd_drift_mean. destruct (over_last2_vec fmean (lift1 fabs drift) M N d Hd) as (y & E & Hy & G).
  exists y. split; [auto|]. split; [auto|]. intros m. rewrite G. f_equal. unfold points, point. cbn [lift1 shape get]. rewrite concat_map, map_map. f_equal.
  apply map_ext. intros n. rewrite map_map. reflexivity.
Qed.

Lemma update_diff_nd : forall M N dims a b x xo, shape x = M :: N :: dims ++ [a; b] -> shape xo = M :: N :: dims ++ [a; b] ->
  exists u, nd_update_diff N x xo = Ok u /\ shape u = M :: N :: dims.
Proof.
  intros M N dims a b x xo Hx Ho. unfold nd_update_diff.
  rewrite (lift2_ok _ _ _ _ _ _ (M :: N :: dims ++ [a; b])) by (apply bok_bshape; rewrite Hx, Ho; apply bok_refl). cbn [bind].
  unfold over_last2. cbn [shape]. change (M :: N :: dims ++ [a; b]) with ((M :: N :: dims) ++ [a; b]). rewrite rev_app_distr. cbn [rev app].
  eexists. split; [reflexivity|]. cbn [lift1 shape]. rewrite !rev_app_distr, rev_involutive. reflexivity.
Qed.

Lemma drift_mean_nd : forall M N dims a b dr, shape dr = M :: N :: dims ++ [a; b] ->
  exists u, nd_drift_mean dr = Ok u /\ shape u = M :: N :: dims.
Proof.
  intros M N dims a b dr Hx. unfold nd_drift_mean, over_last2. cbn [lift1 shape]. rewrite Hx.
  change (M :: N :: dims ++ [a; b]) with ((M :: N :: dims) ++ [a; b]). rewrite rev_app_distr. cbn [rev app].
  eexists. split; [reflexivity|]. cbn [shape]. rewrite !rev_app_distr, rev_involutive. reflexivity.
Qed.

Lemma strip_big : forall n s, n <> 1 -> strip_ones (n :: s) = n :: s.
Proof. intros [|[|n]] s H; try reflexivity. congruence. Qed.
Lemma diff_tol_nd : forall M N dims tol u, 2 <= M \/ (M = 1 /\ 2 <= N) -> shape u = M :: N :: dims -> nd_diff_tol M tol u = Err ShapeError.
Proof.
  intros M N dims tol u H Hu. unfold nd_diff_tol, assign_runs. cbn [lift1 shape]. rewrite Hu. destruct H as [H|[-> H]].
  - rewrite strip_big by lia. reflexivity.
  - change (strip_ones (1 :: N :: dims)) with (strip_ones (N :: dims)). rewrite strip_big by lia. destruct dims as [|e dims]; [|reflexivity].
    destruct (Nat.eqb_spec N 1); [lia|]. reflexivity.
Qed.

(** ** Objectives *)

Lemma size_app : forall a b, size (a ++ b) = size a * size b.
Proof. unfold size. induction a; intros; cbn [app fold_right]; [lia|]. rewrite IHa. lia. Qed.
Lemma num_eval_nd : forall M N dims d, nd_num_eval (M :: N :: dims ++ [d]) = M * N * size dims.
Proof.
  intros. unfold nd_num_eval. change (M :: N :: dims ++ [d]) with ((M :: N :: dims) ++ [d]). rewrite removelast_last. cbn.
  fold (size dims). lia.
Qed.
Lemma size_pos : forall l, Forall (fun n => 1 <= n) l -> 1 <= size l.
Proof. induction 1; cbn; auto. fold (size l). nia. Qed.

Lemma promoted_vec : forall M N d, 1 <= N -> promoted_shape [M; N; d] = [M; N].
Proof. intros. unfold promoted_shape. cbn. rewrite Nat.mul_1_r, Nat.div_mul by lia. reflexivity. Qed.
Lemma promoted_nd : forall M N dims e d, 1 <= e -> promoted_shape (M :: N :: dims ++ [e; d]) = [M * N * size dims; e].
Proof.
  intros. unfold promoted_shape. replace (M :: N :: dims ++ [e; d]) with ((M :: N :: dims ++ [e]) ++ [d]) by (cbn; rewrite <- app_assoc; reflexivity).
  rewrite removelast_last. change (M :: N :: dims ++ [e]) with ((M :: N :: dims) ++ [e]). rewrite last_last.
  fold (size ((M :: N :: dims) ++ [e])). rewrite size_app. f_equal. cbn. fold (size dims). rewrite Nat.mul_1_r.
  rewrite Nat.div_mul by lia. lia.
Qed.
Lemma accepted_iff : forall s out, dims_accepted s out = true <-> out = firstn 2 s.
Proof. intros. unfold dims_accepted. destruct (list_eq_dec Nat.eq_dec out (firstn 2 s)); split; congruence. Qed.
Lemma promoted_accepted : forall M N dims e d, 1 <= M -> 1 <= N -> Forall (fun n => 1 <= n) dims -> 1 <= e ->
  (dims_accepted (M :: N :: dims ++ [e; d]) (promoted_shape (M :: N :: dims ++ [e; d])) = true <-> N = 1 /\ e = 1 /\ size dims = 1).
Proof.
  intros M N dims e d HM HN Hd He. rewrite accepted_iff, promoted_nd by auto. cbn [firstn]. pose proof (size_pos dims Hd). split.
  - intros E. injection E as E1 E2. assert (N * size dims = 1) by nia. nia.
  - intros (-> & -> & ->). f_equal. lia.
Qed.

(** ** The flattened particle *)

Lemma indices_length : forall dims, length (indices dims) = size dims.
Proof.
  induction dims as [|n r IH]; [reflexivity|]. cbn [indices size fold_right]. fold (size r). generalize (seq 0 n), (seq_length n 0). intros l <-.
  induction l as [|i l IHl]; [reflexivity|]. cbn [flat_map]. rewrite app_length, map_length, IH, IHl. reflexivity.
Qed.
Lemma nth_blocks : forall A (f : nat -> list A) L l i j, (forall a, length (f a) = L) -> i < length l -> j < L ->
  nth_error (flat_map f l) (i * L + j) = nth_error (f (nth i l 0)) j.
Proof.
  intros A f L l. induction l as [|a l IH]; intros i j HL Hi Hj; [cbn in Hi; lia|]. cbn [flat_map]. destruct i as [|i].
  - cbn [nth Nat.mul Nat.add]. apply nth_error_app1. rewrite HL. auto.
  - rewrite nth_error_app2 by (rewrite HL; lia). rewrite HL. replace (S i * L + j - L) with (i * L + j) by lia. cbn in Hi. rewrite IH by (auto; lia). reflexivity.
Qed.
Lemma rank_lt : forall dims ix, inb ix dims -> rank dims ix < size dims.
Proof. induction 1; cbn; auto. fold (size l'). nia. Qed.
Lemma indices_rank : forall dims ix, inb ix dims -> nth_error (indices dims) (rank dims ix) = Some ix.
Proof.
  induction 1 as [|i n ix r Hi H IH]; [reflexivity|]. cbn [indices rank].
  rewrite nth_blocks; [|intros; rewrite map_length; apply indices_length|rewrite seq_length; auto|apply rank_lt; auto].
  rewrite seq_nth by auto. cbn [Nat.add]. apply map_nth_error. auto.
Qed.
Lemma point_rank : forall x m n ix, inb ix (skipn 2 (shape x)) ->
  nth_error (point x m n) (rank (skipn 2 (shape x)) ix) = Some (get x (m :: n :: ix)).
Proof. intros. unfold point. apply map_nth_error with (f := fun ix => get x (m :: n :: ix)). apply indices_rank; auto. Qed.
Lemma point_length : forall x m n, length (point x m n) = size (skipn 2 (shape x)).
Proof. intros. unfold point. rewrite map_length. apply indices_length. Qed.
