(** * Facts on initial particles *)
From Coq Require Import List String Arith Bool Reals Lra Lia ZArith.
From Verif Require Import Scalar Np Nd RVec RVecFacts MatSqrt MatSpec MatFacts MomentSpec MomentFacts PostProc PostFacts Objective ParticleInit ParticleInitSpec.
Import ListNotations.
Open Scope R_scope.
Open Scope string_scope.
Open Scope list_scope.

Lemma uniform_arr : forall svd U Z shp lo hi delta, exists x, init_particles svd U Z shp lo hi delta "uniform" = Ok x /\ shape x = shp /\
  (in_unit U -> forall i, (lo < hi -> lo <= get x i < hi) /\ (lo = hi -> get x i = lo) /\ (hi < lo -> hi < get x i <= lo)).
Proof.
  intros. eexists. split; [reflexivity|]. split; [reflexivity|]. cbn. intros HU i. destruct (HU i). repeat split; intros; nra.
Qed.
Lemma uniform_moments : forall Om (A : average Om) svd U Z shp lo hi delta x, flat A U -> (forall w, init_particles svd (U w) (Z w) shp lo hi delta "uniform" = Ok (x w)) ->
  forall i, mean_is A (fun w => get (x w) i) ((lo + hi) / 2) /\ mean_is A (fun w => (get (x w) i - (lo + hi) / 2) ^ 2) ((hi - lo) ^ 2 / 12).
Proof.
  intros Om A svd U Z shp lo hi delta x F HX i. destruct (F i) as [F1 F2].
  assert (E : forall w, get (x w) i = lo + (hi - lo) * U w i) by (intros w; specialize (HX w); cbn in HX; inversion HX; reflexivity). split.
  - eapply mean_eq; [apply (mean_affine A lo (hi - lo) _ _ F1)| |field]. intros; rewrite E; reflexivity.
  - eapply mean_eq; [apply (avg_add _ A); [apply (mean_affine A ((hi - lo) ^ 2 / 4) (- (hi - lo) ^ 2) _ _ F1)|apply (avg_scal _ A ((hi - lo) ^ 2) _ _ F2)]| |field].
    intros w. rewrite E. field.
Qed.

(** all singular values of delta^2 I are delta^2 *)
Lemma svd_scaled_id : forall d a u s v, 0 <= a -> is_svd d (fun i j => a * mid i j) (u, s, v) -> forall k, (k < d)%nat -> s k = a.
Proof.
  intros d a u s v Ha (HU & HV & HV' & HS & HE) k Hk.
  (* u_ik s_k = a v_ki *)
  assert (UK : forall i, (i < d)%nat -> u i k * s k = a * v k i).
  { intros i Hi. assert (L : msum d (fun j => msum d (fun l => u i l * (s l * v l j)) * v k j) = u i k * s k).
    { rewrite (msum_ext d _ (fun j => msum d (fun l => u i l * s l * (v l j * v k j)))) by (intros; rewrite <- msum_scal_r; apply msum_ext; intros; ring).
      rewrite msum_swap. rewrite (msum_ext d _ (fun l => if Nat.eqb k l then u i l * s l else 0)); [apply msum_delta; auto|].
      intros l Hl. rewrite msum_scal. pose proof (HV l k Hl Hk) as X. unfold mmul, mtr, mid in X. rewrite X. rewrite (Nat.eqb_sym k l). destruct (l =? k)%nat; ring. }
    rewrite <- L. rewrite (msum_ext d _ (fun j => if Nat.eqb i j then a * v k j else 0)).
    - apply (msum_delta d i (fun j => a * v k j)); auto.
    - intros j Hj. rewrite (HE i j Hi Hj). unfold mid. destruct (i =? j)%nat; ring. }
  assert (Q : s k * s k = a * a).
  { assert (N1 : msum d (fun i => u i k * u i k) = 1). { pose proof (HU k k Hk Hk) as X. unfold mmul, mtr, mid in X. rewrite Nat.eqb_refl in X. exact X. }
    assert (N2 : msum d (fun i => v k i * v k i) = 1). { pose proof (HV k k Hk Hk) as X. unfold mmul, mtr, mid in X. rewrite Nat.eqb_refl in X. exact X. }
    transitivity (msum d (fun i => (u i k * s k) * (u i k * s k))).
    - rewrite (msum_ext d _ (fun i => s k * s k * (u i k * u i k))) by (intros; ring). rewrite msum_scal, N1. ring.
    - rewrite (msum_ext d _ (fun i => a * a * (v k i * v k i))) by (intros i Hi; rewrite (UK i Hi); ring). rewrite msum_scal, N2. ring. }
  specialize (HS k Hk). nra.
Qed.

Definition nshape (shp : list nat) : option (nat * nat * nat) := match shp with [M; N; d] => Some (M, N, d) | [N; d] => Some (1%nat, N, d) | _ => None end.

Lemma normal_arr : forall svd U Z shp lo hi delta, svd_ok svd delta ->
  match shp with
  | [_; _; _] | [_; _] => exists x M N d, init_particles svd U Z shp lo hi delta "normal" = Ok x /\ shape x = [M; N; d] /\ (shp = [M; N; d] \/ M = 1%nat /\ shp = [N; d]) /\
      exists v : mat, meq d (mmul d v (mtr v)) mid /\ meq d (mmul d (mtr v) v) mid /\
      forall m n j, (m < M)%nat -> (n < N)%nat -> (j < d)%nat -> get x [m; n; j] = Rabs delta * msum d (fun k => Z [m; n; k] * v k j)
  | _ => init_particles svd U Z shp lo hi delta "normal" = Err RuntimeErr
  end.
Proof.
  intros svd U Z shp lo hi delta HS.
  assert (X : forall d, let '(_, s, v) := svd d (fun i j => delta ^ 2 * eye i j) in meq d (mmul d v (mtr v)) mid /\ meq d (mmul d (mtr v) v) mid /\ forall k, (k < d)%nat -> sqrt (s k) = Rabs delta).
  { intros d. pose proof (HS d) as Q. destruct (svd d _) as [[u s] v]. pose proof Q as (_ & Q2 & Q3 & _). split; auto. split; auto.
    intros k Hk. rewrite (svd_scaled_id d (delta ^ 2) u s v) by (auto; nra). rewrite <- sqrt_Rsqr_abs. f_equal. unfold Rsqr. ring. }
  assert (G : forall M N d, exists x, (let '(_, s, v) := svd d (fun i j => delta ^ 2 * eye i j) in
    Ok (mknd [M; N; d] (fun i => match i with [m; n; j] => 0 + msum d (fun k => Z [m; n; k] * (sqrt (s k) * v k j)) | _ => 0 end))) = Ok x /\ shape x = [M; N; d] /\
    exists v : mat, meq d (mmul d v (mtr v)) mid /\ meq d (mmul d (mtr v) v) mid /\
      forall m n j, (m < M)%nat -> (n < N)%nat -> (j < d)%nat -> get x [m; n; j] = Rabs delta * msum d (fun k => Z [m; n; k] * v k j)).
  { intros M N d. specialize (X d). destruct (svd d _) as [[u s] v]. destruct X as (V1 & V2 & V3). eexists. split; [reflexivity|]. split; [reflexivity|]. exists v. split; auto. split; auto.
    intros m n j _ _ _. cbn [get]. rewrite Rplus_0_l, <- msum_scal. apply msum_ext. intros k Hk. rewrite V3 by auto. ring. }
  destruct shp as [|a [|b [|e [|]]]]; try reflexivity.
  - destruct (G 1%nat a b) as (x & E & S1 & R). exists x, 1%nat, a, b. split; [exact E|]. split; auto.
  - destruct (G a b e) as (x & E & S1 & R). exists x, a, b, e. split; [exact E|]. split; auto.
Qed.

(** lengths are scaled by |delta| *)
Lemma ortho_norm : forall d (v : mat) z, meq d (mmul d v (mtr v)) mid -> msum d (fun j => msum d (fun k => z k * v k j) ^ 2) = msum d (fun k => z k ^ 2).
Proof.
  intros d v z HV. rewrite (msum_ext d _ (fun j => msum d (fun k => msum d (fun l => z k * z l * (v k j * v l j))))).
  - rewrite msum_swap. rewrite (msum_ext d _ (fun k => msum d (fun l => if Nat.eqb k l then z k * z l else 0))).
    + apply msum_ext. intros k Hk. rewrite (msum_delta d k (fun l => z k * z l)) by auto. ring.
    + intros k Hk. rewrite msum_swap. apply msum_ext. intros l Hl. rewrite msum_scal. pose proof (HV k l Hk Hl) as X. unfold mmul, mtr, mid in X. rewrite X. destruct (k =? l)%nat; ring.
  - intros j Hj. cbn [pow]. rewrite Rmult_1_r, <- msum_scal_r. apply msum_ext. intros k Hk. rewrite <- msum_scal. apply msum_ext. intros; ring.
Qed.

Lemma mean_msum : forall Om (A : average Om) d (g : nat -> Om -> R) r, (forall i, (i < d)%nat -> mean_is A (g i) (r i)) -> mean_is A (fun w => msum d (fun i => g i w)) (msum d r).
Proof. intros. unfold msum. apply mean_sum. intros i Hi. apply H. apply in_seq in Hi. lia. Qed.

Lemma normal_moments : forall Om (A : average Om) svd U Z shp lo hi delta x M N d, svd_ok svd delta -> standard A [M; N; d] Z -> (forall w, init_particles svd (U w) (Z w) shp lo hi delta "normal" = Ok (x w)) ->
  (shp = [M; N; d] \/ M = 1%nat /\ shp = [N; d]) -> forall m n m' n' i j, (m < M)%nat -> (n < N)%nat -> (m' < M)%nat -> (n' < N)%nat -> (i < d)%nat -> (j < d)%nat ->
  mean_is A (fun w => get (x w) [m; n; i]) 0 /\
  mean_is A (fun w => get (x w) [m; n; i] * get (x w) [m'; n'; j]) (if list_eq_dec Nat.eq_dec [m; n; i] [m'; n'; j] then delta ^ 2 else 0).
Proof.
  intros Om A svd U Z shp lo hi delta x M N d HS ST HX HSH m n m' n' i j Hm Hn Hm' Hn' Hi Hj.
  pose proof (HS d) as Q. destruct (svd d (fun i j => delta ^ 2 * eye i j)) as [[u s] v] eqn:ES.
  assert (SD : forall k, (k < d)%nat -> sqrt (s k) = Rabs delta).
  { intros k Hk. rewrite (svd_scaled_id d (delta ^ 2) u s v) by (auto; nra). rewrite <- sqrt_Rsqr_abs. f_equal. unfold Rsqr. ring. }
  destruct Q as (_ & Q2 & Q3 & _).
  assert (E : forall w a b c, get (x w) [a; b; c] = msum d (fun k => Rabs delta * v k c * Z w [a; b; k])).
  { intros w a b c. specialize (HX w). unfold init_particles in HX. cbn [String.eqb Ascii.eqb Bool.eqb] in HX.
    assert (HX' : Ok (mknd [M; N; d] (fun i => match i with [m; n; j] => 0 + msum d (fun k => Z w [m; n; k] * (sqrt (s k) * v k j)) | _ => 0 end)) = Ok (x w)).
    { destruct HSH as [->|[-> ->]]; cbn [bind] in HX; rewrite ES in HX; exact HX. }
    inversion HX' as [X]. cbn [get]. rewrite Rplus_0_l. apply msum_ext. intros k Hk. rewrite SD by auto. ring. }
  split.
  - eapply mean_eq; [apply (mean_msum Om A d (fun k w => Rabs delta * v k i * Z w [m; n; k]) (fun k => Rabs delta * v k i * 0))| |].
    + intros k Hk. apply (avg_scal _ A). apply (ST [m; n; k] [m; n; k]); cbn; auto.
    + intros w. rewrite E. reflexivity.
    + apply msum_zero. intros; ring.
  - set (same := if list_eq_dec Nat.eq_dec [m; n] [m'; n'] then 1 else 0).
    eapply mean_eq; [apply (mean_msum Om A d (fun k w => msum d (fun l => Rabs delta * v k i * (Rabs delta * v l j) * (Z w [m; n; k] * Z w [m'; n'; l])))
      (fun k => msum d (fun l => Rabs delta * v k i * (Rabs delta * v l j) * (if list_eq_dec Nat.eq_dec [m; n; k] [m'; n'; l] then 1 else 0))))| |].
    + intros k Hk. apply (mean_msum Om A d (fun l w => _) (fun l => _)). intros l Hl. apply (avg_scal _ A). apply (ST [m; n; k] [m'; n'; l]); cbn; auto.
    + intros w. rewrite !E. rewrite <- msum_scal_r. apply msum_ext. intros k Hk. rewrite <- msum_scal. apply msum_ext. intros; ring.
    + rewrite (msum_ext d _ (fun k => same * delta ^ 2 * (v k i * v k j))).
      * rewrite msum_scal. pose proof (Q3 i j Hi Hj) as X. unfold mmul, mtr, mid in X. rewrite X. unfold same.
        destruct (list_eq_dec Nat.eq_dec [m; n] [m'; n']) as [e|ne]; destruct (list_eq_dec Nat.eq_dec [m; n; i] [m'; n'; j]) as [e'|ne']; destruct (Nat.eqb_spec i j); try ring; exfalso; first [apply ne'; inversion e; subst; auto; fail | apply ne; inversion e'; subst; auto; fail | inversion e'; auto; fail].
      * intros k Hk. rewrite (msum_ext d _ (fun l => if Nat.eqb k l then same * delta ^ 2 * (v l i * v l j) else 0)); [rewrite (msum_delta d k (fun l => same * delta ^ 2 * (v l i * v l j))) by auto; reflexivity|].
        intros l Hl. unfold same. replace (delta ^ 2) with (Rabs delta * Rabs delta) by (rewrite <- Rabs_mult, Rabs_right by nra; ring).
        destruct (Nat.eqb_spec k l); [subst l|]; destruct (list_eq_dec Nat.eq_dec [m; n] [m'; n']) as [e|ne]; (destruct (list_eq_dec Nat.eq_dec [m; n; k] [m'; n'; _]) as [e'|ne']); try ring; exfalso; first [apply ne'; inversion e; subst; auto; fail | apply ne; inversion e'; subst; auto; fail | inversion e'; auto; fail].
Qed.

Lemma unknown_method : forall svd U Z shp lo hi delta meth, meth <> "uniform" -> meth <> "normal" -> init_particles svd U Z shp lo hi delta meth = Err RuntimeErr.
Proof. intros. unfold init_particles. destruct (String.eqb_spec meth "uniform"); [contradiction|]. destruct (String.eqb_spec meth "normal"); [contradiction|]. reflexivity. Qed.

(** the ensemble of the dynamic *)
Lemma init_ensemble : forall svd U Z shp lo hi delta meth x M N d M0 N0 d0 gen, init_particles svd U Z shp lo hi delta meth = Ok x ->
  (shp = [M; N; d] \/ M = 1%nat /\ shp = [N; d]) -> exists X, init_x (Some x) M0 N0 d0 gen = Ok (X, M, N, [d]) /\ shape X = [M; N; d].
Proof.
  intros svd U Z shp lo hi delta meth x M N d M0 N0 d0 gen HX HS. unfold init_particles in HX.
  assert (SH : shape x = shp \/ shape x = [M; N; d]).
  { destruct (String.eqb meth "uniform"); [inversion HX; left; reflexivity|]. destruct (String.eqb meth "normal"); [|discriminate]. right.
    destruct HS as [->|[-> ->]]; cbn [bind] in HX; destruct (svd d _) as [[u s] v]; inversion HX; reflexivity. }
  unfold init_x. destruct HS as [->|[-> ->]]; destruct SH as [SH|SH]; rewrite SH; cbn [bind shape]; rewrite ?SH; eexists; split; reflexivity || exact SH.
Qed.

Lemma own_arr : forall U M N d, shape (own_particles U M N d) = [M; N; d] /\ (in_unit U -> forall i, -1 <= get (own_particles U M N d) i < 1).
Proof. intros. split; [reflexivity|]. intros H i. cbn. destruct (H i). lra. Qed.

Lemma torch_pp : forall dmax t a, 0 <= t <= dmax -> exists x, pp_torch dmax t a = Fin x /\ - t <= x <= t /\
  match a with NaN => x = t | PInf => x = t | NInf => x = - t | Fin y => x = Rmax (- t) (Rmin t y) end.
Proof.
  intros dmax t a [H1 H2]. unfold pp_torch. assert (B : forall y, - t <= Rmax (- t) (Rmin t y) <= t) by (intros; mm).
  destruct a as [y| | |]; rewrite np_clip_fin by auto; eexists; (split; [reflexivity|]); (split; [apply B|]); auto; mm.
Qed.
Lemma torch_pp_numpy : forall dmax t a, 0 <= t <= dmax -> t <= float_max -> pp_torch dmax t a = pp_default t false a.
Proof.
  intros dmax t a H H'. destruct (torch_pp dmax t a H) as (x & -> & _ & Hx). destruct (pp_default_spec t a) as (y & -> & _ & Hy); [lra|]. f_equal. destruct a; congruence.
Qed.
Lemma torch_pp_large : forall dmax t, 0 <= dmax < t -> pp_torch dmax t PInf = Fin dmax /\ pp_torch dmax t NaN = Fin t.
Proof. intros dmax t H. unfold pp_torch. rewrite !np_clip_fin by lra. split; f_equal; mm. Qed.
