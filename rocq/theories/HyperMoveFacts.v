(** * The moves of HyperSurfaceCBO *)
From Coq Require Import List Arith Bool Reals Lra Lia.
From Verif Require Import Scalar Np NpFacts State Pdyn Exec PdynFacts RVec RVecFacts ConsSpec ConsFacts PolarFacts RegFacts Consensus Cbo CboSpec CboFacts AbsorbFacts PostProc MatSqrt MatSpec MatFacts MemSpec
  Variant VarSpec VarFacts VarMove MirrorSpec MirrorFacts MirrorProj MirrorStiefel HyperMaps HyperSpec HyperFacts MomentSpec MomentFacts HyperRun HyperMoveSpec.
Import ListNotations.
Open Scope R_scope.

(** ** on the unit sphere *)
Definition ptan (x z : list R) : list R := vsub z (vscal (dot x z) x).
Definition rcorr (k : noise_model) (sg : R) (x u : list R) : list R :=
  match k with
  | NAniso => map2 (fun ui xi => sg * sg / 2 * (sqnorm u + ui * ui - 2 * (dot u x * dot u x)) * xi) u x
  | _ => vscal (sg * sg / 2 * (INR (length x) - 1) * sqnorm u) x
  end.
Lemma length_ptan : forall x z d, length x = d -> length z = d -> length (ptan x z) = d.
Proof. intros. apply length_vsub; auto. rewrite length_vscal. auto. Qed.
Lemma length_rcorr : forall k sg x u d, length x = d -> length u = d -> length (rcorr k sg x u) = d.
Proof. intros k sg x u d H1 H2. destruct k; cbn; rewrite ?length_vscal; auto. rewrite map2_length. lia. Qed.

Lemma sphere_nc : forall k dt sg x u, vnorm x = 1 -> length u = length x ->
  h_nc (surface_of SphereD k) (Fin dt) (Fin sg) (floats x) (floats u) = floats (vscal dt (rcorr k sg x u)).
Proof.
  intros k dt sg x u Hx Hu. assert (I : h_nc (surface_of SphereD NIso) (Fin dt) (Fin sg) (floats x) (floats u) = floats (vscal dt (rcorr NIso sg x u))).
  { cbn [surface_of h_nc]. unfold nc_iso. rewrite sphere_grad_fin by lra. cbn [sdf_lap]. rewrite !fnorm_floats, Hx. unfold floats at 1. rewrite map_length.
    cbn [fmul kmul KOps_R]. rewrite !fdiv_fin by lra. cbn [fmul kmul KOps_R]. rewrite floats_scal. f_equal. unfold sphere_normal, rcorr, vscal. rewrite Hx, !map_map. apply map_ext. intros a.
    rewrite <- vnorm_sq. field. }
  destruct k; try exact I. cbn [surface_of h_nc]. unfold nc_aniso. rewrite fnorm_floats, floats_mul. unfold floats at 3. rewrite fsum_fin. fold (dot u x).
  unfold rcorr. rewrite <- vnorm_sq. clear. generalize (vnorm u) (dot u x). intros a b. unfold floats, vscal. revert x. induction u as [|u0 u IH]; destruct x as [|x0 x]; cbn [map map2]; auto.
  f_equal; [|apply IH]. cbn [fmul kmul KOps_R fadd fsub kadd ksub]. rewrite fdiv_fin by lra. cbn. f_equal. field.
Qed.

Lemma sphere_tilde : forall k dt sg x cp z d, 0 <= dt -> vnorm x = 1 -> length x = d -> length cp = d -> length z = d ->
  x_tilde SphereD k (Fin dt) (Fin sg) (floats x) (floats cp) (floats z) =
  floats (vsub (vadd x (ptan x (vadd (vscal dt cp) (vscal sg (rnoise k dt (vsub x cp) z))))) (vscal dt (rcorr k sg x (vsub x cp)))).
Proof.
  intros k dt sg x cp z d Hdt Hx Lx Lc Lz. unfold x_tilde. rewrite floats_sub, noise_floats, !floats_scal, floats_add by auto.
  rewrite sphere_nc by (rewrite ?(length_vsub x cp d); auto; congruence).
  rewrite (tan_fin SphereD x _ x), floats_add, floats_sub; [reflexivity|discriminate|].
  rewrite sphere_grad_fin by lra. unfold sphere_normal. rewrite Hx. f_equal. unfold vscal. rewrite <- (map_id x) at 2. apply map_ext. intros; field.
Qed.

Lemma dot_coords : forall u v d, length u = d -> length v = d -> dot u v = Rsum (map (fun i => coord i u * coord i v) (seq 0 d)).
Proof. intros. apply dot_sum; auto. Qed.

Section Mean.
  Context {Om : Type} (A : average Om).
  (** mean of |y + P w|^2 for uncorrelated w *)
  Lemma mean_tangent : forall x y d (xi : Om -> list R) (h : nat -> R), sqnorm x = 1 -> length x = d -> length y = d -> white A d 1 xi ->
    let w := fun o => map (fun i => h i * coord i (xi o)) (seq 0 d) in
    mean_is A (fun o => sqnorm (vadd y (ptan x (w o)))) (sqnorm y + Rsum (map (fun i => h i * h i * (1 - coord i x * coord i x)) (seq 0 d))).
  Proof.
    intros x y d xi h Hx Lx Ly (HL & H1 & H2) w.
    assert (Lw : forall o, length (w o) = d) by (intros; unfold w; rewrite map_length, seq_length; auto).
    assert (Cw : forall o i, (i < d)%nat -> coord i (w o) = h i * coord i (xi o)) by (intros o i Hi; unfold w, coord; rewrite nth_map_seq by auto; auto).
    assert (E : forall o, sqnorm (vadd y (ptan x (w o))) = sqnorm y + (Rsum (map (fun i => (2 * (coord i y - dot x y * coord i x) * h i) * coord i (xi o)) (seq 0 d)) +
       (Rsum (map (fun i => h i * h i * (coord i (xi o) * coord i (xi o))) (seq 0 d)) + -1 * Rsum (map (fun i => Rsum (map (fun j => (coord i x * h i * (coord j x * h j)) * (coord i (xi o) * coord j (xi o))) (seq 0 d))) (seq 0 d))))).
    { intros o. set (v := w o). assert (Lv : length v = d) by apply Lw. assert (Lp : length (ptan x v) = d) by (apply length_ptan; auto).
      assert (E1 : sqnorm (vadd y (ptan x v)) = sqnorm y + 2 * (dot y v - dot x y * dot x v) + (sqnorm v - dot x v * dot x v)).
      { unfold sqnorm at 1. rewrite dot_vadd_l, !dot_vadd_r by congruence. unfold ptan.
        rewrite !dot_vsub_l, !dot_vsub_r by (rewrite ?length_vsub with (d := d); rewrite ?length_vscal; congruence).
        rewrite !dot_vscal_l, !dot_vscal_r. fold (sqnorm y) (sqnorm v) (sqnorm x). rewrite Hx, (dot_comm v y), (dot_comm y x), (dot_comm v x). ring. }
      rewrite E1. assert (D : forall r, length r = d -> dot r v = Rsum (map (fun i => coord i r * h i * coord i (xi o)) (seq 0 d))).
      { intros r Hr. rewrite (dot_coords r v d) by auto. apply Rsum_map_ext. intros i Hi. apply in_seq in Hi. unfold v. rewrite Cw by lia. ring. }
      rewrite (sqnorm_coords v d) by auto. rewrite !D by auto. rewrite Rplus_assoc. f_equal. f_equal.
      - rewrite <- !Rsum_map_scal, <- Rsum_map_minus, <- Rsum_map_scal. apply Rsum_map_ext. intros. ring.
      - unfold Rminus. f_equal.
        + apply Rsum_map_ext. intros i Hi. apply in_seq in Hi. unfold v. rewrite Cw by lia. ring.
        + match goal with |- _ = -1 * ?r => transitivity (- r); [f_equal|ring] end. rewrite <- Rsum_map_scal. apply Rsum_map_ext. intros i Hi.
          rewrite Rmult_comm, <- Rsum_map_scal. apply Rsum_map_ext. intros j Hj. ring. }
    eapply mean_eq; [|intros o; symmetry; apply E|reflexivity]. apply (avg_add _ A); [apply (avg_const _ A)|].
    eapply mean_eq. { apply (avg_add _ A).
      - apply (mean_sum A (fun i o => 2 * (coord i y - dot x y * coord i x) * h i * coord i (xi o)) (fun i => 2 * (coord i y - dot x y * coord i x) * h i * 0) (seq 0 d)).
        intros i Hi. apply in_seq in Hi. apply (avg_scal _ A). apply H1. lia.
      - apply (avg_add _ A).
        + apply (mean_sum A (fun i o => h i * h i * (coord i (xi o) * coord i (xi o))) (fun i => h i * h i * (if (i =? i)%nat then 1 else 0)) (seq 0 d)).
          intros i Hi. apply in_seq in Hi. apply (avg_scal _ A). apply H2; lia.
        + apply (avg_scal _ A (-1)). apply (mean_sum A (fun i o => Rsum (map (fun j => (coord i x * h i * (coord j x * h j)) * (coord i (xi o) * coord j (xi o))) (seq 0 d)))
            (fun i => Rsum (map (fun j => (coord i x * h i * (coord j x * h j)) * (if (i =? j)%nat then 1 else 0)) (seq 0 d))) (seq 0 d)).
          intros i Hi. apply in_seq in Hi. apply (mean_sum A (fun j o => (coord i x * h i * (coord j x * h j)) * (coord i (xi o) * coord j (xi o))) (fun j => (coord i x * h i * (coord j x * h j)) * (if (i =? j)%nat then 1 else 0)) (seq 0 d)).
          intros j Hj. apply in_seq in Hj. apply (avg_scal _ A). apply H2; lia. }
    - reflexivity.
    - rewrite (Rsum_map_ext _ (fun i => Rsum (map (fun j => coord i x * h i * (coord j x * h j) * (if (i =? j)%nat then 1 else 0)) (seq 0 d))) (fun i => coord i x * h i * (coord i x * h i))).
      + rewrite <- !Rsum_map_scal, <- !Rsum_map_plus. apply Rsum_map_ext. intros i Hi. rewrite Nat.eqb_refl. ring.
      + intros i Hi. apply in_seq in Hi. destruct Hi as [_ Hi]. cbn in Hi. set (g := fun j => coord i x * h i * (coord j x * h j)). change (Rsum (map (fun j => g j * (if (i =? j)%nat then 1 else 0)) (seq 0 d)) = g i).
        assert (G : forall n o, (o <= i < o + n)%nat -> Rsum (map (fun j => g j * (if (i =? j)%nat then 1 else 0)) (seq o n)) = g i).
        { assert (Z : forall n o, (i < o)%nat -> Rsum (map (fun j => g j * (if (i =? j)%nat then 1 else 0)) (seq o n)) = 0).
          { intros n o Ho. apply Rsum_map_0. intros j Hj. apply in_seq in Hj. destruct (Nat.eqb_spec i j); [lia|ring]. }
          induction n as [|n IH]; intros o Ho; [lia|]. cbn [seq map]. rewrite Rsum_cons. destruct (Nat.eqb_spec i o) as [->|N].
          - rewrite Z by lia. ring.
          - rewrite IH by lia. ring. }
        apply (G d 0%nat). lia.
  Qed.
End Mean.

Lemma strength_sq : forall k u i, (match k with NConst => 1 | NIso => vnorm u | NAniso => coord i u end) * (match k with NConst => 1 | NIso => vnorm u | NAniso => coord i u end) = strength k u i.
Proof. intros [] u i; cbn; try ring. apply vnorm_sq. Qed.

Lemma sum_sq : forall x d, length x = d -> Rsum (map (fun i => coord i x * coord i x) (seq 0 d)) = sqnorm x.
Proof. intros. symmetry. apply sqnorm_coords. auto. Qed.
Lemma sum_const : forall r d, Rsum (map (fun _ : nat => r) (seq 0 d)) = INR d * r.
Proof. intros. rewrite Rsum_map_const, seq_length. auto. Qed.

Lemma spread_tangent_eq : forall k x u d, length x = d -> length u = d -> sqnorm x = 1 ->
  spread_tangent k x u = match k with NConst => INR d - 1 | NIso => sqnorm u * (INR d - 1) | NAniso => sqnorm u - weighted u x end.
Proof.
  intros k x u d Lx Lu Hx. unfold spread_tangent, weighted. rewrite Lx. destruct k; cbn [strength].
  - rewrite (Rsum_map_ext _ _ (fun i => 1 - coord i x * coord i x)) by (intros; ring). rewrite Rsum_map_minus, sum_const, sum_sq by auto. lra.
  - rewrite Rsum_map_scal, Rsum_map_minus, sum_const, sum_sq by auto. rewrite Hx. ring.
  - rewrite (Rsum_map_ext _ _ (fun i => coord i u * coord i u - coord i u * coord i u * (coord i x * coord i x))) by (intros; ring).
    rewrite Rsum_map_minus, sum_sq by auto. auto.
Qed.

Lemma dot_rcorr : forall k sg x u d, length x = d -> length u = d -> sqnorm x = 1 ->
  2 * dot x (rcorr k sg x u) = sg * sg * match k with NAniso => sqnorm u + weighted u x - 2 * (dot u x * dot u x) | _ => (INR d - 1) * sqnorm u end.
Proof.
  intros k sg x u d Lx Lu Hx. assert (I : 2 * dot x (rcorr NIso sg x u) = sg * sg * ((INR d - 1) * sqnorm u)).
  { unfold rcorr. rewrite dot_vscal_r. fold (sqnorm x). rewrite Hx, Lx. field. }
  destruct k; try exact I. clear I. rewrite (dot_coords x _ d) by (auto; apply length_rcorr; auto).
  rewrite (Rsum_map_ext _ _ (fun i => sg * sg / 2 * (sqnorm u - 2 * (dot u x * dot u x)) * (coord i x * coord i x) + sg * sg / 2 * (coord i u * coord i u * (coord i x * coord i x)))).
  - rewrite Rsum_map_plus, !Rsum_map_scal, sum_sq by auto. unfold weighted. rewrite Hx, Lx. field.
  - intros i Hi. apply in_seq in Hi. replace (coord i (rcorr NAniso sg x u)) with (sg * sg / 2 * (sqnorm u + coord i u * coord i u - 2 * (dot u x * dot u x)) * coord i x).
    ring. unfold rcorr, coord. symmetry. rewrite (nth_map2 _ _ _ _ u x i 0 0 0) by lia. reflexivity.
Qed.

Theorem sphere_mean : forall k sg x cp d, vnorm x = 1 -> length x = d -> length cp = d -> exists C, 0 <= C /\
  forall dt Om (A : average Om) xi, 0 <= dt -> white A d 1 xi -> exists q, (forall w, x_tilde SphereD k (Fin dt) (Fin sg) (floats x) (floats cp) (floats (xi w)) = floats (q w)) /\
    mean_is A (fun w => sqnorm (q w)) (1 + dt * sg ^ 2 * defect k x (vsub x cp) + dt ^ 2 * C).
Proof.
  intros k sg x cp d Hx Lx Lc. assert (Sx : sqnorm x = 1) by (rewrite <- vnorm_sq, Hx; ring). set (u := vsub x cp). assert (Lu : length u = d) by (apply length_vsub; auto).
  set (e := vsub (ptan x cp) (rcorr k sg x u)). assert (Le : length e = d) by (apply length_vsub; [apply length_ptan|apply length_rcorr]; auto).
  exists (sqnorm e). split; [apply sqnorm_nonneg|]. intros dt Om A xi Hdt HW. pose proof HW as (HL & _ & _).
  eexists (fun w => _). split; [intros w; apply (sphere_tilde k dt sg x cp (xi w) d); auto|]. fold u.
  set (h := fun i => sg * sqrt dt * match k with NConst => 1 | NIso => vnorm u | NAniso => coord i u end).
  set (y := vadd x (vscal dt e)). assert (Ly : length y = d) by (apply length_vadd; auto; rewrite length_vscal; auto).
  assert (SD : sqrt dt * sqrt dt = dt) by (apply sqrt_def; auto).
  eapply mean_eq; [apply (mean_tangent A x y d xi h Sx Lx Ly HW)| |].
  - intros w. cbn beta. f_equal. set (v := map _ _).
    assert (Ev : v = vscal sg (rnoise k dt u (xi w))).
    { apply (coord_ext _ _ d); [unfold v; rewrite map_length, seq_length; auto|rewrite length_vscal; apply length_rnoise; auto|].
      intros i Hi. rewrite coord_vscal, (noise_coord _ _ _ _ _ d) by auto. unfold v, coord at 1. rewrite nth_map_seq by auto. unfold h. ring. }
    rewrite Ev. set (r := vscal sg _). assert (Lr : length r = d) by (unfold r; rewrite length_vscal; apply length_rnoise; auto).
    apply (coord_ext _ _ d); [apply length_vadd; auto; apply length_ptan; auto|apply length_vsub; [apply length_vadd; auto; apply length_ptan; auto; apply length_vadd; rewrite ?length_vscal; auto|rewrite length_vscal; apply length_rcorr; auto]|].
    intros i Hi. assert (Lcc : length (vadd (vscal dt cp) r) = d) by (apply length_vadd; rewrite ?length_vscal; auto).
    rewrite coord_vsub by (rewrite (length_vadd _ _ d); rewrite ?length_vscal, ?(length_rcorr _ _ _ _ d), ?(length_ptan _ _ d); auto).
    rewrite !coord_vadd by (rewrite ?(length_ptan _ _ d); auto; congruence). unfold y. rewrite coord_vadd by (rewrite length_vscal; congruence). rewrite !coord_vscal.
    unfold e. rewrite coord_vsub by (rewrite (length_ptan _ _ d), (length_rcorr _ _ _ _ d); auto). unfold ptan.
    rewrite !coord_vsub by (rewrite ?length_vscal; congruence). rewrite coord_vadd by (rewrite length_vscal; congruence). rewrite !coord_vscal, dot_vadd_r by (rewrite length_vscal; congruence). rewrite dot_vscal_r. ring.
  - assert (EY : sqnorm y = 1 - dt * (2 * dot x (rcorr k sg x u)) + dt ^ 2 * sqnorm e).
    { unfold y, sqnorm at 1. rewrite dot_vadd_l, !dot_vadd_r by (rewrite ?length_vscal; congruence). rewrite !dot_vscal_l, !dot_vscal_r. fold (sqnorm x) (sqnorm e). rewrite Sx, (dot_comm e x).
      assert (Ex : dot x e = - dot x (rcorr k sg x u)). { unfold e. rewrite dot_vsub_r by (rewrite (length_ptan _ _ d), (length_rcorr _ _ _ _ d); auto). unfold ptan. rewrite dot_vsub_r by (rewrite length_vscal; congruence). rewrite dot_vscal_r. fold (sqnorm x). rewrite Sx. ring. }
      rewrite Ex. ring. }
    rewrite EY, (dot_rcorr k sg x u d) by auto.
    replace (Rsum (map (fun i => h i * h i * (1 - coord i x * coord i x)) (seq 0 d))) with (sg ^ 2 * dt * spread_tangent k x u).
    + rewrite (spread_tangent_eq k x u d) by auto. unfold defect. fold u. rewrite Lx. destruct k; ring.
    + unfold spread_tangent. rewrite Lx, <- Rsum_map_scal. apply Rsum_map_ext. intros i _. rewrite <- strength_sq. unfold h. set (r := match k with NConst => _ | _ => _ end). transitivity (sg ^ 2 * (sqrt dt * sqrt dt) * (r * r * (1 - coord i x * coord i x))); [rewrite SD; ring|ring].
Qed.

(** ** states of consensus *)
Lemma coord_zeros : forall i n, coord i (repeat 0 n) = 0.
Proof. intros i n. unfold coord. revert i. induction n; destruct i; cbn; auto. Qed.
Lemma vsub_zeros : forall p, vsub p p = repeat 0 (length p).
Proof. intros. apply (coord_ext _ _ (length p)); [apply length_vsub; auto|apply repeat_length|]. intros. rewrite coord_vsub_self, coord_zeros. auto. Qed.
Lemma sqnorm_zeros : forall n, sqnorm (repeat 0 n) = 0.
Proof. induction n; [reflexivity|]. cbn [repeat]. rewrite sqnorm_cons, IHn. ring. Qed.
Lemma vnorm_zeros : forall n, vnorm (repeat 0 n) = 0.
Proof. intros. unfold vnorm. rewrite sqnorm_zeros. apply sqrt_0. Qed.
Lemma dot_zeros : forall n x, dot (repeat 0 n) x = 0.
Proof. induction n; destruct x; auto. cbn [repeat]. rewrite dot_cons, IHn. ring. Qed.
Lemma vadd_zeros : forall p n, length p = n -> vadd p (repeat 0 n) = p.
Proof. intros p n H. apply (coord_ext _ _ n); auto; [apply length_vadd; auto; apply repeat_length|]. intros. rewrite coord_vadd, coord_zeros by (rewrite repeat_length; auto). ring. Qed.
Lemma vsub_zeros_r : forall p n, length p = n -> vsub p (repeat 0 n) = p.
Proof. intros p n H. apply (coord_ext _ _ n); auto; [apply length_vsub; auto; apply repeat_length|]. intros. rewrite coord_vsub, coord_zeros by (rewrite repeat_length; auto). ring. Qed.

(** the correction vanishes where the drift does *)
Lemma nc_zeros : forall sd k d dt sg p, surface_ok sd d -> on_surface sd p -> length p = d ->
  h_nc (surface_of sd k) (Fin dt) (Fin sg) (floats p) (floats (repeat 0 d)) = floats (repeat 0 d).
Proof.
  intros sd k d dt sg p [Hd OK] Hp Lp. assert (Z : forall l g, length g = d -> map (fmul (fmul (fmul (fdiv (fmul (Fin dt) (fmul (Fin sg) (Fin sg))) (Fin 2)) (Fin l)) (fmul (Fin 0) (Fin 0)))) (floats g) = floats (repeat 0 d)).
  { intros l g Hg. cbn [fmul kmul KOps_R]. rewrite fdiv_fin by lra. cbn [fmul kmul KOps_R]. rewrite floats_scal. f_equal. apply (coord_ext _ _ d); [rewrite length_vscal; auto|apply repeat_length|]. intros. rewrite coord_vscal, coord_zeros. ring. }
  assert (I : nc_iso sd (Fin dt) (Fin sg) (floats p) (floats (repeat 0 d)) = floats (repeat 0 d)).
  { unfold nc_iso. rewrite fnorm_floats, vnorm_zeros. destruct sd as [|a b|n k' svd]; cbn [sdf_lap].
    - unfold on_surface, sphere in Hp. rewrite sphere_grad_fin, fnorm_floats, fdiv_fin by lra. apply Z. unfold sphere_normal. rewrite length_vscal. auto.
    - rewrite plane_grad_fin. apply Z. rewrite length_vscal. apply OK.
    - cbn [sdf_grad]. apply Z. auto. }
  destruct k; try exact I. cbn [surface_of h_nc]. unfold nc_aniso. rewrite fnorm_floats, vnorm_zeros, floats_mul. unfold floats at 3. rewrite fsum_fin. fold (dot (repeat 0 d) p). rewrite dot_zeros.
  clear - Lp. revert d Lp. induction p as [|x p IH]; intros d Lp; cbn in Lp; subst d; [reflexivity|]. cbn [repeat floats map map2 length]. f_equal; [|exact (IH _ eq_refl)].
  cbn [fmul kmul KOps_R fadd fsub kadd ksub]. rewrite fdiv_fin by lra. cbn. f_equal. field.
Qed.

Lemma noise_zeros : forall k dt z d, k <> NConst -> length z = d -> rnoise k dt (repeat 0 d) z = repeat 0 d.
Proof.
  intros k dt z d Hk Hz. apply (coord_ext _ _ d); [apply length_rnoise; auto; apply repeat_length|apply repeat_length|]. intros i Hi. rewrite coord_zeros, (noise_coord _ _ _ _ _ d) by (auto; apply repeat_length).
  destruct k; [congruence|rewrite vnorm_zeros; ring|rewrite coord_zeros; ring].
Qed.

Lemma tilde_consensus : forall sd k d dt sg p z, surface_ok sd d -> on_surface sd p -> length p = d -> length z = d -> k <> NConst -> 0 <= dt ->
  x_tilde sd k (Fin dt) (Fin sg) (floats p) (floats p) (floats z) =
    map2 fsub (map2 fadd (floats p) (sdf_tan sd (floats p) (floats (vscal dt p)))) (floats (repeat 0 d)).
Proof.
  intros sd k d dt sg p z OK Hp Lp Lz Hk Hdt. unfold x_tilde. rewrite floats_sub, vsub_zeros, Lp, nc_zeros by auto. rewrite noise_floats, noise_zeros by auto.
  rewrite !floats_scal, floats_add. replace (vscal sg (repeat 0 d)) with (repeat 0 d). rewrite vadd_zeros by (rewrite length_vscal; auto). auto.
  apply (coord_ext _ _ d); [apply repeat_length|rewrite length_vscal; apply repeat_length|]. intros. rewrite coord_vscal, coord_zeros. ring.
Qed.

(** tangent part of the position itself *)
Lemma tan_position : forall sd d dt p, surface_ok sd d -> on_surface sd p -> length p = d -> (forall a b, sd <> PlaneD a b) ->
  sdf_tan sd (floats p) (floats (vscal dt p)) = floats (repeat 0 d).
Proof.
  intros sd d dt p [Hd OK] Hp Lp NP. destruct sd as [|a b|n k svd]; [|exfalso; eapply NP; eauto|].
  - unfold on_surface, sphere in Hp. rewrite (tan_fin SphereD p _ p); [|discriminate|].
    + f_equal. rewrite dot_vscal_r. fold (sqnorm p). rewrite <- vnorm_sq, Hp. apply (coord_ext _ _ d); [apply length_vsub; rewrite length_vscal; auto|apply repeat_length|].
      intros. rewrite coord_vsub, !coord_vscal, coord_zeros by (rewrite !length_vscal; auto). ring.
    + rewrite sphere_grad_fin by lra. unfold sphere_normal. rewrite Hp. f_equal. unfold vscal. rewrite <- (map_id p) at 2. apply map_ext. intros; field.
  - destruct OK as (Hk & -> & _). rewrite stiefel_tan_fin by (rewrite ?length_vscal; auto). f_equal. apply (coord_ext _ _ (n * k)); [apply stiefel_tan_len|apply repeat_length|].
    intros h Hh. rewrite coord_zeros. assert (K0 : (k <> 0)%nat) by nia. set (i := (h / k)%nat). set (j := (h mod k)%nat).
    assert (Hi : (i < n)%nat) by (apply Nat.div_lt_upper_bound; nia). assert (Hj : (j < k)%nat) by (apply Nat.mod_upper_bound; auto).
    assert (Eh : h = (i * k + j)%nat) by (unfold i, j; rewrite (Nat.div_mod h k K0) at 1; lia).
    rewrite Eh. change (coord (i * k + j) (stiefel_tan n k p (vscal dt p))) with (entry k (stiefel_tan n k p (vscal dt p)) i j). rewrite stiefel_tan_entry by auto.
    assert (ES : forall a b, entry k (vscal dt p) a b = dt * entry k p a b) by (intros; apply coord_vscal).
    assert (R : forall l, (l < k)%nat -> rsym n k p (vscal dt p) l j = 2 * dt * mid l j).
    { intros l Hl. unfold rsym. rewrite (msum_ext n _ (fun l0 => dt * (entry k p l0 l * entry k p l0 j))) by (intros; rewrite ES; ring).
      rewrite (msum_ext n (fun l0 => entry k p l0 l * entry k (vscal dt p) l0 j) (fun l0 => dt * (entry k p l0 l * entry k p l0 j))) by (intros; rewrite ES; ring).
      rewrite !msum_scal. pose proof (Hp l j Hl Hj) as H. unfold mmul, mtr in H. rewrite H. ring. }
    rewrite (msum_ext k _ (fun l => 2 * dt * (entry k p i l * mid l j))) by (intros l Hl; rewrite R by auto; ring).
    rewrite msum_scal, ES. replace (msum k (fun l => entry k p i l * mid l j)) with (entry k p i j). field.
    symmetry. rewrite (msum_ext k _ (fun l => entry k p i l * mid j l)). apply (msum_mid k (fun l => entry k p i l)); auto.
    intros l _. f_equal. unfold mid. rewrite Nat.eqb_sym. auto.
Qed.

Lemma fixed_point : forall sd k d dt sg p z, surface_ok sd d -> on_surface sd p -> length p = d -> length z = d -> k <> NConst -> 0 <= dt ->
  (forall a b, sd <> PlaneD a b) -> match sd with StiefelD _ _ svd => svd (floats p) <> None | _ => True end ->
  sdf_proj sd (x_tilde sd k (Fin dt) (Fin sg) (floats p) (floats p) (floats z)) = floats p.
Proof.
  intros sd k d dt sg p z OK Hp Lp Lz Hk Hdt NP Hs. rewrite (tilde_consensus sd k d), (tan_position sd d) by auto. rewrite floats_add, floats_sub, vadd_zeros, vsub_zeros_r by auto.
  destruct (proj_nearest sd d p OK Lp) as (q & -> & _ & H).
  - destruct sd; auto. unfold on_surface, sphere in Hp. intros E. rewrite E, vnorm_zeros in Hp. lra.
  - f_equal. auto.
Qed.

(** on a plane the particles move away from the foot point *)
Lemma plane_runaway : forall a b k d dt sg p z, surface_ok (PlaneD a b) d -> plane a b p -> length p = d -> length z = d -> k <> NConst -> 0 <= dt ->
  sdf_proj (PlaneD a b) (x_tilde (PlaneD a b) k (Fin dt) (Fin sg) (floats p) (floats p) (floats z)) = floats (vadd p (vscal dt (vsub p (foot a b)))).
Proof.
  intros a b k d dt sg p z OK Hp Lp Lz Hk Hdt. rewrite (tilde_consensus _ k d) by auto. destruct OK as (Hd & La & Na). pose proof (vnorm_sqnorm_ne a Na) as Sa.
  assert (Lf : length (foot a b) = d) by (unfold foot; rewrite length_vscal; auto).
  rewrite (tan_fin (PlaneD a b) p _ (vscal (/ vnorm a) a)); [|discriminate|apply plane_grad_fin].
  assert (ET : vsub (vscal dt p) (vscal (dot (vscal (/ vnorm a) a) (vscal dt p)) (vscal (/ vnorm a) a)) = vscal dt (vsub p (foot a b))).
  { rewrite dot_vscal_l, dot_vscal_r. unfold plane in Hp. rewrite Hp. apply (coord_ext _ _ d); [apply length_vsub; rewrite !length_vscal; auto|rewrite length_vscal; apply length_vsub; auto|].
    intros i Hi. rewrite (coord_vsub i (vscal dt p)) by (rewrite !length_vscal; congruence). rewrite !coord_vscal, coord_vsub by congruence. unfold foot. rewrite coord_vscal, <- (vnorm_sq a). field. auto. }
  rewrite ET, floats_add, floats_sub. set (q := vadd p _). assert (Lq : length q = d) by (apply length_vadd; auto; rewrite length_vscal; apply length_vsub; auto).
  rewrite vsub_zeros_r, plane_proj_fin by congruence. f_equal. apply shift_fixed; auto; try congruence.
  unfold plane, q. rewrite dot_vadd_r by (rewrite length_vscal, (length_vsub _ _ d); auto). rewrite dot_vscal_r, dot_vsub_r by congruence. unfold foot. rewrite dot_vscal_r. fold (sqnorm a). unfold plane in Hp. rewrite Hp. field. auto.
Qed.

Lemma foot_on : forall a b, sqnorm a <> 0 -> plane a b (foot a b).
Proof. intros. unfold plane, foot. rewrite dot_vscal_r. fold (sqnorm a). field. auto. Qed.
