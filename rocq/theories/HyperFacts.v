(** * The surfaces: projections and tangent spaces *)
From Coq Require Import List Arith Bool Reals Lra Lia Psatz.
From Verif Require Import Scalar Np NpFacts Consensus ConsSpec ConsFacts PostProc RVec RVecFacts PolarFacts RegFacts Cbo CboFacts MatSqrt MatSpec MatFacts
  MirrorMaps MirrorSpec MirrorFacts MirrorProj MirrorStiefel Constraints ConSpec ConFacts Variant HyperMaps HyperSpec.
Import ListNotations.
Open Scope R_scope.

(** ** projections *)
Lemma fin_list : forall l : vec, (forall a, In a l -> exists x, a = Fin x) -> exists p, l = floats p.
Proof.
  induction l as [|a l IH]; intros H. exists []. auto. destruct (H a (or_introl eq_refl)) as [x ->]. destruct IH as [p ->]. intros; apply H; right; auto.
  exists (x :: p). auto.
Qed.
Lemma floats_in : forall p a, In a (floats p) -> exists x : R, a = Fin x.
Proof. intros p a H. unfold floats in H. apply in_map_iff in H. destruct H as (x & <- & _). eauto. Qed.
Lemma fdiv_nan_r : forall a : fl R, fdiv a NaN = NaN.
Proof. intros [| | |]; reflexivity. Qed.

Lemma sphere_same : forall w, sdf_proj SphereD w = map (fun a => fdiv a (fnorm w)) w.
Proof. reflexivity. Qed.
Lemma fdiv_inf_r : forall a : fl R, (forall x, a <> Fin x) -> fdiv a PInf = NaN.
Proof. intros [x| | |] H; auto. exfalso. apply (H x). auto. Qed.
Lemma fadd_fin_inv : forall (a b : fl R) z, fadd a b = Fin z -> exists x y, a = Fin x /\ b = Fin y.
Proof. intros [x| | |] [y| | |] z H; cbn in H; try discriminate. eauto. Qed.
Lemma fsum_fin_inv : forall l z, fsum l = Fin z -> forall a, In a l -> exists x, a = Fin x.
Proof.
  induction l as [|b l IH]; intros z H a Ha; cbn in H. destruct Ha. apply fadd_fin_inv in H. destruct H as (x & y & -> & E). destruct Ha as [<-|Ha]; eauto.
Qed.
Lemma fsqrt_fin_inv : forall a z, fsqrt a = Fin z -> exists x, a = Fin x.
Proof. intros [x| | |] z H; cbn in H; try discriminate. eauto. Qed.
Lemma fnorm_fin_inv : forall w z, fnorm w = Fin z -> exists q, w = floats q.
Proof.
  intros w z H. apply fsqrt_fin_inv in H. destruct H as (x & H). apply fin_list. intros a Ha.
  destruct (fsum_fin_inv _ _ H (fmul a a)) as (y & Hy). apply in_map_iff; eauto. destruct a as [v| | |]; cbn in Hy; try discriminate. eauto.
Qed.
Lemma sq_nonneg_fl : forall a : fl R, fmul a a = NaN \/ fmul a a = PInf \/ exists x, 0 <= x /\ fmul a a = Fin x.
Proof. intros [x| | |]; cbn; auto. right. right. exists (x * x). split; auto. apply Rle_0_sqr. Qed.
Lemma sum_nonneg_fl : forall w : vec, let s := fsum (map (fun a => fmul a a) w) in s = NaN \/ s = PInf \/ exists x, 0 <= x /\ s = Fin x.
Proof.
  induction w as [|a w IH]; cbn zeta in *. right. right. exists 0. split; [lra|auto].
  cbn [map fsum fold_right]. fold (fsum (map (fun a => fmul a a) w)). destruct (sq_nonneg_fl a) as [E|[E|(x & Hx & E)]], IH as [F|[F|(y & Hy & F)]]; rewrite E, F; cbn; auto.
  right. right. exists (x + y). split; [lra|auto].
Qed.
Lemma fnorm_cases : forall w, fnorm w = NaN \/ fnorm w = PInf \/ exists q, w = floats q.
Proof.
  intros w. destruct (fnorm w) eqn:E; auto. right; right. eapply fnorm_fin_inv; eauto. exfalso. unfold fnorm in E.
  destruct (sum_nonneg_fl w) as [F|[F|(x & Hx & F)]]; cbn zeta in F; rewrite F in E; cbn in E; try discriminate. destruct (Rltb x 0); discriminate.
Qed.
Lemma fnorm_inf_has : forall w, fnorm w = PInf -> exists a, In a w /\ forall x, a <> Fin x.
Proof.
  intros w H. assert (D : (exists a, In a w /\ forall x, a <> Fin x) \/ exists p, w = floats p).
  { clear H. induction w as [|a w IH]. right. exists []. auto. destruct a as [x| | |].
    - destruct IH as [(a & Ha & N)|[p ->]]. left. exists a. split; auto. right; auto. right. exists (x :: p). auto.
    - left. eexists. split. left; reflexivity. discriminate.
    - left. eexists. split. left; reflexivity. discriminate.
    - left. eexists. split. left; reflexivity. discriminate. }
  destruct D as [D|[p ->]]; auto. rewrite fnorm_floats in H. discriminate.
Qed.

Lemma vnorm_zero_list : forall q, vnorm q = 0 -> q = repeat 0 (length q).
Proof. intros q H. apply (coord_ext _ _ (length q)); auto. apply repeat_length. intros i Hi. unfold coord. rewrite nth_repeat. apply vnorm_0; auto. Qed.

Lemma sphere_proj_inv : forall w p, sdf_proj SphereD w = floats p -> p <> [] -> exists q, w = floats q /\ q <> repeat 0 (length q) /\ p = sphere_point 1 q.
Proof.
  intros w p H Hp. rewrite sphere_same in H. assert (HF : forall a, In a w -> exists x, fdiv a (fnorm w) = Fin x).
  { intros a Ha. apply (floats_in p). rewrite <- H. apply in_map_iff. eauto. }
  assert (Hw : w <> []) by (intros ->; destruct p; [congruence|discriminate]).
  destruct (fnorm_cases w) as [E|[E|(q & ->)]].
  - destruct w as [|a w]; [congruence|]. destruct (HF a (or_introl eq_refl)) as (x & Hx). rewrite E, fdiv_nan_r in Hx. discriminate.
  - destruct (fnorm_inf_has w E) as (a & Ha & N). destruct (HF a Ha) as (x & Hx). rewrite E, fdiv_inf_r in Hx by auto. discriminate.
  - exists q. split; auto. destruct (Req_dec (vnorm q) 0) as [Z|Z].
    + exfalso. destruct q as [|x q]; [apply Hw; reflexivity|]. assert (x = 0). { apply vnorm_zero_list in Z. injection Z as -> _. auto. } subst x.
      destruct (HF (Fin 0) (or_introl eq_refl)) as (y & Hy). change (fnorm (floats (0 :: q))) with (fnorm (floats (0 :: q))) in Hy. rewrite fnorm_floats, Z in Hy.
      cbn [fdiv] in Hy. unfold k_is0 in Hy. cbn [kltb k0 KOps_R] in Hy. unfold inf_sign in Hy. cbn [kltb k0 KOps_R] in Hy.
      assert (L : Rltb 0 0 = false) by (apply Rltb_false; lra). rewrite L in Hy. discriminate.
    + assert (Hq : q <> repeat 0 (length q)).
      { intros E. apply Z. rewrite E.  unfold vnorm. replace (sqnorm (repeat 0 (length q))) with 0. apply sqrt_0.
        clear. unfold sqnorm. induction (length q) as [|n IH]. reflexivity. cbn [repeat]. rewrite dot_cons. lra. }
      split; auto. apply floats_inj. rewrite <- H. rewrite <- (sphere_conj 1 q Hq). cbn [mm_conj]. apply map_ext_in. intros a Ha.
      destruct (floats_in _ _ Ha) as (x & ->). cbn [fmul]. cbn [kmul KOps_R]. rewrite Rmult_1_l. auto.
Qed.

Lemma fsub_fin_inv : forall (a b : fl R) z, fsub a b = Fin z -> exists x y, a = Fin x /\ b = Fin y.
Proof. intros [x| | |] [y| | |] z H; cbn in H; try discriminate. eauto. Qed.

Lemma map2_firstn : forall A B C (f : A -> B -> C) l r, map2 f l (firstn (length l) r) = map2 f l r.
Proof. induction l as [|a l IH]; intros [|b r]; cbn; auto. rewrite IH. auto. Qed.
Lemma map2_firstn_l : forall A B C (f : A -> B -> C) r l, map2 f (firstn (length r) l) r = map2 f l r.
Proof. induction r as [|a r IH]; intros [|b l]; cbn; auto. rewrite IH. auto. Qed.

Lemma plane_proj_fin : forall a b q, vnorm a <> 0 -> length q = length a -> sdf_proj (PlaneD a b) (floats q) = floats (plane_shift a b a q).
Proof.
  intros a b q Hn Hl. cbn [sdf_proj]. change (map Fin a) with (floats a). rewrite floats_mul. unfold floats at 2. rewrite fsum_fin. fold (dot a q).
  cbn [fsub]. cbn [ksub KOps_R]. rewrite fdiv_fin. 2:{ apply pow_nonzero; auto. } rewrite floats_scal. unfold plane_shift.
  replace (vnorm a ^ 2) with (sqnorm a) by (rewrite <- vnorm_sq; ring). apply floats_sub.
Qed.
Lemma vnorm_sqnorm_ne : forall a, vnorm a <> 0 -> sqnorm a <> 0.
Proof. intros a H E. apply H. unfold vnorm. rewrite E. apply sqrt_0. Qed.

Lemma plane_proj_inv : forall a b w p, vnorm a <> 0 -> sdf_proj (PlaneD a b) w = floats p -> length p = length a -> plane a b p.
Proof.
  intros a b w p Hn H Hl. assert (E : sdf_proj (PlaneD a b) (firstn (length a) w) = floats p).
  { rewrite <- H. cbn [sdf_proj].
    assert (E1 : map2 fmul (map Fin a) (firstn (length a) w) = map2 fmul (map Fin a) w) by (rewrite <- (map_length Fin a) at 1; apply map2_firstn). rewrite E1.
    set (t := fdiv _ _). set (g := map (fmul t) (map Fin a)). replace (length a) with (length g) by (unfold g; rewrite !map_length; auto). apply map2_firstn_l. }
  set (v := firstn (length a) w) in *. assert (Hv : exists q, v = floats q).
  { apply fin_list. intros x Hx. apply In_nth_error in Hx. destruct Hx as [i Hi].
    assert (Hil : (i < length a)%nat). { assert (L : (i < length v)%nat) by (apply nth_error_Some; rewrite Hi; discriminate). unfold v in L. rewrite firstn_length in L. lia. }
    cbn [sdf_proj] in E. set (t := fdiv _ _) in E.
    assert (Hg : exists y, nth_error (map (fmul t) (map Fin a)) i = Some y).
    { destruct (nth_error (map (fmul t) (map Fin a)) i) eqn:G; eauto. apply nth_error_None in G. rewrite !map_length in G. lia. }
    destruct Hg as [y Hy]. pose proof (map2_nth _ _ _ fsub v (map (fmul t) (map Fin a)) i) as MN. rewrite Hi, Hy in MN. rewrite E in MN.
    apply nth_error_In in MN. apply floats_in in MN. destruct MN as (z & Hz). apply fsub_fin_inv in Hz. destruct Hz as (x' & _ & -> & _). eauto. }
  destruct Hv as [q Hq]. rewrite Hq in E. assert (Lq : length q = length a).
  { assert (L1 : length (floats p) = Nat.min (length q) (length a)). { rewrite <- E. cbn [sdf_proj]. rewrite map2_length, !map_length. unfold floats. rewrite map_length. auto. }
    unfold floats in L1. rewrite map_length in L1. assert (length q <= length a)%nat. { assert (length (floats q) = length q) by (unfold floats; apply map_length). rewrite <- H0, <- Hq. unfold v. rewrite firstn_length. lia. } lia. }
  rewrite plane_proj_fin in E by auto. apply floats_inj in E. rewrite <- E. apply shift_feasible; auto. apply vnorm_sqnorm_ne; auto.
Qed.

Lemma stiefel_proj_fin : forall n k svd w U Vh y sg, (k <= n)%nat -> svd w = Some (U, Vh) -> w = floats y -> length y = (n * k)%nat -> svd_of n k y U sg Vh ->
  sdf_proj (StiefelD n k svd) w = floats (polar_point n k U Vh).
Proof. intros. cbn [sdf_proj]. rewrite H0. rewrite Nat.min_r by auto. unfold polar_point, floats. rewrite map_map. reflexivity. Qed.

(** every finite result of [proj] is on the surface, whatever the argument *)
Theorem proj_on : forall s d w p, surface_ok s d -> length p = d -> sdf_proj s w = floats p -> on_surface s p.
Proof.
  intros [|a b|n k svd] d w p [Hd OK] Hl E; cbn [on_surface].
  - destruct (sphere_proj_inv w p E) as (q & _ & Hq & ->). intros ->; cbn in Hl; lia. apply sphere_feasible; auto; lra.
  - destruct OK as [Ha Hn]. eapply plane_proj_inv; eauto. congruence.
  - destruct OK as (Hk & -> & Hs). destruct (svd w) as [[U Vh]|] eqn:W.
    + destruct (Hs w U Vh W) as (y & sg & Hy & Ly & Hsv). rewrite (stiefel_proj_fin n k svd w U Vh y sg) in E by auto. apply floats_inj in E. rewrite <- E.
      eapply polar_stiefel; eauto.
    + cbn [sdf_proj] in E. rewrite W in E. destruct w as [|a w]. destruct p; [cbn in Hl; lia|discriminate]. destruct p; discriminate.
Qed.

(** at finite points [proj] is the nearest point *)
Theorem proj_nearest : forall s d y, surface_ok s d -> length y = d ->
  match s with SphereD => y <> repeat 0 (length y) | PlaneD _ _ => True | StiefelD _ _ svd => svd (floats y) <> None end ->
  exists p, sdf_proj s (floats y) = floats p /\ nearest (on_surface s) y p /\ (on_surface s y -> p = y).
Proof.
  intros [|a b|n k svd] d y [Hd OK] Hl H; cbn [on_surface].
  - exists (sphere_point 1 y). split; [|split].
    + rewrite <- (sphere_conj 1 y H). cbn [mm_conj sdf_proj]. apply map_ext_in. intros a Ha.
      destruct (floats_in _ _ Ha) as (x & ->). cbn [fmul]. cbn [kmul KOps_R]. rewrite Rmult_1_l. auto.
    + apply sphere_nearest; auto; lra.
    + apply sphere_fixed; auto; lra.
  - destruct OK as [Ha Hn]. exists (plane_shift a b a y). split. apply plane_proj_fin; congruence. pose proof (vnorm_sqnorm_ne a Hn). split.
    apply shift_nearest; congruence. apply shift_fixed; congruence.
  - destruct OK as (Hk & -> & Hs). destruct (svd (floats y)) as [[U Vh]|] eqn:W; [|congruence]. destruct (Hs _ U Vh W) as (y' & sg & Hy & Ly & Hsv).
    apply floats_inj in Hy. subst y'. exists (polar_point n k U Vh). split. eapply stiefel_proj_fin; eauto. split. eapply polar_nearest; eauto. eapply polar_fixed; eauto.
Qed.

(** ** tangent spaces *)
Lemma tan_fin : forall s x z g, (forall n k svd, s <> StiefelD n k svd) -> sdf_grad s (floats x) = floats g ->
  sdf_tan s (floats x) (floats z) = floats (vsub z (vscal (dot g z) g)).
Proof.
  intros s x z g N E. assert (G : map2 fsub (floats z) (map (fun gi => fmul gi (fsum (map2 fmul (floats g) (floats z)))) (floats g)) = floats (vsub z (vscal (dot g z) g))).
  { rewrite floats_mul. unfold floats at 3. rewrite fsum_fin. fold (dot g z).
    replace (map (fun gi => fmul gi (Fin (dot g z))) (floats g)) with (floats (vscal (dot g z) g)). apply floats_sub.
    unfold floats, vscal. rewrite !map_map. apply map_ext. intros a. cbn. f_equal. ring. }
  destruct s; cbn [sdf_tan]; try (rewrite E; exact G). exfalso. eapply N. reflexivity.
Qed.

(** subtracting the part along a unit vector *)
Lemma unit_tangent : forall g z, length g = length z -> sqnorm g = 1 ->
  dot g (vsub z (vscal (dot g z) g)) = 0 /\ (dot g z = 0 -> vsub z (vscal (dot g z) g) = z) /\
  (forall w, length w = length z -> dot g w = 0 -> dot (vsub z (vsub z (vscal (dot g z) g))) w = 0).
Proof.
  intros g z Hl H1. assert (L : length (vscal (dot g z) g) = length z) by (rewrite length_vscal; auto). split; [|split].
  - rewrite dot_vsub_r by auto. rewrite dot_vscal_r. fold (sqnorm g). rewrite H1. ring.
  - intros E. apply (coord_ext _ _ (length z)); auto. apply length_vsub; auto. intros i Hi. rewrite coord_vsub by auto. rewrite E, coord_vscal. ring.
  - intros w Hw E. rewrite (dot_comm _ w). rewrite dot_vsub_r, dot_vsub_r by (rewrite ?(length_vsub z _ (length z)) by auto; congruence). rewrite dot_vscal_r, (dot_comm w g), E. ring.
Qed.

Definition sphere_normal (x : list R) : list R := vscal (/ vnorm x) x.
Lemma sphere_grad_fin : forall x, vnorm x <> 0 -> sdf_grad SphereD (floats x) = floats (sphere_normal x).
Proof.
  intros x H. cbn [sdf_grad]. rewrite fnorm_floats. unfold floats, sphere_normal, vscal. rewrite !map_map. apply map_ext. intros a. rewrite fdiv_fin by auto. f_equal. unfold Rdiv. ring.
Qed.
Lemma plane_grad_fin : forall a b x, sdf_grad (PlaneD a b) x = floats (vscal (/ vnorm a) a).
Proof. intros. cbn [sdf_grad]. unfold floats, vscal. rewrite map_map. apply map_ext. intros. f_equal. unfold Rdiv. ring. Qed.
Lemma normal_unit : forall x, vnorm x <> 0 -> sqnorm (vscal (/ vnorm x) x) = 1.
Proof. intros x H. rewrite sqnorm_scal, <- vnorm_sq. field. auto. Qed.

Lemma ventry_floats : forall n k p i j, length p = (n * k)%nat -> (i < n)%nat -> (j < k)%nat -> ventry k (floats p) i j = Fin (entry k p i j).
Proof. intros. unfold ventry, entry, floats. apply nth_map. nia. Qed.
Lemma fsum_to_fin : forall n f g, (forall i, (i < n)%nat -> f i = Fin (g i)) -> fsum_to n f = Fin (msum n g).
Proof.
  intros n f g H. unfold fsum_to, msum. rewrite <- fsum_fin. f_equal. rewrite map_map. apply map_ext_in. intros i Hi. apply in_seq in Hi. apply H. lia.
Qed.
Definition rsym (n k : nat) (x z : list R) (i j : nat) : R :=
  msum n (fun l => entry k z l i * entry k x l j) + msum n (fun l => entry k x l i * entry k z l j).
Definition stiefel_tan (n k : nat) (x z : list R) : list R :=
  map (fun h => entry k z (h / k)%nat (h mod k)%nat - msum k (fun l => / 2 * entry k x (h / k)%nat l * rsym n k x z l (h mod k)%nat)) (seq 0 (n * k)).
Lemma stiefel_tan_fin : forall n k svd x z, length x = (n * k)%nat -> length z = (n * k)%nat ->
  sdf_tan (StiefelD n k svd) (floats x) (floats z) = floats (stiefel_tan n k x z).
Proof.
  intros n k svd x z Hx Hz. cbn [sdf_tan]. unfold flat, stiefel_tan, floats. rewrite map_map. apply map_ext_in. intros h Hh. apply in_seq in Hh.
  assert (Hk : (k <> 0)%nat) by (intros ->; lia). assert (A1 : (h / k < n)%nat) by (apply Nat.div_lt_upper_bound; nia). assert (A2 : (h mod k < k)%nat) by (apply Nat.mod_upper_bound; auto).
  fold (floats z) (floats x).
  rewrite (ventry_floats n) by auto.
  rewrite (fsum_to_fin k _ (fun l => / 2 * entry k x (h / k)%nat l * rsym n k x z l (h mod k)%nat)). reflexivity.
  intros l Hl. rewrite (ventry_floats n) by auto.
  rewrite (fsum_to_fin n _ (fun l0 => entry k z l0 l * entry k x l0 (h mod k)%nat)).
  rewrite (fsum_to_fin n _ (fun l0 => entry k x l0 l * entry k z l0 (h mod k)%nat)). reflexivity.
  intros i Hi. rewrite !(ventry_floats n) by auto. reflexivity. intros i Hi. rewrite !(ventry_floats n) by auto. reflexivity.
Qed.
Lemma stiefel_tan_len : forall n k x z, length (stiefel_tan n k x z) = (n * k)%nat.
Proof. intros. unfold stiefel_tan. rewrite map_length, seq_length. auto. Qed.
Lemma stiefel_tan_entry : forall n k x z i j, (i < n)%nat -> (j < k)%nat ->
  entry k (stiefel_tan n k x z) i j = entry k z i j - / 2 * msum k (fun l => entry k x i l * rsym n k x z l j).
Proof.
  intros n k x z i j Hi Hj. unfold entry at 1, stiefel_tan. rewrite nth_map_seq by nia.
  replace ((i * k + j) / k)%nat with i. replace ((i * k + j) mod k)%nat with j.
  - f_equal. rewrite <- msum_scal. apply msum_ext. intros; ring.
  - rewrite Nat.add_comm, Nat.mod_add, Nat.mod_small; lia.
  - rewrite Nat.add_comm, Nat.div_add, Nat.div_small; lia.
Qed.
Lemma rsym_sym : forall n k x z i j, rsym n k x z i j = rsym n k x z j i.
Proof. intros. unfold rsym. rewrite Rplus_comm. f_equal; apply msum_ext; intros; ring. Qed.

(** X^T (X S) = S *)
Lemma stiefel_gram : forall n k x (S : mat) i j, stiefel n k x -> (i < k)%nat ->
  msum n (fun l => entry k x l i * msum k (fun h => entry k x l h * S h j)) = S i j.
Proof.
  intros n k x S i j Hx Hi. transitivity (msum k (fun h => S h j * msum n (fun l => entry k x l i * entry k x l h))).
  - transitivity (msum n (fun l => msum k (fun h => S h j * (entry k x l i * entry k x l h)))).
    + apply msum_ext. intros l _. rewrite <- msum_scal. apply msum_ext. intros; ring.
    + rewrite msum_swap. apply msum_ext. intros h _. apply msum_scal.
  - transitivity (msum k (fun h => S h j * mid i h)). 2:apply (msum_mid k (fun h => S h j)); auto. apply msum_ext. intros h Hh. f_equal. apply (Hx i h); auto.
Qed.

Lemma msum_sub : forall n f g, msum n (fun i => f i - g i) = msum n f - msum n g.
Proof. intros. transitivity (msum n (fun i => f i + -1 * g i)). apply msum_ext. intros; ring. rewrite msum_add, msum_scal. ring. Qed.

Theorem tangent_ok : forall s d x z, surface_ok s d -> length x = d -> length z = d ->
  match s with SphereD => vnorm x <> 0 | PlaneD _ _ => True | StiefelD _ _ _ => on_surface s x end ->
  exists t, sdf_tan s (floats x) (floats z) = floats t /\ length t = d /\ tangent s x t /\ (tangent s x z -> t = z) /\
    forall w, length w = d -> tangent s x w -> dot (vsub z t) w = 0.
Proof.
  intros s d x z [Hd OK] Hx Hz H. destruct s as [|a b|n k svd]; cbn [on_surface tangent] in *.
  - exists (vsub z (vscal (dot (sphere_normal x) z) (sphere_normal x))). assert (HL : length (sphere_normal x) = length z) by (unfold sphere_normal; rewrite length_vscal; congruence).
    destruct (unit_tangent (sphere_normal x) z HL (normal_unit x H)) as (T1 & T2 & T3).
    assert (S : forall w, dot (sphere_normal x) w = 0 <-> dot x w = 0).
    { intros w. unfold sphere_normal. rewrite dot_vscal_l. split; intros E. apply (Rmult_eq_reg_l (/ vnorm x)). rewrite E; ring. apply Rinv_neq_0_compat; auto. rewrite E. ring. }
    split. apply tan_fin; [discriminate|apply sphere_grad_fin; auto]. split. apply length_vsub; auto. rewrite length_vscal; congruence. rewrite <- !S. split; auto. split; auto.
    intros w Hw E. apply T3. congruence. apply S; auto.
  - destruct OK as [Ha Hn]. set (g := vscal (/ vnorm a) a). exists (vsub z (vscal (dot g z) g)). assert (HL : length g = length z) by (unfold g; rewrite length_vscal; congruence).
    destruct (unit_tangent g z HL (normal_unit a Hn)) as (T1 & T2 & T3).
    assert (S : forall w, dot g w = 0 <-> dot a w = 0).
    { intros w. unfold g. rewrite dot_vscal_l. split; intros E. apply (Rmult_eq_reg_l (/ vnorm a)). rewrite E; ring. apply Rinv_neq_0_compat; auto. rewrite E. ring. }
    split. apply tan_fin; [discriminate|apply plane_grad_fin]. split. apply length_vsub; auto. rewrite length_vscal; congruence. rewrite <- !S. split; auto. split; auto.
    intros w Hw E. apply T3. congruence. apply S; auto.
  - destruct OK as (Hk & -> & _). exists (stiefel_tan n k x z). split. apply stiefel_tan_fin; auto. split. apply stiefel_tan_len. split; [|split].
    + intros i j Hi Hj. fold (rsym n k x (stiefel_tan n k x z) i j). set (S := rsym n k x z).
      assert (E : forall i j, (i < k)%nat -> (j < k)%nat -> msum n (fun l => entry k x l i * entry k (stiefel_tan n k x z) l j) =
                msum n (fun l => entry k x l i * entry k z l j) - / 2 * S i j).
      { intros i' j' Hi' Hj'. transitivity (msum n (fun l => entry k x l i' * entry k z l j' - / 2 * (entry k x l i' * msum k (fun h => entry k x l h * S h j')))).
        - apply msum_ext. intros l Hl. rewrite stiefel_tan_entry by auto. fold S. ring.
        - rewrite msum_sub, msum_scal. rewrite (stiefel_gram n k x S i' j') by auto. auto. }
      unfold rsym. rewrite E by auto. replace (msum n (fun l => entry k (stiefel_tan n k x z) l i * entry k x l j)) with (msum n (fun l => entry k x l j * entry k (stiefel_tan n k x z) l i)) by (apply msum_ext; intros; ring).
      rewrite E by auto. unfold S. rewrite (rsym_sym n k x z j i). unfold rsym.
      replace (msum n (fun l => entry k x l j * entry k z l i)) with (msum n (fun l => entry k z l i * entry k x l j)) by (apply msum_ext; intros; ring). field.
    + intros T. apply (coord_ext _ _ (n * k)); auto. apply stiefel_tan_len. intros h Hh. assert (Hk0 : (k <> 0)%nat) by (intros ->; lia).
      assert (A1 : (h / k < n)%nat) by (apply Nat.div_lt_upper_bound; nia). assert (A2 : (h mod k < k)%nat) by (apply Nat.mod_upper_bound; auto).
      pose proof (stiefel_tan_entry n k x z (h / k) (h mod k) A1 A2) as E. unfold entry at 1 2 in E.
      replace (h / k * k + h mod k)%nat with h in E by (rewrite Nat.mul_comm; apply Nat.div_mod; auto). unfold coord. rewrite E.
      rewrite msum_zero. ring. intros l Hl. unfold rsym. rewrite T by auto. ring.
    + intros w Hw T. assert (Lt : length (stiefel_tan n k x z) = length z) by (rewrite stiefel_tan_len; auto).
      assert (Ld : length (vsub z (stiefel_tan n k x z)) = (n * k)%nat) by (apply length_vsub; congruence). rewrite (dot_entries n k) by auto.
      set (S := rsym n k x z).
      transitivity (msum n (fun i => msum k (fun j => msum k (fun l => / 2 * S l j * (entry k x i l * entry k w i j))))).
      { apply msum_ext. intros i Hi. apply msum_ext. intros j Hj. replace (entry k (vsub z (stiefel_tan n k x z)) i j) with (entry k z i j - entry k (stiefel_tan n k x z) i j).
        2:{ unfold entry. fold (coord (i * k + j) (vsub z (stiefel_tan n k x z))). rewrite coord_vsub by congruence. auto. }
        rewrite stiefel_tan_entry by auto. fold S. replace (entry k z i j - (entry k z i j - / 2 * msum k (fun l => entry k x i l * S l j))) with (/ 2 * msum k (fun l => entry k x i l * S l j)) by ring.
        rewrite <- msum_scal, <- msum_scal_r. apply msum_ext. intros; ring. }
      (* tr (S X^T W) with S symmetric and X^T W skew *)
      set (K := fun l j => msum n (fun i => entry k x i l * entry k w i j)).
      transitivity (msum k (fun j => msum k (fun l => / 2 * S l j * K l j))).
      { rewrite msum_swap. apply msum_ext. intros j Hj. rewrite msum_swap. apply msum_ext. intros l Hl. unfold K. apply msum_scal. }
      assert (SK : forall l j, (l < k)%nat -> (j < k)%nat -> K l j + K j l = 0).
      { intros l j Hl Hj. rewrite <- (T j l Hj Hl). unfold K. f_equal. apply msum_ext. intros; ring. }
      set (Q := msum k (fun j => msum k (fun l => / 2 * S l j * K l j))). assert (EQ : Q + Q = 0); [|lra].
      unfold Q at 2. rewrite msum_swap. unfold Q. rewrite <- msum_add. apply msum_zero. intros j Hj. rewrite <- msum_add. apply msum_zero. intros l Hl.
      unfold S. rewrite (rsym_sym n k x z j l). fold S. replace (/ 2 * S l j * K l j + / 2 * S l j * K j l) with (/ 2 * S l j * (K l j + K j l)) by ring. rewrite SK by auto. ring.
Qed.

(** the projection matrix is the same map *)
Theorem matrix_ok : forall s d x z, surface_ok s d -> (forall n k svd, s <> StiefelD n k svd) -> length x = d -> length z = d ->
  match s with SphereD => vnorm x <> 0 | _ => True end ->
  forall i, (i < d)%nat -> nth_error (sdf_tan s (floats x) (floats z)) i = Some (fsum_to d (fun j => fmul (sdf_matrix s (floats x) i j) (Fin (coord j z)))).
Proof.
  intros s d x z [Hd OK] N Hx Hz H i Hi. assert (G : exists g, sdf_grad s (floats x) = floats g /\ length g = d).
  { destruct s as [|a b|n k svd]. exists (sphere_normal x). split. apply sphere_grad_fin; auto. unfold sphere_normal. rewrite length_vscal; auto.
    exists (vscal (/ vnorm a) a). split. apply plane_grad_fin. rewrite length_vscal. apply OK. exfalso. eapply N; reflexivity. }
  destruct G as (g & Eg & Lg). rewrite (tan_fin s x z g N Eg). rewrite (fsum_to_fin d _ (fun j => ((if Nat.eqb i j then 1 else 0) - coord j g * coord i g) * coord j z)).
  - unfold floats. rewrite nth_error_map. assert (Lv : length (vsub z (vscal (dot g z) g)) = d) by (apply length_vsub; auto; rewrite length_vscal; auto).
    rewrite (nth_error_nth' _ 0) by lia. cbn [option_map]. f_equal. f_equal. fold (coord i (vsub z (vscal (dot g z) g))). rewrite coord_vsub by (rewrite length_vscal; congruence). rewrite coord_vscal.
    transitivity (msum d (fun j => if Nat.eqb i j then coord j z else 0) - msum d (fun j => coord i g * (coord j g * coord j z))).
    + rewrite (msum_delta d i (fun j => coord j z)) by auto. rewrite msum_scal. rewrite (dot_sum g z d) by auto. unfold msum, coord. ring.
    + rewrite <- msum_sub. apply msum_ext. intros j Hj. destruct (Nat.eqb i j); ring.
  - intros j Hj. unfold sdf_matrix. rewrite Eg. unfold floats. rewrite !(nth_map _ _ _ _ _ 0 NaN) by lia. unfold coord. reflexivity.
Qed.

(** ** signed distances *)
Lemma vnorm_deriv : forall x h, length h = length x -> vnorm x <> 0 -> dir_deriv vnorm x h (dot x h / vnorm x).
Proof.
  intros x h Hh Hn. unfold dir_deriv.
  assert (D1 : derivable_pt_lim (fun t => sqnorm (vadd x (vscal t h))) 0 (2 * dot x h)).
  { apply (deriv_poly _ (sqnorm x) _ (sqnorm h)). intros t. rewrite sqnorm_add by (rewrite length_vscal; auto). rewrite dot_vscal_r, sqnorm_scal. ring. }
  assert (E0 : sqnorm (vadd x (vscal 0 h)) = sqnorm x) by (rewrite line_0; auto).
  assert (P : 0 < sqnorm x). { rewrite <- vnorm_sq. pose proof (vnorm_nonneg x). nra. }
  pose proof (derivable_pt_lim_comp (fun t => sqnorm (vadd x (vscal t h))) sqrt 0 _ (/ (2 * sqrt (sqnorm x))) D1) as C. cbv beta in C. rewrite E0 in C.
  specialize (C (derivable_pt_lim_sqrt _ P)). unfold comp in C. unfold vnorm. fold (vnorm x) in C. replace (dot x h / sqrt (sqnorm x)) with (/ (2 * vnorm x) * (2 * dot x h)). exact C.
  unfold vnorm in *. field. auto.
Qed.

Theorem sphere_gradient : forall x, vnorm x <> 0 -> exists g, sdf_grad SphereD (floats x) = floats g /\ gradient_at (fun p => vnorm p - 1) x g.
Proof.
  intros x Hn. exists (sphere_normal x). split. apply sphere_grad_fin; auto. split. apply length_vscal. intros h Hh. unfold sphere_normal. rewrite dot_vscal_l.
  replace (/ vnorm x * dot x h) with (dot x h / vnorm x + 0) by (unfold Rdiv; ring). apply (deriv_ext (fun p => vnorm p + - (1))). intros; ring.
  apply deriv_plus. apply vnorm_deriv; auto. apply deriv_const.
Qed.

Definition trace (d : nat) (H : mat) : R := msum d (fun i => H i i).
Theorem sphere_laplacian : forall x, vnorm x <> 0 -> exists H, jacobian_at sphere_normal x H /\ sdf_lap SphereD (floats x) = Fin (trace (length x) H).
Proof.
  intros x Hn. exists (fun i j => ((if Nat.eqb i j then 1 else 0) - coord i x * coord j x / (vnorm x * vnorm x)) / vnorm x). split.
  - intros h i Hh Hi. pose proof (vnorm_deriv x h Hh Hn) as D2.
    assert (D1 : derivable_pt_lim (fun t => coord i (vadd x (vscal t h))) 0 (coord i h)).
    { apply (deriv_poly _ (coord i x) _ 0). intros t. rewrite coord_vadd by (rewrite length_vscal; auto). rewrite coord_vscal. ring. }
    pose proof (derivable_pt_lim_div _ _ _ _ _ D1 D2) as D. cbv beta in D. rewrite line_0 in D by auto. specialize (D Hn).
    replace (msum (length x) (fun j => ((if Nat.eqb i j then 1 else 0) - coord i x * coord j x / (vnorm x * vnorm x)) / vnorm x * coord j h))
      with ((coord i h * vnorm x - dot x h / vnorm x * coord i x) / Rsqr (vnorm x)).
    + unfold dir_deriv. intros eps He. destruct (D eps He) as [dl Hd]. exists dl. intros t Ht Ht2. specialize (Hd t Ht Ht2). unfold div_fct in Hd.
      unfold sphere_normal. rewrite !coord_vscal. rewrite (Rmult_comm (/ _)), (Rmult_comm (/ vnorm (vadd x (vscal 0 h)))). exact Hd.
    + assert (ED : dot x h = msum (length x) (fun j => coord j x * coord j h)) by (apply dot_sum; auto). rewrite ED.
      transitivity (/ vnorm x * msum (length x) (fun j => if Nat.eqb i j then coord j h else 0) - coord i x / (vnorm x * vnorm x * vnorm x) * msum (length x) (fun j => coord j x * coord j h)).
      rewrite (msum_delta (length x) i (fun j => coord j h)) by auto. unfold Rsqr. field. auto.
      rewrite <- !msum_scal, <- msum_sub. apply msum_ext. intros j Hj. destruct (Nat.eqb i j); field; auto.
  - cbn [sdf_lap]. rewrite fnorm_floats, fdiv_fin by auto. f_equal. unfold floats. rewrite map_length. unfold trace.
    transitivity (/ vnorm x * msum (length x) (fun i => 1) - / (vnorm x * vnorm x * vnorm x) * msum (length x) (fun i => coord i x * coord i x)).
    + replace (msum (length x) (fun i => 1)) with (INR (length x)). 2:{ clear. induction (length x) as [|n IH]. reflexivity. rewrite msum_S, <- IH, S_INR. auto. }
      replace (msum (length x) (fun i => coord i x * coord i x)) with (vnorm x * vnorm x). field; auto. rewrite vnorm_sq. unfold sqnorm. apply dot_sum; auto.
    + rewrite <- !msum_scal, <- msum_sub. apply msum_ext. intros i Hi. rewrite Nat.eqb_refl. field. auto.
Qed.

Theorem plane_gradient : forall a b x, length a = length x -> vnorm a <> 0 ->
  exists g, sdf_grad (PlaneD a b) (floats x) = floats g /\ gradient_at (fun p => (dot a p - b) / vnorm a) x g.
Proof.
  intros a b x Hl Hn. exists (vscal (/ vnorm a) a). split. apply plane_grad_fin. split. rewrite length_vscal; auto. intros h Hh.
  rewrite dot_vscal_l. apply (deriv_poly _ ((dot a x - b) / vnorm a) _ 0). intros t. rewrite dot_vadd_r by (rewrite length_vscal; auto). rewrite dot_vscal_r. field. auto.
Qed.
Theorem sphere_normal_is_grad : forall x, vnorm x <> 0 -> sdf_grad SphereD (floats x) = floats (sphere_normal x).
Proof. exact sphere_grad_fin. Qed.
