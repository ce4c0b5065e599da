(** * HyperSurfaceCBO runs on concrete surfaces *)
From Coq Require Import List Arith Bool Reals Lra Lia.
From Verif Require Import Scalar Np NpFacts State Pdyn Exec PdynFacts RVec RVecFacts ConsSpec PolarFacts Cbo CboSpec CboFacts PostProc MatSqrt MatSpec MemSpec Variant VarSpec VarFacts VarMove
  MirrorSpec MirrorFacts MirrorProj HyperMaps HyperSpec HyperFacts.
Import ListNotations.
Open Scope R_scope.

(** without post-processing: every particle with finite coordinates is on the surface *)
Theorem hyper_runs_on_surface : forall sd noise d, surface_ok sd d -> forall (c : cfg R vec) n s u log, (forall v, c_pp c v = v) ->
  vexec (hyper_inner (surface_of sd noise)) (fun _ => tt) c n (s, u) log -> n <> 0%nat ->
  forall m k p, cell (s_x s) m k = Some (floats p) -> length p = d -> on_surface sd p.
Proof.
  intros sd noise d OK c n s u log Hpp H Hn m k p Hp Hl. destruct (hyper_on_surface _ _ _ _ _ _ H Hn m k _ Hp) as (w & E).
  rewrite Hpp in E. cbn [surface_of h_proj] in E. eapply proj_on; eauto.
Qed.

(** ** with the default post-processing *)
Lemma clip_id : forall t a, Rabs a <= t -> pp_default t false (Fin a) = Fin a.
Proof.
  intros t a H. unfold pp_default, nan_to_num, np_clip. rewrite fmax_fin, fmin_fin. f_equal.
  assert (- t <= a <= t) by (revert H; unfold Rabs; destruct (Rcase_abs a); lra). rewrite Rmax_left by lra. apply Rmin_left. lra.
Qed.
Lemma pp_fin : forall t a, 0 < t -> exists x, pp_default t false a = Fin x.
Proof. intros t a Ht. unfold pp_default, np_clip. destruct a; cbn [nan_to_num]; rewrite fmax_fin, fmin_fin; eauto. Qed.
Lemma pp_nan : forall t, 0 < t -> pp_default t false NaN = Fin t.
Proof. intros t Ht. unfold pp_default, np_clip. cbn [nan_to_num]. rewrite fmax_fin, fmin_fin. f_equal. rewrite Rmax_left by lra. apply Rmin_left. lra. Qed.
Lemma coord_le_norm : forall p a, In a p -> Rabs a <= vnorm p.
Proof.
  intros p a H. unfold vnorm. rewrite <- sqrt_Rsqr_abs. apply sqrt_le_1_alt. unfold Rsqr, sqnorm. induction p as [|b p IH]. destruct H.
  rewrite dot_cons. pose proof (sqnorm_nonneg p) as P. unfold sqnorm in P. pose proof (Rle_0_sqr b) as B. unfold Rsqr in B. destruct H as [<-|H]. lra. specialize (IH H). lra.
Qed.

Theorem sphere_default : forall t w, 1 < t -> w <> [] -> exists p, pp_point t false (sdf_proj SphereD w) = floats p /\ length p = length w /\ (sphere 1 p \/ In t p).
Proof.
  intros t w Ht Hw. assert (HL : forall p, pp_point t false (sdf_proj SphereD w) = floats p -> length p = length w).
  { intros p E. apply (f_equal (@length _)) in E. unfold pp_point in E. cbn [sdf_proj] in E. unfold floats in E. rewrite !map_length in E. auto. }
  assert (HNaN : In NaN (sdf_proj SphereD w) -> exists p, pp_point t false (sdf_proj SphereD w) = floats p /\ In t p).
  { intros HI. destruct (fin_list (pp_point t false (sdf_proj SphereD w))) as (p & E).
    { intros a Ha. unfold pp_point in Ha. apply in_map_iff in Ha. destruct Ha as (b & <- & _). apply pp_fin. lra. }
    exists p. split; auto. apply (in_map (pp_default t false)) in HI. rewrite pp_nan in HI by lra. fold (pp_point t false (sdf_proj SphereD w)) in HI. rewrite E in HI.
    unfold floats in HI. apply in_map_iff in HI. destruct HI as (x & Ex & Hx). injection Ex as ->. auto. }
  rewrite sphere_same in *. destruct (fnorm_cases w) as [E|[E|(q & Eq)]].
  - destruct HNaN as (p & Ep & Hp); [|exists p; auto]. destruct w as [|a w]; [congruence|]. rewrite E. left. apply fdiv_nan_r.
  - destruct HNaN as (p & Ep & Hp); [|exists p; auto]. destruct (fnorm_inf_has w E) as (a & Ha & N). apply in_map_iff. exists a. split; auto. rewrite E. apply fdiv_inf_r; auto.
  - destruct (Req_dec (vnorm q) 0) as [Z|Z].
    + destruct HNaN as (p & Ep & Hp); [|exists p; auto]. subst w. destruct q as [|x q]; [exfalso; apply Hw; reflexivity|].
      assert (x = 0). { apply vnorm_zero_list in Z. injection Z as -> _. auto. } subst x. rewrite fnorm_floats, Z. left. cbn [fdiv]. unfold k_is0, inf_sign. cbn [kltb k0 KOps_R].
      assert (L : Rltb 0 0 = false) by (apply Rltb_false; lra). rewrite L. auto.
    + subst w. set (g := vscal (/ vnorm q) q). assert (Eg : map (fun a => fdiv a (fnorm (floats q))) (floats q) = floats g) by (apply (sphere_grad_fin q Z)).
      exists g. assert (Sg : sphere 1 g). { unfold sphere, g. rewrite vnorm_scal. pose proof (vnorm_nonneg q). rewrite Rabs_right. field; auto. apply Rle_ge, Rlt_le, Rinv_0_lt_compat. lra. }
      assert (EP : pp_point t false (map (fun a => fdiv a (fnorm (floats q))) (floats q)) = floats g).
      { replace (map (fun a => fdiv a (fnorm (floats q))) (floats q)) with (floats g) by (symmetry; exact Eg). unfold pp_point, floats. rewrite map_map. apply map_ext_in. intros a Ha. apply clip_id. apply coord_le_norm in Ha. unfold sphere in Sg. rewrite Sg in Ha. lra. }
      split; [exact EP|]. split; [exact (HL _ EP)|]. auto.
Qed.

Theorem hyper_runs_default : forall noise t (c : cfg R vec) n s u log, 1 < t -> c_pp c = pp_point t false ->
  vexec (hyper_inner (surface_of SphereD noise)) (fun _ => tt) c n (s, u) log -> n <> 0%nat ->
  forall m k v, cell (s_x s) m k = Some v -> v <> [] -> exists p, v = floats p /\ (sphere 1 p \/ In t p).
Proof.
  intros noise t c n s u log Ht Hpp H Hn m k v Hv Hne. destruct (hyper_on_surface _ _ _ _ _ _ H Hn m k _ Hv) as (w & E). rewrite Hpp in E. cbn [surface_of h_proj] in E.
  destruct (sphere_default t w Ht) as (p & Ep & _ & D). { intros ->. apply Hne. rewrite E. reflexivity. } exists p. rewrite E. split; auto.
Qed.

(** the origin is not projected: the particle is put at (t, ..., t) *)
Theorem sphere_origin : forall t d, 0 < t -> pp_point t false (sdf_proj SphereD (floats (repeat 0 d))) = floats (repeat t d).
Proof.
  intros t d Ht. rewrite sphere_same. assert (Z : fnorm (floats (repeat 0 d)) = Fin 0).
  { rewrite fnorm_floats. f_equal. unfold vnorm. replace (sqnorm (repeat 0 d)) with 0. apply sqrt_0. unfold sqnorm. induction d as [|n IH]. reflexivity. cbn [repeat]. rewrite dot_cons. lra. }
  rewrite Z. assert (N : forall a, In a (floats (repeat 0 d)) -> pp_default t false (fdiv a (Fin 0)) = Fin t).
  { intros a Ha. unfold floats in Ha. apply in_map_iff in Ha. destruct Ha as (x & <- & Hx). apply repeat_spec in Hx. subst x. cbn [fdiv]. unfold k_is0, inf_sign. cbn [kltb k0 KOps_R].
    assert (L : Rltb 0 0 = false) by (apply Rltb_false; lra). rewrite L. cbn. apply pp_nan; auto. }
  unfold pp_point. rewrite map_map. transitivity (map (fun _ => Fin t) (floats (repeat 0 d))). apply map_ext_in; auto. clear. unfold floats. induction d; cbn in *; congruence.
Qed.
