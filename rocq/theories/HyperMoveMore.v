(** * HyperSurfaceCBO: any number of steps, and the correction in examples *)
From Coq Require Import List Arith Bool Reals Permutation Lia Lra.
From Verif Require Import Scalar Np NpFacts State Pdyn PdynRun PdynOk PdynStep PdynFacts Exec BcFacts RVec RVecFacts Consensus ConsSpec ConsFacts Cbo CboSpec CboFacts MirrorSpec HyperMaps HyperSpec HyperFacts
  Variant VarSpec VarFacts VarMove RegVar BestFacts MemSpec HyperRun HyperMoveSpec HyperMoveFacts HyperMoveRun HyperTotal RegFacts VarExactSpec VarExact MomentSpec.
Import ListNotations.
Open Scope R_scope.

Lemma moves_exist : forall f k pp b partial cat ks save sd n s log d (os : nat -> orc vec) j, let c := hyper_cfg f k pp b partial cat ks save in
  vexec (hyper_inner (surface_of sd k)) (fun _ => tt) c n (s, tt) log -> s_active s <> [] -> length (s_active s) = s_M s ->
  (forall i, perms_valid (os i) s /\ finite_draws d (os i)) -> exists s', moves c (surface_of sd k) d s j s' /\ s_active s' = s_active s.
Proof.
  intros f k pp b partial cat ks save sd n s log d os j c E HA HL HO. induction j as [|j (s1 & M & EA)]; [exists s; split; [constructor|auto]|].
  destruct (moves_keep f k pp b partial cat ks save sd n s log d j s1 E M) as ((n1 & l1 & E1) & K1 & K2 & _).
  destruct (HO j) as [P D]. assert (P1 : perms_valid (os j) s1) by (intros m Hm; rewrite K2; apply P; congruence).
  assert (L1 : length (s_active s1) = s_M s1) by congruence. assert (A1 : s_active s1 <> []) by congruence.
  destruct (hyper_total (surface_of sd k) c n1 s1 tt l1 (os j) (hyper_one f k pp b partial cat ks save) E1 P1 L1) as (s2 & HS).
  destruct (hyper_keeps f k pp b partial cat ks save sd n1 s1 l1 (os j) s2 tt E1 P1 A1 HS) as (_ & _ & _ & _ & _ & _ & K7).
  exists s2. split; [|congruence]. eapply mv_step; eauto.
Qed.

Lemma lamda_nothing : forall K V (O : KOps K) S (c : cfg K V) n s log o la, one_consensus_point c ->
  vexec (hyper_inner S) (fun _ => tt) c n (s, tt) log -> perms_valid o s -> s_active s <> [] -> length (s_active s) = s_M s ->
  exists s1 s2, vstep (hyper_inner S) c o (s, tt) = Ok (s1, tt) /\ vstep (hyper_inner S) c o (set_lamda la s, tt) = Ok (s2, tt) /\ s_x s1 = s_x s2.
Proof.
  intros K V O S c n s log o la C1 H P NA HA. destruct (vexec_inv _ _ _ _ (hyper_regular S) attr_unit c n s tt log C1 H) as [W _].
  assert (H' : vexec (hyper_inner S) (fun _ => tt) c n (set_lamda la s, tt) log).
  { eapply vx_params; [exact H|]. exists (s_alpha s), (s_sigma s), la, (s_dt s). split; [|destruct s; reflexivity]. pose proof (w_al _ _ W) as [Q1 Q2]. split; auto. apply Forall_forall. intros r Hr. destruct (In_nth_error _ _ Hr) as (j & Hj). eapply Q2; eauto. }
  assert (P' : perms_valid o (set_lamda la s)) by (destruct s; exact P).
  assert (HA' : length (s_active (set_lamda la s)) = s_M (set_lamda la s)) by (destruct s; exact HA).
  assert (NA' : s_active (set_lamda la s) <> []) by (destruct s; exact NA).
  assert (X' : s_x (set_lamda la s) = s_x s /\ s_M (set_lamda la s) = s_M s /\ s_N (set_lamda la s) = s_N s) by (destruct s; auto). destruct X' as (X1 & X2 & X3).
  destruct (hyper_total S c n s tt log o C1 H P HA) as (s1 & E1). destruct (hyper_total S c n _ tt log o C1 H' P' HA') as (s2 & E2).
  exists s1, s2. split; [exact E1|]. split; [exact E2|].
  pose proof (lamda_ignored K V O S c n s log o la s1 s2 tt tt C1 H P HA E1 E2) as Cells.
  assert (W' : wf c (set_lamda la s)) by (destruct (vexec_inv _ _ _ _ (hyper_regular S) attr_unit c n _ tt log C1 H'); auto).
  destruct (VarFacts.vstep_good _ _ _ (hyper_regular S) c o s tt s1 tt C1 W (perms_valid_ok _ _ P) NA I E1) as [(W1 & (M1 & N1 & _) & _) _].
  destruct (VarFacts.vstep_good _ _ _ (hyper_regular S) c o _ tt s2 tt C1 W' (perms_valid_ok _ _ P') NA' I E2) as [(W2 & (M2 & N2 & _) & _) _].
  pose proof (w_x _ _ W1) as R1. pose proof (w_x _ _ W2) as R2. rewrite M1, N1 in R1. rewrite M2, N2, X2, X3 in R2.
  apply (cell_ext _ (s_M s) (s_N s)); auto. intros m i v Hv.
  assert (Hm : (m < s_M s)%nat /\ (i < s_N s)%nat).
  { unfold cell in Hv. destruct (nth_error (s_x s1) m) eqn:Em; [|discriminate]. split.
    - rewrite <- (proj1 R1). eapply nth_error_lt; eauto.
    - rewrite <- (proj2 R1 _ _ Em). eapply nth_error_lt; eauto. }
  destruct Hm as [Hm Hi]. pose proof (w_x _ _ W) as RX. rewrite <- (proj1 RX) in Hm. destruct (nth_error_lt_Some _ _ _ Hm) as [row Er].
  pose proof (proj2 RX _ _ Er) as Lr. rewrite <- Lr in Hi. destruct (nth_error_lt_Some _ _ _ Hi) as [w Ew].
  rewrite <- (Cells m i w); auto. unfold cell. rewrite Er. exact Ew.
Qed.

(** the correction of anisotropic noise *)
Lemma aniso_defect : exists x cp, vnorm x = 1 /\ vnorm cp = 1 /\ length x = 2%nat /\ length cp = 2%nat /\ defect NAniso x (vsub x cp) < 0.
Proof.
  exists [3/5; 4/5], [0; 1]. split; [|split; [|split; [auto|split; [auto|]]]].
  - unfold vnorm, sqnorm, dot. cbn. replace (_ + _) with 1 by field. apply sqrt_1.
  - unfold vnorm, sqnorm, dot. cbn. replace (_ + _) with 1 by field. apply sqrt_1.
  - unfold defect, weighted, dot, vsub, coord. cbn. lra.
Qed.
Lemma const_defect : exists x cp, vnorm x = 1 /\ vnorm cp = 1 /\ length x = 2%nat /\ length cp = 2%nat /\ 0 < defect NConst x (vsub x cp).
Proof.
  exists [3/5; 4/5], [4/5; 3/5]. split; [|split; [|split; [auto|split; [auto|]]]].
  - unfold vnorm, sqnorm, dot. cbn. replace (_ + _) with 1 by field. apply sqrt_1.
  - unfold vnorm, sqnorm, dot. cbn. replace (_ + _) with 1 by field. apply sqrt_1.
  - unfold defect, sqnorm, dot, vsub. cbn. lra.
Qed.

(** on a plane, without noise (zero draws) *)
Lemma plane_iso : forall a b dt sg x cp d, surface_ok (PlaneD a b) d -> length x = d -> length cp = d ->
  h_nc (surface_of (PlaneD a b) NIso) (Fin dt) (Fin sg) (floats x) (floats (vsub x cp)) = floats (repeat 0 d).
Proof.
  intros a b dt sg x cp d (Hd & La & Na) Lx Lc. cbn [surface_of h_nc]. unfold nc_iso. cbn [sdf_lap sdf_grad]. rewrite fnorm_floats. cbn [fmul kmul KOps_R]. rewrite fdiv_fin by lra. cbn [fmul kmul KOps_R].
  rewrite map_map. unfold floats. apply nth_ext with (d := Fin 0) (d' := Fin 0); [rewrite !map_length, repeat_length; auto|]. rewrite map_length. intros i Hi.
  rewrite (nth_indep _ _ (fmul (Fin (dt * (sg * sg) / 2 * 0 * (vnorm (vsub x cp) * vnorm (vsub x cp)))) (Fin (0 / vnorm a)))) by (rewrite map_length; auto).
  rewrite (map_nth (fun y => fmul _ (Fin (y / vnorm a)))). rewrite map_nth. cbn [fmul kmul KOps_R]. f_equal. rewrite nth_repeat. ring.
Qed.
Lemma plane_aniso : exists a b x cp, surface_ok (PlaneD a b) 2 /\ plane a b x /\ plane a b cp /\ length x = 2%nat /\ length cp = 2%nat /\
  forall dt sg, h_nc (surface_of (PlaneD a b) NAniso) (Fin dt) (Fin sg) (floats x) (floats (vsub x cp)) = floats [0; - 6 * dt * sg ^ 2].
Proof.
  exists [1; 0], 0, [0; 2], [0; 3]. split; [|split; [|split; [|split; [auto|split; [auto|]]]]].
  - split; [lia|]. split; auto. unfold vnorm, sqnorm, dot. cbn. replace (_ + _) with 1 by ring. rewrite sqrt_1. lra.
  - unfold plane, dot. cbn. ring.
  - unfold plane, dot. cbn. ring.
  - intros. cbn [surface_of h_nc]. unfold nc_aniso. rewrite fnorm_floats, floats_mul. unfold floats at 3. rewrite fsum_fin.
    assert (E : vnorm (vsub [0; 2] [0; 3]) * vnorm (vsub [0; 2] [0; 3]) = 1) by (rewrite vnorm_sq; unfold sqnorm, dot, vsub; cbn; ring).
    cbn [fmul kmul KOps_R fadd fsub kadd ksub]. rewrite fdiv_fin by lra. change (kmul (vnorm (vsub [0; 2] [0; 3])) (vnorm (vsub [0; 2] [0; 3]))) with (vnorm (vsub [0; 2] [0; 3]) * vnorm (vsub [0; 2] [0; 3])). rewrite E. unfold vsub, floats. cbn [map map2 fmul kmul KOps_R fadd fsub kadd ksub]. unfold dot. f_equal; [f_equal; cbn; field|f_equal; f_equal; cbn; field].
Qed.

Lemma hyper_tilde : forall f k pp b partial cat ks save sd n s log o s' u', let c := hyper_cfg f k pp b partial cat ks save in
  vexec (hyper_inner (surface_of sd k)) (fun _ => tt) c n (s, tt) log -> perms_valid o s -> length (s_active s) = s_M s ->
  vstep (hyper_inner (surface_of sd k)) c o (s, tt) = Ok (s', u') ->
  forall m i v, cell (s_x s) m i = Some v -> exists cp, own_consensus c o s m cp /\
    cell (s_x s') m i = Some (pp (sdf_proj sd (x_tilde sd k (s_dt s) (s_sigma s) v cp (o_z o m i)))).
Proof.
  intros f k pp b partial cat ks save sd n s log o s' u' c E P L HS m i v Hv.
  exact (hyper_move (surface_of sd k) c n s tt log o s' u' (hyper_one f k pp b partial cat ks save) E P L HS m i v Hv).
Qed.
Lemma aniso_drifts : exists x cp, vnorm x = 1 /\ vnorm cp = 1 /\ length x = 2%nat /\ length cp = 2%nat /\ exists del, del < 0 /\ forall sg, exists C, 0 <= C /\
  forall dt Om (A : average Om) xi, 0 <= dt -> white A 2 1 xi -> exists q, (forall w, x_tilde SphereD NAniso (Fin dt) (Fin sg) (floats x) (floats cp) (floats (xi w)) = floats (q w)) /\
    mean_is A (fun w => sqnorm (q w)) (1 + dt * sg ^ 2 * del + dt ^ 2 * C).
Proof.
  destruct aniso_defect as (x & cp & H1 & H2 & H3 & H4 & H5). exists x, cp. do 4 (split; [auto|]). exists (defect NAniso x (vsub x cp)). split; auto. intros sg. apply sphere_mean; auto.
Qed.
Lemma const_drifts : exists x cp, vnorm x = 1 /\ vnorm cp = 1 /\ length x = 2%nat /\ length cp = 2%nat /\ exists del, 0 < del /\ forall sg, exists C, 0 <= C /\
  forall dt Om (A : average Om) xi, 0 <= dt -> white A 2 1 xi -> exists q, (forall w, x_tilde SphereD NConst (Fin dt) (Fin sg) (floats x) (floats cp) (floats (xi w)) = floats (q w)) /\
    mean_is A (fun w => sqnorm (q w)) (1 + dt * sg ^ 2 * del + dt ^ 2 * C).
Proof.
  destruct const_defect as (x & cp & H1 & H2 & H3 & H4 & H5). exists x, cp. do 4 (split; [auto|]). exists (defect NConst x (vsub x cp)). split; auto. intros sg. apply sphere_mean; auto.
Qed.
Lemma iso_keeps : forall sg x cp d, vnorm x = 1 -> length x = d -> length cp = d -> exists C, 0 <= C /\
  forall dt Om (A : average Om) xi, 0 <= dt -> white A d 1 xi -> exists q, (forall w, x_tilde SphereD NIso (Fin dt) (Fin sg) (floats x) (floats cp) (floats (xi w)) = floats (q w)) /\
    mean_is A (fun w => sqnorm (q w)) (1 + dt ^ 2 * C).
Proof.
  intros sg x cp d H1 H2 H3. destruct (sphere_mean NIso sg x cp d H1 H2 H3) as (C & HC & H). exists C. split; auto. intros dt Om A xi Hdt W.
  destruct (H dt Om A xi Hdt W) as (q & Q1 & Q2). exists q. split; auto. replace (1 + dt ^ 2 * C) with (1 + dt * sg ^ 2 * defect NIso x (vsub x cp) + dt ^ 2 * C); auto. cbn [defect]. ring.
Qed.
