(** * Consensus states of RegCombinationCBO under constraints *)
From Coq Require Import List Arith Bool Reals Lra Lia.
From Verif Require Import Scalar ScalarFacts RFacts Np NpFacts State Pdyn Exec PdynFacts PdynStep PdynRun PdynOk RVec RVecFacts ConsSpec ConsFacts Consensus Cbo CboSpec CboFacts AbsorbFacts MemSpec
  RegSched RegFacts Variant VarSpec VarFacts VarMove VarExactSpec VarExact RegVar ProxSpec ConvSpec ConvFacts MatSqrt Constraints ConSpec ConFacts ConRunSpec ConRun.
Import ListNotations.
Open Scope R_scope.

(** a run in consensus follows the solver *)
Lemma reg_follow : forall f f0 reg pow lp k pp b partial cat ks save g eps la dt sg d m n s ob log j s' ob' (P : nat -> list R), let c := cbo_cfg f k pp NoCorr b partial cat ks save in
  penalised f0 reg pow lp c -> k <> NConst -> eps <> 0 -> finite_obj d f -> (forall i, length (P i) = d) ->
  (forall i, (i < j)%nat -> exists q, g (Fin (dt / eps)) (floats (P i)) (floats (P i)) = Ok q /\ pp q = floats (P (S i))) ->
  vexec (reg_inner (reg_call f0 reg pow) (Some g) (Fin eps)) (reg_attr lp) c n (s, ob) log -> finite_alpha s -> parameters la dt sg s ->
  run_in (fun q => q = P 0%nat) s m d -> travels (reg_inner (reg_call f0 reg pow) (Some g) (Fin eps)) c d (s, ob) j (s', ob') -> run_in (fun q => q = P j) s' m d.
Proof.
  intros f f0 reg pow lp k pp b partial cat ks save g eps la dt sg d m n s ob log j s' ob' P c PC Hk He HF LP HP H FA (P1 & P2 & P3 & P4) R0 T.
  assert (C1 : one_consensus_point c) by (apply cbo_one_point).
  pose proof (reg_regular f0 reg pow lp (Some g) (Fin eps)) as RG. pose proof (@reg_attr_ok R vec lp) as RA.
  apply (travels_in (reg_inner (reg_call f0 reg pow) (Some g) (Fin eps)) (reg_attr lp) _ _ RG RA c (conj PC C1) (fun i q => q = P i) d m n s ob log j j s' ob'); auto.
  clear s' ob' T. intros i n1 s1 e1 l1 o s2 e2 Hij E1 PV HD HA NA K3 K4 K5 K6 K1 HS R1 kk x Hx Lx Cx. subst x.
  destruct (vexec_inv _ _ _ _ RG RA c n1 s1 e1 l1 (conj PC C1) E1) as [W _].
  assert (HM : (1 <= s_M s1)%nat) by (destruct (s_active s1); [congruence|rewrite <- HA; cbn; lia]).
  destruct (reg_move f0 reg pow lp (Some g) (Fin eps) c n1 s1 e1 l1 o s2 e2 PC C1 E1 PV HM HA HS m kk (floats (P i)) Hx) as (cp & w & HO & HW & HC).
  assert (FA1 : finite_alpha s1) by (intros r Hr; rewrite K3; apply FA; congruence).
  assert (CV : convex_set d (fun q => q = P i)).
  { intros p q t Lp Lq -> -> Ht. apply (coord_ext _ _ d); auto. apply mix_length; auto. intros r _. rewrite (mix_coord t (P i) (P i) d) by auto. ring. }
  destruct (own_in f k pp b partial cat ks save _ d o s1 m cp HF CV W PV FA1 R1 HO) as (q & -> & Lq & ->).
  destruct (HD m kk) as (z & Ez & Lz). rewrite Ez in HW. unfold pull, kick in HW. rewrite K4, K5, K6, P1, P2, P3 in HW.
  cbn [c cbo_cfg c_vadd c_vsub c_vscale c_noise] in HW. cbv zeta in HW. rewrite fdiv_fin in HW by auto. cbn [fmul kmul KOps_R] in HW.
  rewrite floats_sub, noise_floats, !floats_scal, floats_sub, floats_add in HW by auto.
  assert (Ex : vadd (vsub (P i) (vscal (la * dt) (vsub (P i) (P i)))) (vscal sg (rnoise k dt (vsub (P i) (P i)) z)) = P i).
  { pose proof (rmove_same k la dt sg (P i) z Hk ltac:(rewrite LP; auto)) as RM. assert (LS : length (vsub (P i) (P i)) = d) by (apply length_vsub; auto).
    assert (LR : length (rnoise k dt (vsub (P i) (P i)) z) = d) by (apply length_rnoise; auto).
    transitivity (rmove k la dt sg (P i) (P i) z); auto. assert (L2 : length (vsub (P i) (vscal (la * dt) (vsub (P i) (P i)))) = d) by (apply length_vsub; rewrite ?length_vscal; auto).
    apply (coord_ext _ _ d). apply length_vadd; rewrite ?length_vscal; auto. rewrite RM. auto.
    intros r _. rewrite (coord_rmove _ _ _ _ _ _ _ _ d) by auto. rewrite coord_vadd by (rewrite length_vscal; congruence). rewrite coord_vsub by (rewrite length_vscal; rewrite LS; auto).
    rewrite !coord_vscal, coord_vsub by auto. ring. }
  rewrite Ex in HW. destruct (HP i Hij) as (q & Hq & Hpq). rewrite Hq in HW. injection HW as <-. exists (P (S i)). split; auto. rewrite HC. cbn [c cbo_cfg c_pp]. rewrite Hpq. auto.
Qed.

(** the point after j steps with one plane *)
Fixpoint plane_point (a : list R) (b fac : R) (p : list R) (j : nat) : list R :=
  match j with O => p | S i => let q := plane_point a b fac p i in solve_plane a b q q fac end.

Lemma solve_plane_len : forall a b x xt fac, length a = length xt -> length (solve_plane a b x xt fac) = length xt.
Proof. intros. unfold solve_plane. apply length_vsub; rewrite ?map_length; auto. Qed.
Lemma plane_point_len : forall a b fac p d j, length a = d -> length p = d -> length (plane_point a b fac p j) = d.
Proof. intros a b fac p d j La Lp. induction j; cbn; auto. rewrite solve_plane_len; congruence. Qed.
Lemma plane_point_value : forall a b fac p d j, length a = d -> vnorm a <> 0 -> length p = d -> con (CPlane a b) (plane_point a b fac p j) = (1 - 2 * fac) ^ j * con (CPlane a b) p.
Proof.
  intros a b fac p d j La Ha Lp. induction j as [|j IH]; [cbn [plane_point pow]; ring|]. cbn [plane_point pow]. set (q := plane_point a b fac p j) in *.
  assert (Lq : length q = d) by (apply plane_point_len; auto). unfold solve_plane.
  assert (E : map (fun ai => 2 * fac * con (CPlane a b) q * ai / vnorm a) a = vscal (2 * fac * con (CPlane a b) q) (normal a)).
  { unfold normal, vscal. rewrite map_map. apply map_ext. intros. unfold Rdiv. ring. }
  rewrite E. rewrite con_normal at 1 by auto. rewrite dot_vsub_r by (rewrite length_vscal, normal_len; congruence). rewrite dot_vscal_r, normal_unit by auto.
  replace ((1 - 2 * fac) * (1 - 2 * fac) ^ j * con (CPlane a b) p) with ((1 - 2 * fac) * con (CPlane a b) q) by (rewrite IH; ring). rewrite !con_normal by auto. ring.
Qed.

Theorem reg_plane : forall f f0 reg pow lp k pp b partial cat ks save g a b0 eps la dt sg d m n s ob log j s' ob' p, let c := cbo_cfg f k pp NoCorr b partial cat ks save in
  penalised f0 reg pow lp c -> k <> NConst -> eps <> 0 -> finite_obj d f -> (forall q, length q = d -> pp (floats q) = floats q) ->
  length a = d -> vnorm a <> 0 -> applies_plane d a b0 g -> length p = d ->
  vexec (reg_inner (reg_call f0 reg pow) (Some g) (Fin eps)) (reg_attr lp) c n (s, ob) log -> finite_alpha s -> parameters la dt sg s ->
  run_in (fun q => q = p) s m d -> travels (reg_inner (reg_call f0 reg pow) (Some g) (Fin eps)) c d (s, ob) j (s', ob') ->
  exists p', run_in (fun q => q = p') s' m d /\ c_value (CPlane a b0) p' = (1 - 2 * (dt / eps)) ^ j * c_value (CPlane a b0) p.
Proof.
  intros f f0 reg pow lp k pp b partial cat ks save g a b0 eps la dt sg d m n s ob log j s' ob' p c PC Hk He HF Hpp La Ha HGp Lp H FA PA R0 T.
  set (P := plane_point a b0 (dt / eps) p). assert (LP : forall i, length (P i) = d) by (intros; apply plane_point_len; auto).
  exists (P j). split.
  - eapply (reg_follow f f0 reg pow lp k pp b partial cat ks save g eps la dt sg d m n s ob log j s' ob' P); eauto.
  - rewrite <- !con_value by (split; rewrite ?LP; congruence). apply (plane_point_value a b0 (dt / eps) p d j); auto.
Qed.

(** one step of a run in consensus with one sphere *)
Definition sphere_point (r fac : R) (p : list R) : list R := vscal (/ (1 + 4 * fac * (sqnorm p - r * r))) p.

Lemma solve_sphere_point : forall r fac p, 1 + 4 * fac * (sqnorm p - r * r) <> 0 -> solve_sphere r p p fac = floats (sphere_point r fac p).
Proof.
  intros r fac p H. unfold solve_sphere, sphere_point. replace (vnorm p ^ 2 - r ^ 2) with (sqnorm p - r * r) by (rewrite <- vnorm_sq; ring).
  rewrite fdiv_fin by auto. rewrite floats_scal. unfold Rdiv. rewrite Rmult_1_l. auto.
Qed.
Lemma sphere_pushed : forall r fac, 0 < fac -> 1 < 4 * fac * (r * r) -> exists eta, 0 < eta /\ forall p, let v := sqnorm p - r * r in 0 < Rabs v < eta ->
  1 + 4 * fac * v <> 0 /\ Rabs v < Rabs (sqnorm (sphere_point r fac p) - r * r).
Proof.
  intros r fac Hf Hr. set (K := 8 * fac * (r * r) - 2). assert (HK : 0 < K) by (unfold K; lra). set (L := 16 * fac * fac * (r * r) + 8 * fac + 16 * fac * fac).
  assert (HL : 0 < L) by (unfold L; pose proof (Rle_0_sqr r) as S; unfold Rsqr in S; nra).
  exists (Rmin 1 (Rmin (/ (8 * fac)) (K / (2 * L)))). split. { repeat apply Rmin_pos; [lra|apply Rinv_0_lt_compat; lra|apply Rdiv_lt_0_compat; lra]. }
  intros p v [V0 V1]. pose proof (Rmin_l 1 (Rmin (/ (8 * fac)) (K / (2 * L)))). pose proof (Rmin_r 1 (Rmin (/ (8 * fac)) (K / (2 * L)))).
  pose proof (Rmin_l (/ (8 * fac)) (K / (2 * L))). pose proof (Rmin_r (/ (8 * fac)) (K / (2 * L))).
  assert (A1 : Rabs v < 1) by lra. assert (A2 : Rabs v * (8 * fac) < 1). { apply (Rmult_lt_reg_r (/ (8 * fac))); [apply Rinv_0_lt_compat; lra|]. rewrite Rmult_assoc, Rinv_r by lra. lra. }
  assert (A3 : Rabs v * (2 * L) < K). { apply (Rmult_lt_reg_r (/ (2 * L))); [apply Rinv_0_lt_compat; lra|]. rewrite Rmult_assoc, Rinv_r by lra. unfold Rdiv in *. lra. }
  assert (B : - Rabs v <= v <= Rabs v) by (unfold Rabs; destruct (Rcase_abs v); lra).
  assert (D0 : 1 / 2 <= 1 + 4 * fac * v) by nra. split; [lra|]. set (D := 1 + 4 * fac * v) in *.
  assert (E : sqnorm (sphere_point r fac p) - r * r = v * (1 - 8 * fac * (r * r) - 16 * fac * fac * (r * r) * v) / (D * D)).
  { unfold sphere_point. fold v. fold D. unfold sqnorm. rewrite dot_vscal_l, dot_vscal_r. change (dot p p) with (sqnorm p). replace (sqnorm p) with (v + r * r) by (unfold v; ring). unfold D. field. fold D. lra. }
  rewrite E. unfold Rdiv. rewrite !Rabs_mult, (Rabs_right (/ (D * D))) by (left; apply Rinv_0_lt_compat; nra). rewrite Rmult_assoc.
  rewrite <- (Rmult_1_r (Rabs v)) at 1. apply Rmult_lt_compat_l; auto. apply (Rmult_lt_reg_r (D * D)); [nra|]. rewrite Rmult_assoc, Rinv_l, Rmult_1_l, Rmult_1_r by nra.
  assert (HD : D * D <= 1 + 8 * fac * Rabs v + 16 * fac * fac * Rabs v).
  { unfold D. assert (v * v = Rabs v * Rabs v) by (unfold Rabs; destruct (Rcase_abs v); ring). assert (v * v <= Rabs v) by nra. assert (0 < fac * fac) by nra. nra. }
  assert (HN : 1 + K - 16 * fac * fac * (r * r) * Rabs v <= Rabs (1 - 8 * fac * (r * r) - 16 * fac * fac * (r * r) * v)).
  { rewrite <- (Rabs_Ropp (1 - _ - _)). eapply Rle_trans; [|apply Rle_abs]. unfold K. assert (H3' : 0 <= 16 * fac * fac * (r * r)) by (pose proof (Rle_0_sqr r) as S; unfold Rsqr in S; assert (0 < fac * fac) by nra; nra).
    assert (16 * fac * fac * (r * r) * v >= - (16 * fac * fac * (r * r) * Rabs v)) by (clear - B H3'; revert H3'; generalize (16 * fac * fac * (r * r)); intros; nra). lra. }
  unfold L in A3. clear - A3 HD HN V0 HK. lra.
Qed.

Theorem reg_sphere : forall r dt eps, 0 < dt -> 0 < eps -> 1 < 4 * (dt / eps) * (r * r) -> exists eta, 0 < eta /\
  forall f f0 reg pow lp k pp b partial cat ks save g la sg d m n s ob log s' ob' p, let c := cbo_cfg f k pp NoCorr b partial cat ks save in
  penalised f0 reg pow lp c -> k <> NConst -> finite_obj d f -> (forall q, length q = d -> pp (floats q) = floats q) ->
  applies_sphere d r g -> length p = d -> 0 < Rabs (c_value (CSphere r) p) < eta ->
  vexec (reg_inner (reg_call f0 reg pow) (Some g) (Fin eps)) (reg_attr lp) c n (s, ob) log -> finite_alpha s -> parameters la dt sg s ->
  run_in (fun q => q = p) s m d -> travels (reg_inner (reg_call f0 reg pow) (Some g) (Fin eps)) c d (s, ob) 1 (s', ob') ->
  exists p', run_in (fun q => q = p') s' m d /\ Rabs (c_value (CSphere r) p) < Rabs (c_value (CSphere r) p').
Proof.
  intros r dt eps Hdt He Hr. assert (Hf : 0 < dt / eps) by (apply Rdiv_lt_0_compat; auto). destruct (sphere_pushed r (dt / eps) Hf Hr) as (eta & Heta & HP). exists eta. split; auto.
  intros f f0 reg pow lp k pp b partial cat ks save g la sg d m n s ob log s' ob' p c PC Hk HF Hpp HGs Lp HV H FA PA R0 T.
  assert (CV : forall q, c_value (CSphere r) q = sqnorm q - r * r). { intros q. rewrite <- con_value by exact I. cbn [con]. rewrite <- vnorm_sq. ring. }
  rewrite CV in *. destruct (HP p HV) as [H0 H1].
  set (P := fun i : nat => match i with O => p | _ => sphere_point r (dt / eps) p end).
  assert (LP : forall i, length (P i) = d) by (intros [|i]; cbn; auto; unfold sphere_point; rewrite length_vscal; auto).
  exists (P 1%nat). split; [|rewrite CV; exact H1].
  eapply (reg_follow f f0 reg pow lp k pp b partial cat ks save g eps la dt sg d m n s ob log 1 s' ob' P); eauto; [lra|].
  intros i Hi. assert (i = 0)%nat as -> by lia. exists (floats (P 1%nat)). split; [|apply Hpp; auto]. cbn [P]. rewrite HGs by auto. f_equal. apply solve_sphere_point. exact H0.
Qed.

(** with dt = eps the constraint is never approached *)
Theorem reg_plane_same : forall f f0 reg pow lp k pp b partial cat ks save g a b0 eps la sg d m n s ob log j s' ob' p, let c := cbo_cfg f k pp NoCorr b partial cat ks save in
  penalised f0 reg pow lp c -> k <> NConst -> eps <> 0 -> finite_obj d f -> (forall q, length q = d -> pp (floats q) = floats q) ->
  length a = d -> vnorm a <> 0 -> applies_plane d a b0 g -> length p = d ->
  vexec (reg_inner (reg_call f0 reg pow) (Some g) (Fin eps)) (reg_attr lp) c n (s, ob) log -> finite_alpha s -> parameters la eps sg s ->
  run_in (fun q => q = p) s m d -> travels (reg_inner (reg_call f0 reg pow) (Some g) (Fin eps)) c d (s, ob) j (s', ob') ->
  exists p', run_in (fun q => q = p') s' m d /\ Rabs (c_value (CPlane a b0) p') = Rabs (c_value (CPlane a b0) p).
Proof.
  intros f f0 reg pow lp k pp b partial cat ks save g a b0 eps la sg d m n s ob log j s' ob' p c PC Hk He FO PP La Va AP Lp E FA PA RI T.
  destruct (reg_plane f f0 reg pow lp k pp b partial cat ks save g a b0 eps la eps sg d m n s ob log j s' ob' p) as (p' & R' & V'); auto.
  exists p'. split; auto. rewrite V', Rabs_mult, <- RPow_abs. replace (1 - 2 * (eps / eps)) with (-1) by (field; auto). replace (Rabs (-1)) with 1 by (symmetry; rewrite Rabs_left; lra). rewrite pow1. apply Rmult_1_l.
Qed.

(** with dt > eps the violation exceeds every bound *)
Theorem reg_plane_grows : forall dt eps v B, 0 < eps < dt -> v <> 0 -> exists J, forall f f0 reg pow lp k pp b partial cat ks save g a b0 la sg d m n s ob log j s' ob' p, let c := cbo_cfg f k pp NoCorr b partial cat ks save in
  penalised f0 reg pow lp c -> k <> NConst -> finite_obj d f -> (forall q, length q = d -> pp (floats q) = floats q) ->
  length a = d -> vnorm a <> 0 -> applies_plane d a b0 g -> length p = d -> c_value (CPlane a b0) p = v ->
  vexec (reg_inner (reg_call f0 reg pow) (Some g) (Fin eps)) (reg_attr lp) c n (s, ob) log -> finite_alpha s -> parameters la dt sg s ->
  run_in (fun q => q = p) s m d -> travels (reg_inner (reg_call f0 reg pow) (Some g) (Fin eps)) c d (s, ob) j (s', ob') -> (J <= j)%nat ->
  exists p', run_in (fun q => q = p') s' m d /\ B < Rabs (c_value (CPlane a b0) p').
Proof.
  intros dt eps v B He Hv. assert (F : 1 < dt / eps) by (apply (Rmult_lt_reg_r eps); [lra|]; unfold Rdiv; rewrite Rmult_assoc, Rinv_l by lra; lra).
  assert (V : 0 < Rabs v) by (apply Rabs_pos_lt; auto).
  destruct (Pow_x_infinity (1 - 2 * (dt / eps))) with (b := (B + 1) / Rabs v) as (J & HJ). { rewrite Rabs_left; lra. }
  exists J. intros f f0 reg pow lp k pp b partial cat ks save g a b0 la sg d m n s ob log j s' ob' p c PC Hk FO PP La Va AP Lp Hp E FA PA RI T Hj.
  destruct (reg_plane f f0 reg pow lp k pp b partial cat ks save g a b0 eps la dt sg d m n s ob log j s' ob' p) as (p' & R' & V'); auto; [lra|].
  exists p'. split; auto. rewrite V', Rabs_mult, Hp. specialize (HJ j Hj). apply Rge_le in HJ. apply (Rmult_le_compat_r (Rabs v)) in HJ; [|lra].
  unfold Rdiv in HJ at 1. rewrite Rmult_assoc, Rinv_l in HJ by lra. lra.
Qed.
