(** * Consensus states of RegCombinationCBO near a sphere, small steps *)
From Coq Require Import List Arith Bool Reals Lra Lia.
From Verif Require Import Scalar ScalarFacts RFacts Np NpFacts State Pdyn Exec RVec RVecFacts ConsSpec Consensus Cbo CboSpec MemSpec
  RegSched RegFacts Variant VarSpec RegVar ProxSpec MatSqrt Constraints ConSpec ConFacts ConRunSpec ConRun ConReg CboFacts.
Import ListNotations.
Open Scope R_scope.

Lemma sphere_attracts : forall r fac, 0 < r -> 0 < fac -> 4 * fac * (r * r) < 1 -> exists q eta, 0 <= q < 1 /\ 0 < eta /\ forall p, let v := sqnorm p - r * r in Rabs v < eta ->
  1 + 4 * fac * v <> 0 /\ Rabs (sqnorm (sphere_point r fac p) - r * r) <= q * Rabs v.
Proof.
  intros r fac Hr Hf Hs. assert (R2 : 0 < fac * (r * r)) by (apply Rmult_lt_0_compat; auto; nra). set (z := Rabs (1 - 8 * fac * (r * r))). assert (Hz : 0 <= z < 1) by (unfold z, Rabs; destruct (Rcase_abs _); lra).
  set (L := 16 * fac * (fac * (r * r)) + 8 * fac). assert (HL : 0 < L) by (unfold L; nra). set (g := (1 - z) / 2).
  exists ((1 + z) / 2), (Rmin (/ (8 * fac)) (g / L)). split; [lra|]. split. { apply Rmin_pos; [apply Rinv_0_lt_compat; lra|apply Rdiv_lt_0_compat; unfold g; lra]. }
  intros p v Hv. pose proof (Rmin_l (/ (8 * fac)) (g / L)). pose proof (Rmin_r (/ (8 * fac)) (g / L)).
  assert (A2 : Rabs v * (8 * fac) < 1). { apply (Rmult_lt_reg_r (/ (8 * fac))); [apply Rinv_0_lt_compat; lra|]. rewrite Rmult_assoc, Rinv_r by lra. lra. }
  assert (A3 : Rabs v * L < g). { apply (Rmult_lt_reg_r (/ L)); [apply Rinv_0_lt_compat; lra|]. rewrite Rmult_assoc, Rinv_r by lra. unfold Rdiv in *. lra. }
  assert (B : - Rabs v <= v <= Rabs v) by (unfold Rabs; destruct (Rcase_abs v); lra). pose proof (Rabs_pos v) as V0.
  assert (D0 : 1 / 2 <= 1 + 4 * fac * v) by nra. split; [lra|]. set (D := 1 + 4 * fac * v) in *.
  assert (E : sqnorm (sphere_point r fac p) - r * r = (1 - 8 * fac * (r * r) - 16 * fac * (fac * (r * r)) * v) / (D * D) * v).
  { unfold sphere_point. fold v. fold D. unfold sqnorm. rewrite dot_vscal_l, dot_vscal_r. change (dot p p) with (sqnorm p). replace (sqnorm p) with (v + r * r) by (unfold v; ring). unfold D. field. fold D. lra. }
  rewrite E, Rabs_mult. apply Rmult_le_compat_r; auto. unfold Rdiv. rewrite Rabs_mult, (Rabs_right (/ (D * D))) by (left; apply Rinv_0_lt_compat; nra).
  apply (Rmult_le_reg_r (D * D)); [nra|]. rewrite Rmult_assoc, Rinv_l, Rmult_1_r by nra.
  assert (N : Rabs (1 - 8 * fac * (r * r) - 16 * fac * (fac * (r * r)) * v) <= z + 16 * fac * (fac * (r * r)) * Rabs v).
  { unfold Rminus at 1. eapply Rle_trans; [apply Rabs_triang|]. fold z. rewrite Rabs_Ropp, Rabs_mult, (Rabs_right (16 * fac * (fac * (r * r)))) by nra. lra. }
  assert (HD : 1 - 8 * fac * Rabs v <= D * D) by (unfold D; assert (0 <= (4 * fac * v) * (4 * fac * v)) by apply Rle_0_sqr; nra).
  unfold g, L in A3. eapply Rle_trans; [exact N|]. assert (Q : (1 + z) / 2 * (1 - 8 * fac * Rabs v) <= (1 + z) / 2 * (D * D)) by (apply Rmult_le_compat_l; lra).
  assert (T : (1 + z) / 2 * (8 * fac * Rabs v) <= 8 * fac * Rabs v) by (assert (0 <= 8 * fac * Rabs v) by nra; nra). lra.
Qed.

Fixpoint sphere_walk (r fac : R) (p : list R) (j : nat) : list R := match j with O => p | S i => sphere_point r fac (sphere_walk r fac p i) end.

Theorem reg_sphere_near : forall r dt eps, 0 < r -> 0 < dt -> 0 < eps -> 4 * (dt / eps) * (r * r) < 1 -> exists q eta, 0 <= q < 1 /\ 0 < eta /\
  forall f f0 reg pow lp k pp b partial cat ks save g la sg d m n s ob log j s' ob' p, let c := cbo_cfg f k pp NoCorr b partial cat ks save in
  penalised f0 reg pow lp c -> k <> NConst -> finite_obj d f -> (forall q, length q = d -> pp (floats q) = floats q) ->
  applies_sphere d r g -> length p = d -> Rabs (c_value (CSphere r) p) < eta ->
  vexec (reg_inner (reg_call f0 reg pow) (Some g) (Fin eps)) (reg_attr lp) c n (s, ob) log -> finite_alpha s -> parameters la dt sg s ->
  run_in (fun q => q = p) s m d -> travels (reg_inner (reg_call f0 reg pow) (Some g) (Fin eps)) c d (s, ob) j (s', ob') ->
  exists p', run_in (fun q => q = p') s' m d /\ Rabs (c_value (CSphere r) p') <= q ^ j * Rabs (c_value (CSphere r) p).
Proof.
  intros r dt eps Hr Hdt He Hs. assert (Hfac : 0 < dt / eps) by (apply Rdiv_lt_0_compat; auto). destruct (sphere_attracts r (dt / eps) Hr Hfac Hs) as (q & eta & Hq & Heta & HA). exists q, eta. split; auto. split; auto.
  intros f f0 reg pow lp k pp b partial cat ks save g la sg d m n s ob log j s' ob' p c PC Hk HF Hpp HG Lp Hp H FA PA R0 T.
  assert (E : forall x, c_value (CSphere r) x = sqnorm x - r * r) by (intros x; rewrite <- con_value by exact I; cbn [con]; rewrite <- vnorm_sq; ring). rewrite E in Hp.
  assert (LW : forall i, length (sphere_walk r (dt / eps) p i) = d) by (induction i as [|i IH]; auto; cbn [sphere_walk]; unfold sphere_point; rewrite length_vscal; auto).
  assert (W : forall i, Rabs (sqnorm (sphere_walk r (dt / eps) p i) - r * r) <= q ^ i * Rabs (sqnorm p - r * r) /\ q ^ i <= 1).
  { induction i as [|i [IH1 IH2]]; [cbn [sphere_walk Rpow_def.pow]; lra|]. pose proof (Rabs_pos (sqnorm p - r * r)). assert (0 <= q ^ i) by (apply pow_le; lra).
    cbn [sphere_walk Rpow_def.pow]. destruct (HA (sphere_walk r (dt / eps) p i)) as [_ A]; [nra|]. split; [|nra]. eapply Rle_trans; [exact A|]. rewrite Rmult_assoc. apply Rmult_le_compat_l; lra. }
  exists (sphere_walk r (dt / eps) p j). split; [|rewrite !E; apply W].
  apply (reg_follow f f0 reg pow lp k pp b partial cat ks save g eps la dt sg d m n s ob log j s' ob' (sphere_walk r (dt / eps) p)); auto; [lra|].
  intros i Hi. destruct (W i) as [A B]. pose proof (Rabs_pos (sqnorm p - r * r)). destruct (HA (sphere_walk r (dt / eps) p i)) as [N _]; [nra|].
  eexists. split; [rewrite HG by auto; rewrite solve_sphere_point by exact N; reflexivity|]. cbn [sphere_walk]. apply Hpp. apply (LW (S i)).
Qed.
