(** * RegCombinationCBO without noise: ensembles and one plane *)
From Coq Require Import List Arith Bool Reals Lra Lia.
From Verif Require Import Scalar ScalarFacts RFacts Np NpFacts State Pdyn Exec PdynFacts PdynStep PdynRun PdynOk RVec RVecFacts ConsSpec ConsFacts Consensus Cbo CboSpec CboFacts AbsorbFacts MemSpec
  RegSched RegFacts Variant VarSpec VarFacts VarMove VarExactSpec VarExact RegVar ProxSpec ConvSpec ConvFacts MatSqrt Constraints ConSpec ConFacts ConRunSpec ConRun ConReg.
Import ListNotations.
Open Scope R_scope.

Lemma plane_step : forall a b x xt fac d, length a = d -> vnorm a <> 0 -> length xt = d -> con (CPlane a b) (solve_plane a b x xt fac) = con (CPlane a b) xt - 2 * fac * con (CPlane a b) x.
Proof.
  intros a b x xt fac d La Ha Lt. assert (E : solve_plane a b x xt fac = vsub xt (vscal (2 * fac * con (CPlane a b) x) (normal a))).
  { unfold solve_plane, normal. f_equal. unfold vscal. rewrite map_map. apply map_ext. intros z. unfold Rdiv. ring. }
  rewrite E, !(con_normal a b (vsub _ _)), dot_vsub_r, dot_vscal_r, normal_unit by (auto; rewrite length_vscal, normal_len; congruence). rewrite (con_normal a b xt) by auto. ring.
Qed.

Theorem reg_plane_all : forall f f0 reg pow lp k pp b partial cat ks save g a b0 eps la dt d m n s ob log j s' ob' B, let c := cbo_cfg f k pp NoCorr b partial cat ks save in
  penalised f0 reg pow lp c -> eps <> 0 -> finite_obj d f -> (forall q, length q = d -> pp (floats q) = floats q) ->
  length a = d -> vnorm a <> 0 -> applies_plane d a b0 g ->
  vexec (reg_inner (reg_call f0 reg pow) (Some g) (Fin eps)) (reg_attr lp) c n (s, ob) log -> finite_alpha s -> parameters la dt 0 s -> 0 <= la * dt ->
  run_in (fun p => Rabs (c_value (CPlane a b0) p) <= B) s m d -> travels (reg_inner (reg_call f0 reg pow) (Some g) (Fin eps)) c d (s, ob) j (s', ob') ->
  run_in (fun p => Rabs (c_value (CPlane a b0) p) <= B * (Rabs (1 - la * dt - 2 * (dt / eps)) + la * dt) ^ j) s' m d.
Proof.
  intros f f0 reg pow lp k pp b partial cat ks save g a b0 eps la dt d m n s ob log j s' ob' B c PC He HF Hpp La Ha HG H FA (P1 & P2 & P3 & P4) Hl R0 T.
  assert (C1 : one_consensus_point c) by (apply cbo_one_point). set (fac := dt / eps) in *. set (rate := Rabs (1 - la * dt - 2 * fac) + la * dt).
  pose proof (reg_regular f0 reg pow lp (Some g) (Fin eps)) as RG. pose proof (@reg_attr_ok R vec lp) as RA.
  apply (travels_in (reg_inner (reg_call f0 reg pow) (Some g) (Fin eps)) (reg_attr lp) _ _ RG RA c (conj PC C1) (fun i p => Rabs (c_value (CPlane a b0) p) <= B * rate ^ i) d m n s ob log j j s' ob'); auto.
  2:{ destruct R0 as (X & H1 & H2). exists X. split; auto. intros p Hp. cbn [Rpow_def.pow]. rewrite Rmult_1_r. auto. }
  clear s' ob' T. intros i n1 s1 e1 l1 o s2 e2 Hij E1 PV HD HA NA K3 K4 K5 K6 K1 HS R1 kk x Hx Lx Cx.
  destruct (vexec_inv _ _ _ _ RG RA c n1 s1 e1 l1 (conj PC C1) E1) as [W _].
  assert (HM : (1 <= s_M s1)%nat) by (destruct (s_active s1); [congruence|rewrite <- HA; cbn; lia]).
  destruct (reg_move f0 reg pow lp (Some g) (Fin eps) c n1 s1 e1 l1 o s2 e2 PC C1 E1 PV HM HA HS m kk (floats x) Hx) as (cp & w & HO & HW & HC).
  assert (FA1 : finite_alpha s1) by (intros r Hr; rewrite K3; apply FA; congruence).
  destruct (own_in f k pp b partial cat ks save _ d o s1 m cp HF (plane_convex a b0 d _ La Ha) W PV FA1 R1 HO) as (q & -> & Lq & Cq).
  destruct (HD m kk) as (z & Ez & Lz). rewrite Ez in HW. unfold pull, kick in HW. rewrite K4, K5, K6, P1, P2, P3 in HW.
  cbn [c cbo_cfg c_vadd c_vsub c_vscale c_noise] in HW. cbv zeta in HW. rewrite fdiv_fin in HW by auto. cbn [fmul kmul KOps_R] in HW.
  rewrite floats_sub, noise_floats, !floats_scal, floats_sub, floats_add in HW by auto. fold fac in HW. set (xt := vadd _ _) in HW.
  assert (Lxq : length (vsub x q) = d) by (apply length_vsub; auto).
  assert (Lr : length (rnoise k dt (vsub x q) z) = d) by (apply length_rnoise; auto).
  assert (L1 : length (vsub x (vscal (la * dt) (vsub x q))) = d) by (apply length_vsub; rewrite ?length_vscal; auto).
  assert (Lt : length xt = d) by (unfold xt; apply length_vadd; rewrite ?length_vscal; auto).
  rewrite HG in HW by auto. injection HW as <-. assert (Ly : length (solve_plane a b0 x xt fac) = d) by (rewrite solve_plane_len; congruence).
  exists (solve_plane a b0 x xt fac). split; [rewrite HC; cbn [c cbo_cfg c_pp]; rewrite Hpp; auto|]. split; auto.
  rewrite <- con_value in * by (split; congruence). rewrite (plane_step a b0 x xt fac d), !con_normal in * by auto.
  assert (Et : dot (normal a) xt - b0 / vnorm a = (1 - la * dt) * (dot (normal a) x - b0 / vnorm a) + la * dt * (dot (normal a) q - b0 / vnorm a)).
  { unfold xt. rewrite dot_vadd_r by (rewrite length_vscal; congruence). rewrite dot_vsub_r by (rewrite length_vscal; congruence). rewrite !dot_vscal_r, dot_vsub_r by congruence. ring. }
  rewrite Et. set (X := dot (normal a) x - b0 / vnorm a) in *. set (Y := dot (normal a) q - b0 / vnorm a) in *. cbn [Rpow_def.pow]. unfold rate at 1.
  clear - Hl Cx Cq. revert Hl Cx Cq. generalize (la * dt), (rate ^ i). clear. intros l D Hl Cx Cq.
  replace ((1 - l) * X + l * Y - 2 * fac * X) with ((1 - l - 2 * fac) * X + l * Y) by ring. eapply Rle_trans; [apply Rabs_triang|]. rewrite !Rabs_mult, (Rabs_right l) by lra.
  pose proof (Rabs_pos (1 - l - 2 * fac)). nra.
Qed.

Corollary reg_plane_stable : forall f f0 reg pow lp k pp b partial cat ks save g a b0 eps la dt d m n s ob log j s' ob' B, let c := cbo_cfg f k pp NoCorr b partial cat ks save in
  penalised f0 reg pow lp c -> eps <> 0 -> finite_obj d f -> (forall q, length q = d -> pp (floats q) = floats q) ->
  length a = d -> vnorm a <> 0 -> applies_plane d a b0 g ->
  vexec (reg_inner (reg_call f0 reg pow) (Some g) (Fin eps)) (reg_attr lp) c n (s, ob) log -> finite_alpha s -> parameters la dt 0 s -> 0 <= la * dt -> la * dt + 2 * (dt / eps) <= 1 ->
  run_in (fun p => Rabs (c_value (CPlane a b0) p) <= B) s m d -> travels (reg_inner (reg_call f0 reg pow) (Some g) (Fin eps)) c d (s, ob) j (s', ob') ->
  run_in (fun p => Rabs (c_value (CPlane a b0) p) <= B * (1 - 2 * (dt / eps)) ^ j) s' m d.
Proof.
  intros f f0 reg pow lp k pp b partial cat ks save g a b0 eps la dt d m n s ob log j s' ob' B c PC He HF Hpp La Ha HG H FA PA Hl Hs R0 T.
  pose proof (reg_plane_all f f0 reg pow lp k pp b partial cat ks save g a b0 eps la dt d m n s ob log j s' ob' B PC He HF Hpp La Ha HG H FA PA Hl R0 T) as R.
  rewrite Rabs_right in R by lra. replace (1 - la * dt - 2 * (dt / eps) + la * dt) with (1 - 2 * (dt / eps)) in R by ring. exact R.
Qed.
