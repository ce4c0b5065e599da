(** * Runs of DriftConstrainedCBO and RegCombinationCBO under constraints *)
From Coq Require Import List Arith Bool Reals Lra Lia.
From Verif Require Import Scalar ScalarFacts RFacts Np NpFacts State Pdyn Exec PdynFacts PdynStep PdynRun PdynOk StepFrame RVec RVecFacts ConsSpec ConsFacts Consensus Cbo CboSpec CboFacts AbsorbFacts MemSpec
  TermFacts RunFacts RegSched Variant VarSpec VarFacts VarMove VarExactSpec VarExact RegVar ProxSpec ProxFacts ConvSpec ConvFacts MatSqrt Constraints ConSpec ConFacts MatFacts PotDefect RegFacts ConRunSpec.
Import ListNotations.
Open Scope R_scope.

Section Generic.
  Context {E : Type} (inner : cfg R vec -> orc vec -> st R vec -> E -> res (st R vec * E)) (attr : st R vec -> E) (Q : nat -> nat -> E -> Prop) (G : cfg R vec -> Prop).
  Hypothesis REG : regular inner Q G.
  Hypothesis QA : forall (c : cfg R vec) (s : st R vec), wf c s -> Q (s_M s) (s_N s) (attr s).
  Variable c : cfg R vec.
  Hypothesis HG : G c.

  Lemma step_same : forall n s e log o s' e', vexec inner attr c n (s, e) log -> perms_valid o s -> s_active s <> [] -> vstep inner c o (s, e) = Ok (s', e') ->
    s_M s' = s_M s /\ s_N s' = s_N s /\ s_alpha s' = s_alpha s /\ s_sigma s' = s_sigma s /\ s_lamda s' = s_lamda s /\ s_dt s' = s_dt s /\ s_active s' = s_active s.
  Proof.
    intros n s e log o s' e' H P HA HS. destruct (vexec_inv _ _ _ _ REG QA c n s e log HG H) as [W HQ].
    destruct (pre_cons_full c o s W (perms_valid_ok _ _ P)) as (s0 & sc & ci & pi & cps & CO).
    apply vstep_inv in HS. destruct HS as (s0' & s2 & E1 & E2 & E3). rewrite (co_pre _ _ _ _ _ _ _ _ CO) in E1. injection E1 as <-.
    destruct (REG c o s s0 sc ci pi cps e s2 e' HG W (perms_valid_ok _ _ P) HA CO HQ E2) as (x' & dd & fc & nf & -> & _).
    destruct CO as [_ _ _ K1 K2 K3 K4 K5 K6 _ K7 _ _ _ _ _ _ _ _ _].
    apply post_step_frame in E3. destruct E3 as (x & ud & fm & bcp & bce & be & bp & s5 & Et & ->).
    apply track_frame in Et. destruct Et as (ti & ts & h & ->). rewrite <- K1, <- K2, <- K3, <- K4, <- K5, <- K6, <- K7. destruct sc. repeat split; reflexivity.
  Qed.

  Lemma term_same' : forall (s : st R vec) b' s', terminate c s = Ok (b', s') ->
    s_x s' = s_x s /\ s_M s' = s_M s /\ s_N s' = s_N s /\ s_alpha s' = s_alpha s /\ s_sigma s' = s_sigma s /\ s_lamda s' = s_lamda s /\ s_dt s' = s_dt s.
  Proof.
    intros s b' s' H. unfold terminate in H. apply bind_ok in H. destruct H as (q & H & H2). inversion H2; subst.
    unfold select_active_runs in H. apply bind_ok in H. destruct H as (l & _ & H). inversion H. subst. destruct s; cbn; tauto.
  Qed.

  Lemma travels_same : forall n s e log d j s' e', vexec inner attr c n (s, e) log -> travels inner c d (s, e) j (s', e') ->
    (exists n' log', vexec inner attr c n' (s', e') log') /\ s_M s' = s_M s /\ s_N s' = s_N s /\ s_alpha s' = s_alpha s /\ s_sigma s' = s_sigma s /\ s_lamda s' = s_lamda s /\ s_dt s' = s_dt s.
  Proof.
    intros n s e log d j s' e' H T. remember (s', e') as p' eqn:Ep. revert s' e' Ep. induction T as [|j s1 e1 o s2 e2 T IH NA HA P HD HS|j s1 e1 b s2 T IH HT]; intros s' e' Ep; injection Ep as <- <-.
    - split; eauto 10.
    - destruct (IH _ _ eq_refl) as ((n1 & l1 & E1) & K1 & K2 & K3 & K4 & K5 & K6).
      destruct (step_same n1 s1 e1 l1 o s2 e2 E1 P NA HS) as (J1 & J2 & J3 & J4 & J5 & J6 & _).
      split; [do 2 eexists; eapply vx_step; eauto|]. repeat split; congruence.
    - destruct (IH _ _ eq_refl) as ((n1 & l1 & E1) & K1 & K2 & K3 & K4 & K5 & K6). split; [do 2 eexists; eapply vx_term; eauto|].
      destruct (term_same' _ _ _ HT) as (_ & J1 & J2 & J3 & J4 & J5 & J6). repeat split; congruence.
  Qed.

  (** if every particle of run m moves from C j to C (j+1), whatever the step, the run is in C j after j steps *)
  Lemma travels_in : forall (C : nat -> list R -> Prop) d m n s e log J j s' e', (j <= J)%nat ->
    (forall i n1 s1 e1 l1 o s2 e2, (i < J)%nat -> vexec inner attr c n1 (s1, e1) l1 -> perms_valid o s1 -> finite_draws d o -> length (s_active s1) = s_M s1 -> s_active s1 <> [] ->
      s_alpha s1 = s_alpha s -> s_sigma s1 = s_sigma s -> s_lamda s1 = s_lamda s -> s_dt s1 = s_dt s -> s_M s1 = s_M s -> vstep inner c o (s1, e1) = Ok (s2, e2) -> run_in (C i) s1 m d ->
      forall k x, cell (s_x s1) m k = Some (floats x) -> length x = d -> C i x -> exists q, cell (s_x s2) m k = Some (floats q) /\ length q = d /\ C (S i) q) ->
    vexec inner attr c n (s, e) log -> run_in (C 0%nat) s m d -> travels inner c d (s, e) j (s', e') -> run_in (C j) s' m d.
  Proof.
    intros C d m n s e log J j s' e' HJ HC H R0 T. remember (s', e') as p' eqn:Ep. revert HJ s' e' Ep.
    induction T as [|j s1 e1 o s2 e2 T IH NA HA P HD HS|j s1 e1 b s2 T IH HT]; intros HJ s' e' Ep; injection Ep as <- <-; auto.
    - specialize (IH ltac:(lia) _ _ eq_refl). destruct (travels_same _ _ _ _ _ _ _ _ H T) as ((n1 & l1 & E1) & K1 & K2 & K3 & K4 & K5 & K6).
      pose proof (HC j n1 s1 e1 l1 o s2 e2 ltac:(lia) E1 P HD HA NA K3 K4 K5 K6 K1 HS IH) as ST. destruct IH as (X & [HX1 HX2] & HXC).
      destruct (step_same n1 s1 e1 l1 o s2 e2 E1 P NA HS) as (J1 & J2 & _).
      assert (E2 : vexec inner attr c (S n1) (s2, e2) (l1 ++ evaluated s1 s2)) by (eapply vx_step; eauto).
      destruct (vexec_inv _ _ _ _ REG QA c _ s1 e1 _ HG E1) as [W _]. destruct (vexec_inv _ _ _ _ REG QA c _ s2 e2 _ HG E2) as [W' _].
      assert (Hlt : (m < s_M s1)%nat) by (rewrite <- (proj1 (w_x _ _ W)); eapply nth_error_lt; exact HX1).
      destruct (nth_error_lt_Some _ (s_x s2) m) as (xr' & Ex'). { rewrite (proj1 (w_x _ _ W')), J1. auto. }
      pose proof (proj2 (w_x _ _ W') _ _ Ex') as Lx'.
      destruct (choose_points (fun q => length q = d /\ C (S j) q) xr') as (Y & -> & HY).
      { intros u Hu. destruct (In_nth_error _ _ Hu) as (k & Hk). assert (Hk' : (k < length X)%nat). { rewrite (proj1 HX2), <- J2, <- Lx'. eapply nth_error_lt; eauto. }
        destruct (nth_error_lt_Some _ _ _ Hk') as (x & Hx). destruct (ST k x) as (q & Hq & Lq & Cq).
        - unfold cell. rewrite HX1, nth_error_map, Hx. auto. - apply HX2. eapply nth_error_In; eauto. - apply HXC. eapply nth_error_In; eauto.
        - unfold cell in Hq. rewrite Ex', Hk in Hq. injection Hq as ->. eauto. }
      exists Y. split; [split; auto; split; [rewrite map_length in Lx'; auto|]|]; intros q Hq; apply HY; auto.
    - specialize (IH HJ _ _ eq_refl). destruct (term_same' _ _ _ HT) as (J0 & _ & J2 & _). destruct IH as (X & [HX1 HX2] & HXC). exists X. split; auto. split; [congruence|]. rewrite J2. auto.
  Qed.
End Generic.

(** the consensus point of a run inside a convex set *)
Lemma own_in : forall f k pp b partial cat ks save (C : list R -> Prop) d o s m cp, let c := cbo_cfg f k pp NoCorr b partial cat ks save in
  finite_obj d f -> convex_set d C -> wf c s -> perms_valid o s -> finite_alpha s -> run_in C s m d -> own_consensus c o s m cp -> exists q, cp = floats q /\ length q = d /\ C q.
Proof.
  intros f k pp b partial cat ks save C d o s m cp c HF HC W P FA (X & [HX1 HX2] & HXC) (xr & a & xb & E1 & E2 & E3 & E4). rewrite HX1 in E1. injection E1 as <-.
  assert (Hlt : (m < s_M s)%nat) by (rewrite <- (proj1 (w_x _ _ W)); eapply nth_error_lt; exact HX1).
  destruct (FA m Hlt) as (a' & Ha'). rewrite E2 in Ha'. injection Ha' as ->.
  assert (Lxb : length xb <> 0%nat). { rewrite (takeM_length _ _ _ _ E3), run_sel_length; [|auto|apply perms_valid_ok; auto|auto]. pose proof (w_bs _ _ W). lia. }
  destruct (choose_points (fun q => In q X) xb) as (Xb & -> & HXb).
  { intros v Hv. destruct (In_nth_error _ _ Hv) as (j & Hj). assert (Hj' : (j < length (run_sel c o s m))%nat) by (rewrite <- (takeM_length _ _ _ _ E3); eapply nth_error_lt; eauto).
    destruct (nth_error_lt_Some _ _ _ Hj') as (i' & Hi1). pose proof (takeM_nth _ _ _ _ _ _ E3 Hi1) as Hi'. rewrite Hj in Hi'. symmetry in Hi'. apply nth_error_In in Hi'.
    apply in_map_iff in Hi'. destruct Hi' as (q & <- & Hq). eauto. }
  assert (Hd : forall q, In q Xb -> length q = d) by (intros q Hq; apply HX2; auto).
  assert (HL2 : (1 <= length Xb)%nat) by (rewrite map_length in Lxb; lia).
  rewrite (ccrow_finite f k pp b partial cat ks save d) in E4 by auto. injection E4 as <-. eexists. split; [reflexivity|]. split; [apply gibbs_point_length|].
  apply gibbs_convex; auto. eapply finite_admissible; eauto. split; [rewrite !map_length; auto|auto].
  intros n e p _ Hn. apply HXC, HXb. eapply nth_error_In; eauto.
Qed.

(** the unit normal of a plane *)
Definition normal (a : list R) : list R := map (fun ai => ai / vnorm a) a.
Lemma normal_len : forall a, length (normal a) = length a.
Proof. intros. apply map_length. Qed.
Lemma normal_scal : forall a, normal a = vscal (/ vnorm a) a.
Proof. intros. unfold normal, vscal. apply map_ext. intros. unfold Rdiv. ring. Qed.
Lemma normal_unit : forall a, vnorm a <> 0 -> dot (normal a) (normal a) = 1.
Proof. intros a Ha. rewrite normal_scal, dot_vscal_l, dot_vscal_r. change (dot a a) with (sqnorm a). rewrite <- vnorm_sq. field. auto. Qed.
Lemma con_normal : forall a b x, vnorm a <> 0 -> con (CPlane a b) x = dot (normal a) x - b / vnorm a.
Proof. intros a b x Ha. cbn [con]. rewrite normal_scal, dot_vscal_l. field. auto. Qed.

(** the linear system of one plane *)
Lemma plane_system : forall solve a b x xt fac y, solver solve -> length a = length x -> length xt = length x -> vnorm a <> 0 ->
  solve_hess_sq solve (CPlane a b) x xt fac = Some y -> length y = length x /\ (1 + 2 * fac) * dot (normal a) y = dot (normal a) xt.
Proof.
  intros solve a b x xt fac y HS La Lt Ha H. destruct (hess_solve_ok solve _ x xt fac y HS Lt H) as [Ly Hy]. split; auto. set (d := length x) in *.
  assert (Ln : length (normal a) = d) by (rewrite normal_len; auto).
  assert (Hy' : forall i, (i < d)%nat -> coord i y + 2 * fac * dot (normal a) y * coord i (normal a) = coord i xt).
  { intros i Hi. rewrite <- (Hy i Hi). f_equal.
    assert (M : msum d (fun j => con_hess_sq (CPlane a b) x i j * coord j y) = msum d (fun j => 2 * coord i (normal a) * (coord j (normal a) * coord j y))).
    { apply msum_ext. intros j Hj. unfold con_hess_sq. cbn [con_grad con_hess]. fold (normal a). ring. }
    rewrite M, msum_scal, <- (dot_msum _ y d) by auto. ring. }
  assert (E : xt = vadd y (vscal (2 * fac * dot (normal a) y) (normal a))).
  { apply (coord_ext _ _ d); auto. apply length_vadd; auto. rewrite length_vscal; auto. intros i Hi. rewrite coord_vadd by (rewrite length_vscal; lia). rewrite coord_vscal. symmetry. auto. }
  rewrite E, dot_vadd_r by (rewrite length_vscal; lia). rewrite dot_vscal_r, normal_unit by auto. ring.
Qed.

Lemma plane_convex : forall a b d B, length a = d -> vnorm a <> 0 -> convex_set d (fun p => Rabs (c_value (CPlane a b) p) <= B).
Proof.
  intros a b d B La Ha p q t Lp Lq Hp Hq Ht.
  rewrite <- con_value in * by (split; auto; try rewrite (mix_length t p q d); congruence). rewrite con_normal in * by auto.
  unfold mix. rewrite dot_vadd_r, !dot_vscal_r by (rewrite !length_vscal; congruence). apply Rabs_le. apply Rabs_def2_le in Hp || idtac.
  assert (- B <= dot (normal a) p - b / vnorm a <= B) by (split; [|]; revert Hp; unfold Rabs; destruct (Rcase_abs _); lra).
  assert (- B <= dot (normal a) q - b / vnorm a <= B) by (split; [|]; revert Hq; unfold Rabs; destruct (Rcase_abs _); lra). nra.
Qed.

(** DriftConstrainedCBO without noise: the violation of one plane decreases geometrically *)
Theorem dc_plane : forall f k pp b partial cat ks save solve a b0 g eps la dt d m n s log j s' u' B, let c := cbo_cfg f k pp NoCorr b partial cat ks save in
  solver solve -> length a = d -> vnorm a <> 0 -> applies_constraints d solve [CPlane a b0] g -> 0 < eps ->
  finite_obj d f -> (forall q, length q = d -> pp (floats q) = floats q) ->
  vexec (dc_inner (Some g) (Fin eps)) (fun _ => tt) c n (s, tt) log -> finite_alpha s -> parameters la dt 0 s -> 0 <= la * dt <= 1 ->
  run_in (fun p => Rabs (c_value (CPlane a b0) p) <= B) s m d -> travels (dc_inner (Some g) (Fin eps)) c d (s, tt) j (s', u') ->
  run_in (fun p => Rabs (c_value (CPlane a b0) p) <= B / (1 + 2 * (dt / eps)) ^ j) s' m d.
Proof.
  intros f k pp b partial cat ks save solve a b0 g eps la dt d m n s log j s' u' B c HSo La Ha [HGr HGs] He HF Hpp H FA (P1 & P2 & P3 & P4) Hl R0 T.
  assert (Hfac : 0 <= dt / eps) by (apply Rmult_le_pos; [auto|left; apply Rinv_0_lt_compat; auto]). set (fac := dt / eps) in *.
  assert (C1 : one_consensus_point c) by (apply cbo_one_point).
  apply (travels_in (dc_inner (Some g) (Fin eps)) (fun _ => tt) (fun _ _ _ => True) no_cond (dc_regular _ _) attr_unit c I (fun i p => Rabs (c_value (CPlane a b0) p) <= B / (1 + 2 * fac) ^ i)
    d m n s tt log j j s' u'); auto.
  2:{ destruct R0 as (X & H1 & H2). exists X. split; auto. intros p Hp. cbn [pow]. unfold Rdiv. rewrite Rinv_1, Rmult_1_r. auto. }
  clear s' u' T. intros i n1 s1 e1 l1 o s2 e2 _ E1 P HD HA NA K3 K4 K5 K6 K1 HS R1 kk x Hx Lx Cx.
  destruct (vexec_inv _ _ _ _ (dc_regular (Some g) (Fin eps)) attr_unit c n1 s1 e1 l1 I E1) as [W _].
  destruct (dc_move g (Fin eps) c n1 s1 e1 l1 o s2 e2 C1 E1 P HA HS m kk (floats x) Hx) as (cp & w & HO & HW & HC).
  assert (FA1 : finite_alpha s1) by (intros r Hr; rewrite K3; apply FA; congruence).
  destruct (own_in f k pp b partial cat ks save _ d o s1 m cp HF (plane_convex a b0 d _ La Ha) W P FA1 R1 HO) as (q & -> & Lq & Cq).
  destruct (HD m kk) as (z & Ez & Lz). rewrite Ez in HW. unfold pull, kick in HW. rewrite K4, K5, K6, P1, P2, P3 in HW.
  cbn [c cbo_cfg c_vadd c_vsub c_vscale c_noise] in HW. rewrite HGr, fdiv_fin in HW by (auto; lra). cbn [fmul kmul KOps_R] in HW.
  rewrite floats_sub, noise_floats, !floats_scal, !floats_add in HW by auto. fold fac in HW.
  set (xt := vadd _ _) in HW.
  assert (Lg : length (multi_grad_sq [CPlane a b0] x) = d) by (rewrite multi_grad_len; auto; intros k' [<-|[]]; split; congruence).
  assert (Lxq : length (vsub x q) = d) by (apply length_vsub; auto).
  assert (Lr : length (rnoise k dt (vsub x q) z) = d) by (apply length_rnoise; auto).
  assert (Lt : length xt = d). { unfold xt. apply length_vadd; [apply length_vadd|]; rewrite length_vscal; auto. }
  destruct (HGs fac x xt w Lx Lt HW) as (y & Hy & ->). cbn [multi_solve] in Hy. injection Hy as Hy.
  destruct (plane_system solve a b0 x xt fac y HSo ltac:(congruence) ltac:(congruence) Ha Hy) as [Ly Sy].
  exists (vsub x y). split; [|split; [apply length_vsub; congruence|]].
  { rewrite HC. cbn [c cbo_cfg c_pp c_vsub]. rewrite floats_sub, Hpp by (apply length_vsub; congruence). auto. }
  rewrite <- con_value in * by (split; auto; try rewrite (length_vsub x y d); congruence). rewrite con_normal in * by auto.
  rewrite dot_vsub_r by congruence.
  assert (Et : dot (normal a) xt = la * dt * (dot (normal a) x - dot (normal a) q) + 2 * fac * (dot (normal a) x - b0 / vnorm a)).
  { unfold xt. rewrite !dot_vadd_r, !dot_vscal_r, dot_vsub_r by (rewrite ?length_vscal; try (apply length_vadd; rewrite ?length_vscal); try rewrite (length_vadd _ _ d); rewrite ?length_vscal; congruence).
    assert (Eg : multi_grad_sq [CPlane a b0] x = vscal (2 * con (CPlane a b0) x) (normal a)).
    { apply (coord_ext _ _ d); auto. rewrite length_vscal, normal_len; auto. intros r Hr. rewrite multi_grad_coord by (try lia; intros k' [<-|[]]; split; congruence).
      unfold con_grad_sq. cbn [map con_grad]. fold (normal a). unfold Rsum. cbn [fold_right]. rewrite !coord_vscal. ring. }
    rewrite Eg, dot_vscal_r, normal_unit, con_normal by auto. ring. }
  rewrite Et in Sy. set (X := dot (normal a) x - b0 / vnorm a) in *. set (Y := dot (normal a) q - b0 / vnorm a) in *.
  assert (Ex : dot (normal a) x - dot (normal a) y - b0 / vnorm a = ((1 - la * dt) * X + la * dt * Y) / (1 + 2 * fac)).
  { apply (Rmult_eq_reg_l (1 + 2 * fac)); [|lra]. replace ((1 + 2 * fac) * (((1 - la * dt) * X + la * dt * Y) / (1 + 2 * fac))) with ((1 - la * dt) * X + la * dt * Y) by (field; lra).
    replace ((1 + 2 * fac) * (dot (normal a) x - dot (normal a) y - b0 / vnorm a)) with ((1 + 2 * fac) * X - (1 + 2 * fac) * dot (normal a) y) by (unfold X; ring). rewrite Sy. unfold X, Y. ring. }
  rewrite Ex. cbn [pow]. set (D := (1 + 2 * fac) ^ i) in *. assert (HDp : 0 < D) by (apply pow_lt; lra).
  replace (B / ((1 + 2 * fac) * D)) with (B / D / (1 + 2 * fac)) by (field; lra). unfold Rdiv at 1. rewrite Rabs_mult, (Rabs_right (/ (1 + 2 * fac))) by (left; apply Rinv_0_lt_compat; lra).
  apply Rmult_le_compat_r; [left; apply Rinv_0_lt_compat; lra|]. clear - Hl Cx Cq. revert Hl Cx Cq. generalize (la * dt), (B / D). clear. intros l M Hl Cx Cq. eapply Rle_trans; [apply Rabs_triang|]. rewrite !Rabs_mult, (Rabs_right (1 - l)), (Rabs_right l) by lra. nra.
Qed.
