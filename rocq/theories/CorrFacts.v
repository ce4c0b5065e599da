(** * One step with a Heaviside correction, over the reals *)
From Coq Require Import String List Arith Bool Reals Permutation Lia Lra.
From Verif Require Import Scalar Np NpFacts State Pdyn PdynFacts PdynStep PdynRun PdynOk Exec RunFacts MoveFacts HeaviFacts RVec RVecFacts
  Consensus ConsSpec ConsFacts PostProc PostFacts Cbo CboSpec CboFacts AbsorbFacts.
Import ListNotations.
Open Scope R_scope.

Lemma coord_rmove_along : forall i k la dt sg dr x z d, length dr = d -> length x = d -> length z = d ->
  coord i (rmove_along k la dt sg dr x z) = coord i x - la * dt * coord i dr + sg * coord i (rnoise k dt dr z).
Proof.
  intros i k la dt sg dr x z d Hc Hx Hz. unfold rmove_along.
  assert (L2 : length (rnoise k dt dr z) = d) by (apply length_rnoise; auto).
  rewrite coord_vadd by (rewrite Hx; symmetry; apply length_vadd; rewrite length_vscal; auto).
  rewrite coord_vadd by (rewrite !length_vscal; congruence). rewrite !coord_vscal. ring.
Qed.
Lemma length_rmove_along : forall k la dt sg dr x z d, length dr = d -> length x = d -> length z = d -> length (rmove_along k la dt sg dr x z) = d.
Proof.
  intros. unfold rmove_along. apply length_vadd; auto. apply length_vadd; rewrite length_vscal; auto. apply length_rnoise; auto.
Qed.
Lemma vscal_1 : forall u, vscal 1 u = u.
Proof. intros. unfold vscal. transitivity (map (fun x : R => x) u); [apply map_ext; intros; ring|apply map_id]. Qed.
(** no drift: only constant noise is left *)
Lemma rmove_along_0 : forall k la dt sg dr x z, length dr = length x -> length z = length x -> k <> NConst ->
  rmove_along k la dt sg (vscal 0 dr) x z = x.
Proof.
  intros k la dt sg dr x z Hd Hz Hk. apply (coord_ext _ _ (length x)); auto.
  - apply length_rmove_along; auto. rewrite length_vscal; auto.
  - intros i _. rewrite (coord_rmove_along _ _ _ _ _ _ _ _ (length x)) by (auto; rewrite length_vscal; auto). rewrite coord_vscal.
    destruct k; [congruence| |].
    + rewrite coord_rnoise_iso, vnorm_scal, Rabs_R0. ring.
    + rewrite coord_rnoise_aniso, coord_vscal by (rewrite length_vscal; congruence). ring.
Qed.

Lemma above_consensus : forall e y, fltb (Fin 0) (fsub e (Fin y)) = fltb (Fin y) e.
Proof.
  intros [x| | |] y; try reflexivity. cbn. unfold Rltb. destruct (Rlt_dec 0 (x - y)), (Rlt_dec y x); auto; lra.
Qed.

Section Corr.
  Variables (f : vec -> fl R) (k : noise_model) (pp : vec -> vec) (fac : fl R -> fl R) (b : nat) (partial cat : bool) (ks : list (crit R vec)) (save : bool).
  Let c := cbo_cfg f k pp (Heavi fac) b partial cat ks save.

  Theorem corrected_step : forall s log o m d X la dt sg, exec c s log -> perms_valid o s -> finite_draws d o -> finite_obj d f ->
    finite_alpha s -> parameters la dt sg s -> length (s_active s) = s_M s -> (b = s_N s \/ partial = false) -> ensemble_at s m d X ->
    exists s' cp y E xr', step c o s = Ok s' /\ length cp = d /\ f (floats cp) = Fin y /\
      (exists a Xb, Xb <> [] /\ (forall p, In p Xb -> In p X) /\ (b = s_N s -> Xb = X) /\ cp = gibbs_point a (map f (map floats Xb)) d Xb) /\
      nth_error (s_energy s') m = Some E /\ length E = s_N s /\ (b = s_N s -> E = map f (map floats X)) /\
      nth_error (s_x s') m = Some xr' /\ length xr' = s_N s /\
      forall n x e g, nth_error X n = Some x -> nth_error E n = Some e -> fac (fsub e (Fin y)) = Fin g ->
        exists z, o_z o m n = floats z /\ length z = d /\
          nth_error xr' n = Some (pp (floats (rmove_along k la dt sg (vscal g (vsub x cp)) x z))).
  Proof.
    intros s log o m d X la dt sg E P HD HF HA HP HM HB [HX1 HX2].
    pose proof (exec_wf _ _ _ E) as W.
    assert (Hlt : (m < s_M s)%nat). { rewrite <- (proj1 (w_x _ _ W)). eapply nth_error_lt; eauto. }
    destruct (HA m Hlt) as (a & Ha).
    destruct (nth_error_lt_Some _ (s_energy s) m) as (er & Her); [rewrite (proj1 (w_e _ _ W)); auto|].
    destruct (heavi_step_char c fac s log o E P eq_refl (fun _ _ _ => eq_refl) HM HB) as (s' & HS & _ & _ & HR).
    destruct (HR m _ er (Fin a) HX1 Her Ha) as (xb & er' & cpt & HT & HPU & HE & HC & HXn). clear HR.
    destruct (choose_points (fun q => In q X) xb) as (Xb & -> & HXb).
    { intros u Hu. pose proof (takeM_In _ _ _ _ _ HT Hu) as Hu'. apply in_map_iff in Hu'. destruct Hu' as (q & <- & Hq). eauto. }
    assert (LX : length X = s_N s) by apply HX2.
    assert (HL2 : length Xb = b).
    { pose proof (takeM_length _ _ _ _ HT) as L. rewrite map_length, (run_sel_length c o s m W (perms_valid_ok _ _ P) Hlt) in L. exact L. }
    assert (HL3 : (1 <= length Xb)%nat). { rewrite HL2. apply W. }
    assert (Hd : forall q, In q Xb -> length q = d) by (intros q Hq; apply HX2; auto).
    pose proof (ccrow_finite f k pp b partial cat ks save d Xb a HF HL3 Hd) as CF. cbn [cbo_cfg c_ccrow c_f] in CF.
    cbn [c cbo_cfg c_ccrow c_f] in HC. rewrite CF in HC. injection HC as <-.
    set (cp := gibbs_point a (map f (map floats Xb)) d Xb) in *.
    assert (Lc : length cp = d) by apply gibbs_point_length.
    destruct (HF cp Lc) as (y & Hy).
    assert (LE : length er' = s_N s).
    { rewrite (put1_length _ _ _ _ _ HPU). eapply (proj2 (w_e _ _ W)); eauto. }
    exists s', cp, y, er'. eexists. split; [exact HS|]. split; [exact Lc|]. split; [exact Hy|]. split.
    { exists a, Xb. split; [destruct Xb; [cbn in HL3; lia|discriminate]|]. split; [exact HXb|]. split; [|reflexivity].
      intros Hb. assert (S1 : run_sel c o s m = seq 0 (s_N s)) by (unfold run_sel; cbn [c cbo_cfg c_bsize]; rewrite Hb, Nat.eqb_refl; auto).
      rewrite S1, <- LX, <- (map_length floats X), takeM_all in HT. injection HT as HT. apply (map_floats_inj X Xb) in HT. auto. }
    split; [exact HE|]. split; [exact LE|]. split.
    { intros Hb. assert (S1 : run_sel c o s m = seq 0 (s_N s)) by (unfold run_sel; cbn [c cbo_cfg c_bsize]; rewrite Hb, Nat.eqb_refl; auto).
      rewrite S1, <- LX, <- (map_length floats X), takeM_all in HT. injection HT as HT.
      cbn [c cbo_cfg c_f] in HPU. rewrite <- HT, S1 in HPU.
      assert (LR : length er = s_N s) by (eapply (proj2 (w_e _ _ W)); eauto).
      rewrite <- LR, put1_all in HPU by (rewrite !map_length; lia). injection HPU as <-. auto. }
    split; [exact HXn|]. split.
    { rewrite map_length, map2_length, mapi_length, map2_length, map_length. lia. }
    intros n x e g Hx He Hg. destruct (HD m n) as (z & Hz & Lz). exists z. split; auto. split; auto.
    assert (Lx : length x = d) by (apply HX2; eapply nth_error_In; eauto).
    rewrite nth_error_map, map2_nth, mapi_nth, map2_nth, nth_error_map, Hx, He. cbn [option_map].
    do 2 f_equal. cbn [c cbo_cfg c_pp c_vadd c_vscale c_vsub c_noise c_f]. unfold cbo_update. cbn [c cbo_cfg c_vadd c_vscale].
    destruct HP as (H1 & H2 & H3 & H4).
    rewrite Hz, Hy, Hg, H1, H2, H3, floats_sub, floats_scal, noise_floats by auto.
    cbn [fopp fmul kopp kmul KOps_R]. rewrite !floats_scal, !floats_add. unfold rmove_along.
    replace (- la * dt) with (- (la * dt)) by ring. reflexivity.
  Qed.
End Corr.

Section HeaviSide.
  Variables (f : vec -> fl R) (k : noise_model) (pp : vec -> vec) (b : nat) (partial cat : bool) (ks : list (crit R vec)) (save : bool).

  Theorem heavi_side_moves : forall s log o m d X la dt sg, let c := cbo_cfg f k pp (Heavi heavi_side_fac) b partial cat ks save in
    exec c s log -> perms_valid o s -> finite_draws d o -> finite_obj d f ->
    finite_alpha s -> parameters la dt sg s -> length (s_active s) = s_M s -> (b = s_N s \/ partial = false) -> ensemble_at s m d X ->
    exists s' cp y E xr', step c o s = Ok s' /\ length cp = d /\ f (floats cp) = Fin y /\
      (exists a Xb, Xb <> [] /\ (forall p, In p Xb -> In p X) /\ (b = s_N s -> Xb = X) /\ cp = gibbs_point a (map f (map floats Xb)) d Xb) /\
      nth_error (s_energy s') m = Some E /\ length E = s_N s /\ (b = s_N s -> E = map f (map floats X)) /\
      nth_error (s_x s') m = Some xr' /\ length xr' = s_N s /\
      forall n x e, nth_error X n = Some x -> nth_error E n = Some e -> exists z, o_z o m n = floats z /\ length z = d /\
        (fltb (Fin y) e = true -> nth_error xr' n = Some (pp (floats (rmove k la dt sg cp x z)))) /\
        (fltb (Fin y) e = false -> k <> NConst -> nth_error xr' n = Some (pp (floats x))).
  Proof.
    intros s log o m d X la dt sg c E P HD HF HA HP HM HB HX.
    destruct (corrected_step f k pp heavi_side_fac b partial cat ks save s log o m d X la dt sg E P HD HF HA HP HM HB HX)
      as (s' & cp & y & EE & xr' & H1 & H2 & H3 & H4 & H5 & H6 & H7 & H8 & H9 & H10).
    exists s', cp, y, EE, xr'. repeat (split; [assumption|]). intros n x e Hx He.
    assert (Lx : length x = d) by (apply HX; eapply nth_error_In; eauto).
    pose proof (above_consensus e y) as AC.
    destruct (fltb (Fin y) e) eqn:EF.
    - destruct (H10 n x e 1 Hx He) as (z & Hz & Lz & Hn).
      { unfold heavi_side_fac. cbn [k0 k1 KOps_R]. rewrite AC. auto. }
      exists z. split; auto. split; auto. split; [|discriminate]. intros _. rewrite Hn, vscal_1. reflexivity.
    - destruct (H10 n x e 0 Hx He) as (z & Hz & Lz & Hn).
      { unfold heavi_side_fac. cbn [k0 k1 KOps_R]. rewrite AC. auto. }
      exists z. split; auto. split; auto. split; [discriminate|]. intros _ Hk. rewrite Hn, rmove_along_0; auto; [|congruence].
      rewrite (length_vsub x cp d); auto.
  Qed.
End HeaviSide.

(** ** the regularised factor *)
Definition reg_fac (eps z : R) : R := / 2 + / 2 * tanh (z / eps).

Lemma tanh_form : forall x, tanh x = 1 - 2 / (exp (2 * x) + 1).
Proof.
  intros. unfold tanh, sinh, cosh. pose proof (exp_pos x). pose proof (exp_pos (- x)).
  replace (2 * x) with (x + x) by ring. rewrite exp_plus.
  assert (exp x * exp (- x) = 1) by (rewrite <- exp_plus; replace (x + - x) with 0 by ring; apply exp_0).
  assert (0 < exp x * exp x) by (apply Rmult_lt_0_compat; auto).
  replace (exp (- x)) with (/ exp x). 2:{ apply Rmult_eq_reg_l with (exp x); [|lra]. rewrite Rinv_r; lra. }
  field. split; lra.
Qed.
(** the logistic function of 2z/eps *)
Lemma reg_fac_form : forall eps z, reg_fac eps z = 1 - / (exp (2 * (z / eps)) + 1).
Proof. intros. unfold reg_fac. rewrite tanh_form. pose proof (exp_pos (2 * (z / eps))). field. lra. Qed.

Lemma reg_fac_model : forall eps e y, 0 < eps -> heavi_reg_fac eps (fsub (Fin e) (Fin y)) = Fin (reg_fac eps (e - y)).
Proof.
  intros eps e y He. unfold heavi_reg_fac, reg_fac. cbn. unfold k_is0. cbn.
  rewrite (proj2 (Rltb_false eps 0)), (proj2 (Rltb_true 0 eps)) by lra. cbn. auto.
Qed.
Lemma reg_fac_range : forall eps z, 0 < eps -> 0 < reg_fac eps z < 1.
Proof.
  intros. rewrite reg_fac_form. pose proof (exp_pos (2 * (z / eps))) as P.
  assert (0 < / (exp (2 * (z / eps)) + 1)) by (apply Rinv_0_lt_compat; lra).
  assert (/ (exp (2 * (z / eps)) + 1) < / 1) by (apply Rinv_lt_contravar; lra). rewrite Rinv_1 in *. lra.
Qed.
Lemma reg_fac_half : forall eps z, 0 < eps -> (/ 2 < reg_fac eps z <-> 0 < z).
Proof.
  intros eps z He. rewrite reg_fac_form. set (w := 2 * (z / eps)).
  assert (HW : 0 < w <-> 0 < z).
  { unfold w. split; intros.
    - assert (0 < z / eps) by lra. replace z with (z / eps * eps) by (field; lra). apply Rmult_lt_0_compat; auto.
    - assert (0 < z / eps) by (apply Rdiv_lt_0_compat; auto). lra. }
  rewrite <- HW. split; intros H.
  - destruct (Rlt_dec 0 w) as [|Hn]; auto. exfalso.
    assert (exp w <= 1). { rewrite <- exp_0. destruct (Req_dec w 0) as [->|]; [lra|]. left. apply exp_increasing. lra. }
    pose proof (exp_pos w). assert (/ 2 <= / (exp w + 1)) by (apply Rinv_le_contravar; lra). lra.
  - assert (1 < exp w) by (rewrite <- exp_0; apply exp_increasing; auto).
    assert (/ (exp w + 1) < / 2) by (apply Rinv_lt_contravar; nra). lra.
Qed.

(** limit for eps -> 0 *)
Lemma exp_ge : forall t, 0 <= t -> 1 + t <= exp t.
Proof. intros t Ht. destruct (Req_dec t 0) as [->|]; [rewrite exp_0; lra|]. left. apply exp_ineq1. lra. Qed.
Lemma reg_fac_dist : forall eps z, 0 < eps -> z <> 0 -> Rabs (reg_fac eps z - (if Rltb 0 z then 1 else 0)) <= eps / (2 * Rabs z).
Proof.
  intros eps z He Hz. rewrite reg_fac_form. set (w := 2 * (z / eps)). pose proof (exp_pos w) as P.
  assert (P' : 0 < / (exp w + 1)) by (apply Rinv_0_lt_compat; lra).
  destruct (Rltb 0 z) eqn:E.
  - apply Rltb_true in E. rewrite (Rabs_right z) by lra. replace (1 - / (exp w + 1) - 1) with (- / (exp w + 1)) by ring.
    rewrite Rabs_Ropp, Rabs_right by lra.
    assert (W : 0 < w) by (unfold w; assert (0 < z / eps) by (apply Rdiv_lt_0_compat; auto); lra).
    pose proof (exp_ge w ltac:(lra)).
    replace (eps / (2 * z)) with (/ w) by (unfold w; field; lra). apply Rinv_le_contravar; lra.
  - apply Rltb_false in E. assert (z < 0) by lra. rewrite (Rabs_left z) by lra.
    assert (W : 0 < - w). { unfold w. assert (0 < - z / eps) by (apply Rdiv_lt_0_compat; lra). replace (- (2 * (z / eps))) with (2 * (- z / eps)) by (field; lra). lra. }
    pose proof (exp_ge (- w) ltac:(lra)) as G.
    assert (PP : exp w * exp (- w) = 1) by (rewrite <- exp_plus; replace (w + - w) with 0 by ring; apply exp_0).
    replace (1 - / (exp w + 1) - 0) with (exp w / (exp w + 1)) by (field; lra).
    rewrite Rabs_right by (apply Rle_ge; apply Rlt_le, Rdiv_lt_0_compat; lra).
    replace (eps / (2 * - z)) with (/ - w) by (unfold w; field; split; lra).
    apply Rle_trans with (exp w).
    + unfold Rdiv. assert (/ (exp w + 1) <= / 1) by (apply Rinv_le_contravar; lra). rewrite Rinv_1 in *. nra.
    + apply Rmult_le_reg_r with (exp (- w)); [apply exp_pos|]. rewrite PP. pose proof (exp_pos (- w)).
      replace (/ - w * exp (- w)) with (exp (- w) / - w) by (unfold Rdiv; ring).
      apply Rmult_le_reg_r with (- w); auto. replace (exp (- w) / - w * - w) with (exp (- w)) by (field; lra). lra.
Qed.
Theorem reg_fac_limit : forall z delta, z <> 0 -> 0 < delta -> exists e0, 0 < e0 /\
  forall eps, 0 < eps < e0 -> Rabs (reg_fac eps z - (if Rltb 0 z then 1 else 0)) < delta.
Proof.
  intros z delta Hz Hd. assert (0 < Rabs z) by (apply Rabs_pos_lt; auto). exists (2 * Rabs z * delta). split.
  - apply Rmult_lt_0_compat; lra.
  - intros eps [H1 H2]. eapply Rle_lt_trans; [apply reg_fac_dist; auto|].
    apply Rmult_lt_reg_r with (2 * Rabs z); [lra|]. unfold Rdiv. rewrite Rmult_assoc, Rinv_l by lra. lra.
Qed.
Lemma reg_fac_level : forall eps, 0 < eps -> reg_fac eps 0 = / 2.
Proof. intros. rewrite reg_fac_form. replace (2 * (0 / eps)) with 0 by (field; lra). rewrite exp_0. lra. Qed.

Section HeaviReg.
  Variables (f : vec -> fl R) (k : noise_model) (pp : vec -> vec) (cat : bool) (ks : list (crit R vec)) (save : bool).

  Theorem heavi_reg_moves : forall eps s log o m d X la dt sg b partial, let c := cbo_cfg f k pp (Heavi (heavi_reg_fac eps)) b partial cat ks save in
    0 < eps -> exec c s log -> perms_valid o s -> finite_draws d o -> finite_obj d f ->
    finite_alpha s -> parameters la dt sg s -> length (s_active s) = s_M s -> b = s_N s -> ensemble_at s m d X ->
    exists s' a cp y xr', step c o s = Ok s' /\ cp = gibbs_point a (map f (map floats X)) d X /\ f (floats cp) = Fin y /\
      nth_error (s_x s') m = Some xr' /\ length xr' = s_N s /\
      forall n x, nth_error X n = Some x -> exists z e g, o_z o m n = floats z /\ length z = d /\ f (floats x) = Fin e /\
        nth_error xr' n = Some (pp (floats (rmove_along k la dt sg (vscal g (vsub x cp)) x z))) /\
        0 < g < 1 /\ (/ 2 < g <-> y < e).
  Proof.
    intros eps s log o m d X la dt sg b partial c He E P HD HF HA HP HM HB HX.
    destruct (corrected_step f k pp (heavi_reg_fac eps) b partial cat ks save s log o m d X la dt sg E P HD HF HA HP HM (or_introl HB) HX)
      as (s' & cp & y & EE & xr' & H1 & H2 & H3 & (a & Xb & _ & _ & HXb & H4) & H5 & H6 & H7 & H8 & H9 & H10).
    rewrite (HXb HB) in H4. specialize (H7 HB).
    exists s', a, cp, y, xr'. repeat (split; [assumption|]). intros n x Hx.
    assert (Lx : length x = d) by (apply HX; eapply nth_error_In; eauto).
    destruct (HF x Lx) as (e & Hfe).
    destruct (H10 n x (Fin e) (reg_fac eps (e - y)) Hx) as (z & Hz & Lz & Hn).
    - rewrite H7, !nth_error_map, Hx. cbn. rewrite Hfe. auto.
    - apply reg_fac_model; auto.
    - exists z, e, (reg_fac eps (e - y)). repeat (split; [assumption|]). split; [apply reg_fac_range; auto|].
      rewrite reg_fac_half by auto. lra.
  Qed.
End HeaviReg.

Lemma reg_limit_model : forall e y delta, e <> y -> 0 < delta -> exists e0, 0 < e0 /\ forall eps, 0 < eps < e0 ->
  exists g, heavi_reg_fac eps (fsub (Fin e) (Fin y)) = Fin g /\ Rabs (g - (if Rltb y e then 1 else 0)) < delta.
Proof.
  intros e y delta H D. destruct (reg_fac_limit (e - y) delta ltac:(lra) D) as (e0 & H0 & HL). exists e0. split; auto.
  intros eps He. exists (reg_fac eps (e - y)). split; [apply reg_fac_model; lra|].
  replace (Rltb y e) with (Rltb 0 (e - y)); auto. destruct (Rltb 0 (e - y)) eqn:A, (Rltb y e) eqn:B; auto;
  rewrite ?Rltb_true, ?Rltb_false in *; lra.
Qed.

Lemma heavi_infinite : forall eps, 0 < eps ->
  heavi_reg_fac eps PInf = Fin 1 /\ heavi_reg_fac eps NInf = Fin 0 /\ heavi_side_fac (K := R) PInf = Fin 1 /\ heavi_side_fac (K := R) NInf = Fin 0.
Proof.
  intros eps H. unfold heavi_reg_fac.
  assert (L : kltb (K := R) k0 eps = true) by (apply Rltb_true; auto).
  assert (L' : kltb (K := R) eps k0 = false) by (apply Rltb_false; cbn; lra).
  assert (Z : k_is0 (K := R) eps = false) by (unfold k_is0; rewrite L, L'; reflexivity).
  cbn [fdiv]. rewrite Z. unfold inf_sign. rewrite L. cbn [ftanh fmul fadd kmul kadd KOps_R]. repeat split; f_equal; field.
Qed.
Lemma reg_level_model : forall eps y, 0 < eps ->
  heavi_reg_fac eps (fsub (Fin y) (Fin y)) = Fin (/ 2) /\ heavi_side_fac (fsub (Fin y) (Fin y)) = Fin 0.
Proof.
  intros eps y H. split.
  - rewrite reg_fac_model by auto. replace (y - y) with 0 by ring. rewrite reg_fac_level; auto.
  - unfold heavi_side_fac. cbn [fsub fltb]. change (ksub y y) with (y - y). replace (y - y) with 0 by ring.
    change (kltb (@k0 R _) 0) with (Rltb 0 0). assert (Rltb 0 0 = false) as -> by (apply Rltb_false; lra). auto.
Qed.
