(** * Proofs on CBO with a projection as post-processing *)
From Coq Require Import String List Arith Bool Reals Lia Lra.
From Verif Require Import Scalar Np NpFacts RFacts State Pdyn PdynFacts PdynStep PdynRun PdynOk Exec BestFacts RunFacts MoveFacts RVec RVecFacts
  Consensus ConsSpec ConsFacts PostProc Cbo CboSpec CboFacts AbsorbFacts MirrorMaps MirrorSpec MirrorFacts MirrorProj MirrorDyn Prox ProxSpec.
Import ListNotations.
Open Scope nat_scope.

Section Lands.
  Variables (f : vec -> fl R) (k : noise_model) (pp : vec -> vec) (b : nat) (partial cat : bool) (ks : list (crit R vec)) (save : bool).
  Let c := cbo_cfg f k pp NoCorr b partial cat ks save.
  Variables (C : list R -> Prop) (d : nat).

  Lemma lands_step : forall s log o s' m X, exec c s log -> perms_valid o s -> finite_draws d o -> finite_alpha s -> finite_parameters s ->
    finite_obj d f -> lands_in C d pp -> step c o s = Ok s' -> ensemble_at s m d X -> run_in C s' m d.
  Proof.
    intros s log o s' m X E P HD HA (la & dt & sg & HP) HF Hpp HS [HX1 HX2].
    pose proof (exec_wf _ _ _ E) as W. destruct (step_keeps _ _ _ _ _ _ _ _ s log o s' E P HS) as (K1 & K2 & _).
    assert (Hlt : (m < s_M s)%nat). { rewrite <- (proj1 (w_x _ _ W)). eapply nth_error_lt; eauto. }
    assert (Q : exists xr', nth_error (s_x s') m = Some xr' /\ length xr' = length X /\ forall u, In u xr' -> exists q, u = floats q /\ (length q = d /\ C q)).
    { destruct (in_dec Nat.eq_dec m (s_active s)) as [Hm|Hm].
      - destruct (In_nth_error _ _ Hm) as (kk & Hkk). destruct (HA m Hlt) as (a & Ha).
        destruct (step_positions c s log o s' kk m _ (Fin a) E P (cbo_one_point _ _ _ _ _ _ _ _) eq_refl HS Hkk HX1 Ha)
          as (xb & cp & xr' & HB & HN & HI & HC & Hx' & HL & HU & _).
        destruct (choose_points (fun q => In q X) xb) as (Xb & -> & HXb).
        { intros u Hu. apply HI in Hu. apply in_map_iff in Hu. destruct Hu as (q & <- & Hq). eauto. }
        assert (HL2 : (1 <= length Xb)%nat) by (destruct Xb; [exfalso; apply HN; reflexivity|cbn; lia]).
        assert (Hd : forall q, In q Xb -> length q = d) by (intros q Hq; apply HX2; auto).
        rewrite (ccrow_finite f k pp b partial cat ks save d) in HC by auto. injection HC as <-.
        set (cp := gibbs_point a (map f (map floats Xb)) d Xb) in *.
        assert (Lc : length cp = d) by apply gibbs_point_length.
        exists xr'. split; auto. split; [rewrite HL, map_length; auto|]. intros u Hu. apply In_nth_error in Hu. destruct Hu as (n & Hn).
        destruct (nth_error X n) as [x|] eqn:En.
        2:{ apply nth_error_None in En. apply nth_error_lt in Hn. rewrite HL, map_length in Hn. lia. }
        assert (Hx : nth_error (map floats X) n = Some (floats x)) by (rewrite nth_error_map, En; auto).
        destruct (HU n (floats x) Hx) as (v' & Hv' & Hor). rewrite Hn in Hv'. injection Hv' as ->.
        apply nth_error_In in En. assert (Lx : length x = d) by (apply HX2; auto).
        destruct Hor as [->|(i & ->)].
        + cbn [c cbo_cfg c_pp]. destruct (Hpp x Lx) as (q & -> & H1 & H2). eauto.
        + destruct (HD kk i) as (z & -> & Lz). rewrite (moved_floats f k pp b partial cat ks save s la dt sg) by auto. cbn [c cbo_cfg c_pp].
          destruct (Hpp (rmove k la dt sg cp x z)) as (q & -> & H1 & H2). { apply length_rmove; auto. } eauto.
      - exists (map pp (map floats X)). split; [exact (step_positions_inactive c s log o s' m _ E P (cbo_plain _ _ _ _ _ _ _ _ _) HS Hm HX1)|].
        split; [rewrite !map_length; auto|]. intros u Hu. rewrite map_map in Hu. apply in_map_iff in Hu. destruct Hu as (x & <- & Hx).
        destruct (Hpp x) as (q & -> & H1 & H2); auto; [apply HX2; auto|]. eauto. }
    destruct Q as (xr' & Q1 & Q2 & Q3). destruct (choose_points _ xr' Q3) as (Y & -> & HY). exists Y. split.
    - split; auto. split; [rewrite map_length in Q2; rewrite K2, Q2; apply HX2|]. intros q Hq. apply HY; auto.
    - intros q Hq. apply HY; auto.
  Qed.

  Lemma run_in_x : forall s s' m, s_x s' = s_x s -> s_N s' = s_N s -> run_in C s m d -> run_in C s' m d.
  Proof. intros s s' m H1 H2 (X & [A1 A2] & A3). exists X. unfold ensemble_at. rewrite H1, H2. split; [split; auto|auto]. Qed.

  Lemma step_all : forall s log o s' D, exec c s log -> perms_valid o s -> finite_draws d o -> finite_alpha s -> finite_parameters s ->
    finite_obj d f -> lands_in C d pp -> step c o s = Ok s' -> all_in D s d -> all_in C s' d.
  Proof.
    intros s log o s' D E P HD HA HP HF Hpp HS H m Hm. destruct (step_keeps _ _ _ _ _ _ _ _ s log o s' E P HS) as (K1 & _).
    rewrite K1 in Hm. destruct (H m Hm) as (X & HX & _). eapply lands_step; eauto.
  Qed.

  Lemma history_later : forall s0 s log, history_from c d s0 s log -> later c d s0 s.
  Proof.
    intros s0 s log H. induction H; [apply la_start|eapply la_step; eauto|eapply la_term; eauto|eapply la_params; eauto|apply la_reset; auto].
  Qed.

  Lemma all_in_x : forall D s s', s_x s' = s_x s -> s_M s' = s_M s -> s_N s' = s_N s -> all_in D s d -> all_in D s' d.
  Proof.
    intros D s s' H1 H2 H3 H m Hm. rewrite H2 in Hm. destruct (H m Hm) as (X & [A1 A2] & A3). exists X. unfold ensemble_at. rewrite H1, H3. split; [split; auto|auto].
  Qed.

  (** once all runs are in C they stay there *)
  Theorem stays_in : forall s log s', exec c s log -> finite_alpha s -> finite_parameters s -> finite_obj d f -> lands_in C d pp ->
    all_in C s d -> later c d s s' -> all_in C s' d.
  Proof.
    intros s log s' E HA HP HF Hpp H HL. induction HL as [|s1 o s2 HL IH P HD HS|s1 b' s2 HL IH HT|s1 s2 HL IH HC A2 P2|s1 HL IH]; auto.
    - destruct (later_keep f k pp b partial cat ks save s log d s1 E HA HP HL) as ((l & E1) & A1 & P1 & N1). eapply step_all; eauto.
    - destruct (term_keeps _ _ _ _ _ _ _ _ s1 b' s2 HT) as (K0 & K1 & K2 & _). eapply all_in_x; eauto.
    - destruct (params_keep _ _ HC) as (K0 & K1 & K2). eapply all_in_x; eauto.
  Qed.

  (** every point evaluated is in C, if the start is *)
  Lemma evaluated_in : forall s log o s' D m v, exec c s log -> perms_valid o s -> step c o s = Ok s' -> all_in D s d ->
    In (m, v) (evaluated s s') -> point_of D d v.
  Proof.
    intros s log o s' D m v E P HS H Hin. pose proof (exec_wf _ _ _ E) as W.
    apply (in_evaluated c o s s' m v W (perms_valid_ok _ _ P) HS) in Hin. destruct Hin as (Hm & xr & xb & Hx & Ht & Hv).
    destruct (H m) as (X & [A1 A2] & A3). { apply W; auto. } rewrite Hx in A1. injection A1 as ->.
    apply (takeM_In _ _ _ _ _ Ht) in Hv. apply in_map_iff in Hv. destruct Hv as (p & <- & Hp). exists p. split; auto. split; auto. apply A2; auto.
  Qed.

  Theorem log_in : forall s0 s log, constructed c s0 -> finite_alpha s0 -> finite_parameters s0 -> finite_obj d f -> lands_in C d pp ->
    all_in C s0 d -> history_from c d s0 s log -> exec c s log /\ all_in C s d /\ forall m v, In (m, v) log -> point_of C d v.
  Proof.
    intros s0 s log HC HA HP HF Hpp H HH. pose proof (ex_init c s0 HC) as E0.
    induction HH as [|s1 log o s2 HL (IE & IA & IH) P HD HS|s1 log b' s2 HL (IE & IA & IH) HT|s1 log s2 HL (IE & IA & IH) HC' A2 P2|s1 log HL (IE & IA & IH)].
    - split; auto. split; auto. intros m v [].
    - pose proof (history_later _ _ _ HL) as L.
      destruct (later_keep f k pp b partial cat ks save s0 [] d s1 E0 HA HP L) as (_ & A1 & P1 & N1).
      split; [eapply ex_step; eauto|]. split; [eapply step_all; eauto|].
      intros m v Hin. apply in_app_or in Hin. destruct Hin as [Hin|Hin]; eauto. eapply evaluated_in; eauto.
    - split; [eapply ex_term; eauto|]. destruct (term_keeps _ _ _ _ _ _ _ _ s1 b' s2 HT) as (K0 & K1 & K2 & _). split; auto. eapply all_in_x; eauto.
    - split; [eapply ex_params; eauto|]. destruct (params_keep _ _ HC') as (K0 & K1 & K2). split; auto. eapply all_in_x; eauto.
    - split; [eapply ex_reset; eauto|]. split; auto.
  Qed.

  Theorem best_in : forall s0 s log m be bp, constructed c s0 -> finite_alpha s0 -> finite_parameters s0 -> finite_obj d f -> lands_in C d pp ->
    no_nan c -> all_in C s0 d -> history_from c d s0 s log -> nth_error (s_be s) m = Some be -> nth_error (s_bp s) m = Some bp ->
    be = PInf \/ point_of C d bp.
  Proof.
    intros s0 s log m be bp HC HA HP HF Hpp NN H HH Hbe Hbp. destruct (log_in s0 s log HC HA HP HF Hpp H HH) as (E & _ & HL).
    destruct (best_pair c s log m be bp NN E Hbe Hbp) as [->|[Hin _]]; auto. right. eauto.
  Qed.

  (** a point outside C that beats C *)
  Theorem best_outside : forall s log m v0 be bp, exec c s log -> no_nan c -> In (m, v0) log ->
    (forall p, length p = d -> C p -> fltb (f v0) (f (floats p)) = true) ->
    nth_error (s_be s) m = Some be -> nth_error (s_bp s) m = Some bp -> ~ point_of C d bp.
  Proof.
    intros s log m v0 be bp E NN Hin Hlt Hbe Hbp (p & -> & Lp & Cp).
    destruct (best_is_min c s log m be NN E Hbe) as ((_ & Hmin) & _).
    assert (Hv : In (c_f c v0) (values_of c m log)).
    { unfold values_of. apply in_map_iff. exists (m, v0). split; auto. apply filter_In. split; auto. cbn. apply Nat.eqb_refl. }
    specialize (Hmin _ Hv). cbn [c cbo_cfg c_f] in Hmin. specialize (Hlt p Lp Cp).
    destruct (best_pair c s log m be _ NN E Hbe Hbp) as [->|[_ Heq]]. { destruct (f v0), (f (floats p)); cbn in Hmin, Hlt; discriminate. }
    rewrite Heq in Hmin. cbn [c cbo_cfg c_f] in Hmin.
    destruct (f v0) eqn:Ea, (f (floats p)) eqn:Eb; cbn in Hmin, Hlt; try discriminate; auto. rewrite Hlt in Hmin. discriminate.
  Qed.
  Lemma coincide_step : forall s log o s' m p, exec c s log -> perms_valid o s -> finite_draws (length p) o -> finite_alpha s -> finite_parameters s ->
    k <> NConst -> (exists y, f (floats p) = Fin y) -> step c o s = Ok s' ->
    all_at s m p -> nth_error (s_x s') m = Some (repeat (pp (floats p)) (s_N s)).
  Proof.
    intros s log o s' m p E P HD HA (la & dt & sg & HP) Hk (y & Hf) HS Hx. unfold all_at in *.
    pose proof (exec_wf _ _ _ E) as W. destruct (step_keeps _ _ _ _ _ _ _ _ s log o s' E P HS) as (K1 & K2 & _).
    assert (Hlt : (m < s_M s)%nat). { rewrite <- (proj1 (w_x _ _ W)). eapply nth_error_lt; eauto. }
    destruct (in_dec Nat.eq_dec m (s_active s)) as [Hm|Hm].
    - destruct (In_nth_error _ _ Hm) as (kk & Hkk). destruct (HA m Hlt) as (a & Ha).
      destruct (step_positions c s log o s' kk m _ (Fin a) E P (cbo_one_point _ _ _ _ _ _ _ _) eq_refl HS Hkk Hx Ha)
        as (xb & cp & xr' & HB & HN & HI & HC & Hx' & HL & HU & _).
      assert (Exb : xb = map floats (repeat p (length xb))).
      { clear - HI. induction xb as [|v xb IH]; auto. cbn. f_equal.
        - assert (In v (repeat (floats p) (s_N s))) by (apply HI; cbn; auto). eapply repeat_spec; eauto.
        - apply IH. intros v' Hv'. apply HI. cbn. auto. }
      assert (cp = floats p).
      { cbn [c cbo_cfg c_ccrow c_f] in HC. rewrite Exb in HC.
        assert (HE : map f (map floats (repeat p (length xb))) = repeat (Fin y) (length xb)).
        { rewrite map_map, map_repeat, Hf. auto. }
        assert (AD : admissible a (repeat (Fin y) (length xb))).
        { split.
          - intros e He. apply repeat_spec in He. left. eauto.
          - exists y. destruct xb; [congruence|]. cbn. auto. }
        rewrite HE, (consensus_gibbs a _ (length p)) in HC; auto.
        2:{ split; [rewrite !repeat_length; auto|]. intros q Hq. apply repeat_spec in Hq. subst; auto. }
        injection HC as <-. f_equal. apply hull_single; auto.
        - split; [rewrite !repeat_length; auto|]. intros q Hq. apply repeat_spec in Hq. subst; auto.
        - intros q Hq. apply repeat_spec in Hq. auto. }
      subst cp. rewrite Hx'. f_equal. apply nth_error_ext. intros n. destruct (Nat.lt_ge_cases n (s_N s)) as [Hn|Hn].
      + assert (Hv : nth_error (repeat (floats p) (s_N s)) n = Some (floats p)).
        { rewrite nth_error_repeat. rewrite (proj2 (Nat.ltb_lt _ _) Hn). auto. }
        transitivity (Some (pp (floats p))); [|rewrite nth_error_repeat, (proj2 (Nat.ltb_lt _ _) Hn); auto]. destruct (HU n (floats p) Hv) as (v' & -> & [->|(i & ->)]).
        * cbn [c cbo_cfg c_pp]. auto.
        * destruct (HD kk i) as (z & -> & Lz). cbn [c cbo_cfg c_pp].
          rewrite (moved_floats f k pp b partial cat ks save s la dt sg) by auto. rewrite rmove_same by auto. auto.
      + rewrite repeat_length in HL. rewrite (proj2 (nth_error_None _ _)) by lia. rewrite (proj2 (nth_error_None _ _)) by (rewrite repeat_length; lia). auto.
    - rewrite (step_positions_inactive c s log o s' m _ E P (cbo_plain _ _ _ _ _ _ _ _ _) HS Hm Hx). cbn [c cbo_cfg c_pp].
      rewrite map_repeat. auto.
  Qed.

End Lands.

(** ** the maps *)
Lemma ball_lands : forall r center d, (0 < r)%R -> length center = 1 \/ length center = d -> lands_in (ball r (along d center)) d (apply_prox (ProjectionBall r center)).
Proof.
  intros r center d Hr Hc q Hq. destruct (ball_projection r center q Hr) as (p & Hp & L & B & _). { rewrite Hq. auto. } exists p. rewrite Hq in *. auto.
Qed.
Lemma plane_lands : forall a b, sqnorm a <> 0%R -> lands_in (plane a b) (length a) (apply_prox (ProjectionHyperplane a b)).
Proof.
  intros a b Ha q Hq. destruct (plane_projection a b q Ha) as (p & Hp & L & B & _); auto. exists p. rewrite Hq in *. auto.
Qed.
Lemma simplex_lands : forall d, 1 <= d -> lands_in simplex d (apply_prox EntropySimplex).
Proof.
  intros d Hd q Hq. destruct (simplex_feasible q) as (p & Hp & L & B & _). { intros ->. cbn in Hq. lia. } exists p. rewrite Hq in *. auto.
Qed.

Lemma sphere_prox_origin : forall r d, apply_prox (ProjectionSphere r) (floats (repeat 0%R d)) = repeat NaN d.
Proof.
  intros r d. unfold apply_prox. cbn [mm_conj]. rewrite fnorm_floats.
  replace (vnorm (repeat 0%R d)) with 0%R.
  2:{ unfold vnorm. replace (sqnorm (repeat 0%R d)) with 0%R; [symmetry; apply sqrt_0|]. induction d; cbn; auto.
      unfold sqnorm, dot, Rsum in *. cbn in *. rewrite <- IHd. lra. }
  unfold floats. rewrite !map_repeat. f_equal. cbn [fmul kmul KOps_R]. rewrite Rmult_0_r. unfold fdiv, inf_sign, k_is0. cbn [KOps_R k0 kltb].
  replace (Rltb 0 0) with false by (symmetry; apply Rltb_false; lra). reflexivity.
Qed.
Lemma sphere_prox_nan : forall f k r b partial cat ks save s log o s' m d,
  let c := prox_cfg f k (ProjectionSphere r) b partial cat ks save in
  exec c s log -> perms_valid o s -> finite_draws d o -> finite_alpha s -> finite_parameters s -> k <> NConst ->
  (exists y, f (floats (repeat 0%R d)) = Fin y) -> step c o s = Ok s' ->
  all_at s m (repeat 0%R d) -> nth_error (s_x s') m = Some (repeat (repeat NaN d) (s_N s)).
Proof.
  intros f k r b partial cat ks save s log o s' m d c E P HD HA HP Hk Hf HS H. rewrite <- (sphere_prox_origin r d).
  eapply (coincide_step f k (apply_prox (ProjectionSphere r)) b partial cat ks save); eauto. rewrite repeat_length. auto.
Qed.
