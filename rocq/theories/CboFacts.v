(** * Proofs on CBO runs over the reals *)
From Coq Require Import String List Arith Bool Reals Permutation Lia Lra.
From Verif Require Import Scalar Np NpFacts State Pdyn PdynFacts PdynStep PdynRun PdynOk Exec RunFacts MoveFacts RVec RVecFacts
  Consensus ConsSpec ConsFacts PostProc Cbo CboSpec.
Import ListNotations.
Open Scope R_scope.

(** ** arithmetic on finite points *)
Lemma floats_sub : forall u v, map2 fsub (floats u) (floats v) = floats (vsub u v).
Proof. unfold floats, vsub. induction u; destruct v; cbn; auto. rewrite IHu. auto. Qed.
Lemma floats_add : forall u v, map2 fadd (floats u) (floats v) = floats (vadd u v).
Proof. unfold floats, vadd. induction u; destruct v; cbn; auto. rewrite IHu. auto. Qed.
Lemma floats_mul : forall u v, map2 fmul (floats u) (floats v) = floats (map2 Rmult u v).
Proof. unfold floats. induction u; destruct v; cbn; auto. rewrite IHu. auto. Qed.
Lemma floats_scal : forall a u, map (fmul (Fin a)) (floats u) = floats (vscal a u).
Proof. intros. unfold floats, vscal. rewrite !map_map. reflexivity. Qed.
Lemma floats_scal_r : forall a u, map (fun x => fmul x (Fin a)) (floats u) = floats (vscal a u).
Proof. intros. unfold floats, vscal. rewrite !map_map. apply map_ext. intros. cbn. f_equal. ring. Qed.
Lemma floats_inj : forall u v, floats u = floats v -> u = v.
Proof. unfold floats. induction u; destruct v; cbn; intros H; try discriminate; auto. injection H as H1 H2. f_equal; auto. Qed.
Lemma map_floats_inj : forall X Y, map floats X = map floats Y -> X = Y.
Proof. induction X; destruct Y; cbn; intros H; try discriminate; auto. injection H as H1 H2. f_equal; auto. apply floats_inj; auto. Qed.
Lemma fsqrt_fin : forall x, 0 <= x -> fsqrt (Fin x) = Fin (sqrt x).
Proof. intros. unfold fsqrt. replace (Rltb x 0) with false; auto. symmetry. apply Rltb_false. auto. Qed.
Lemma fnorm_floats : forall u, fnorm (floats u) = Fin (vnorm u).
Proof.
  intros. unfold fnorm, floats. rewrite map_map. rewrite <- (map_map (fun a => a * a) Fin), fsum_fin.
  replace (Rsum (map (fun a => a * a) u)) with (sqnorm u) by (unfold sqnorm, dot; rewrite map2_same; auto).
  rewrite fsqrt_fin; auto. apply sqnorm_nonneg.
Qed.
Lemma noise_floats : forall k dt u z, 0 <= dt -> noise_of k (Fin dt) (floats u) (floats z) = floats (rnoise k dt u z).
Proof.
  intros. unfold noise_of, rnoise. rewrite fsqrt_fin by auto. destruct k.
  - apply floats_scal.
  - rewrite fnorm_floats, floats_scal_r. apply floats_scal.
  - rewrite floats_mul. apply floats_scal.
Qed.
Lemma length_vadd : forall u v d, length u = d -> length v = d -> length (vadd u v) = d.
Proof. intros. unfold vadd. rewrite map2_length. lia. Qed.
Lemma length_vsub : forall u v d, length u = d -> length v = d -> length (vsub u v) = d.
Proof. intros. unfold vsub. rewrite map2_length. lia. Qed.
Lemma length_vscal : forall a u, length (vscal a u) = length u.
Proof. intros. apply map_length. Qed.
Lemma length_rnoise : forall k dt u z d, length u = d -> length z = d -> length (rnoise k dt u z) = d.
Proof. intros. unfold rnoise. rewrite length_vscal. destruct k; rewrite ?length_vscal, ?map2_length; lia. Qed.
Lemma length_rmove : forall k la dt sg c x z d, length c = d -> length x = d -> length z = d -> length (rmove k la dt sg c x z) = d.
Proof.
  intros. unfold rmove. apply length_vadd; auto. apply length_vadd; rewrite length_vscal.
  - apply length_vsub; auto. - apply length_rnoise; auto. apply length_vsub; auto.
Qed.
Lemma coord_vadd : forall i u v, length u = length v -> coord i (vadd u v) = coord i u + coord i v.
Proof. unfold coord, vadd. intros i u. revert i. induction u; destruct v; cbn; intros; try lia; destruct i; cbn; try lra; auto. Qed.
Lemma coord_vsub : forall i u v, length u = length v -> coord i (vsub u v) = coord i u - coord i v.
Proof. unfold coord, vsub. intros i u. revert i. induction u; destruct v; cbn; intros; try lia; destruct i; cbn; try lra; auto. Qed.
Lemma coord_vscal : forall i a u, coord i (vscal a u) = a * coord i u.
Proof. unfold coord, vscal. intros i a u. revert i. induction u; destruct i; cbn; try lra; auto. Qed.
Lemma coord_mul : forall i u v, length u = length v -> coord i (map2 Rmult u v) = coord i u * coord i v.
Proof. unfold coord. intros i u. revert i. induction u; destruct v; cbn; intros; try lia; destruct i; cbn; try lra; auto. Qed.
Lemma coord_ext : forall u v d, length u = d -> length v = d -> (forall i, (i < d)%nat -> coord i u = coord i v) -> u = v.
Proof. intros u v d Hu Hv H. apply (list_nth_ext R 0 u v d); auto. Qed.

Lemma coord_rmove : forall i k la dt sg c x z d, length c = d -> length x = d -> length z = d ->
  coord i (rmove k la dt sg c x z) = coord i x - la * dt * (coord i x - coord i c) + sg * coord i (rnoise k dt (vsub x c) z).
Proof.
  intros i k la dt sg c x z d Hc Hx Hz. unfold rmove.
  assert (L1 : length (vsub x c) = d) by (apply length_vsub; auto).
  assert (L2 : length (rnoise k dt (vsub x c) z) = d) by (apply length_rnoise; auto).
  rewrite coord_vadd by (rewrite Hx; symmetry; apply length_vadd; rewrite length_vscal; auto).
  rewrite coord_vadd by (rewrite !length_vscal; congruence). rewrite !coord_vscal, coord_vsub by congruence. ring.
Qed.

Section Cfg.
  Variables (f : vec -> fl R) (k : noise_model) (pp : vec -> vec) (b : nat) (partial cat : bool) (ks : list (crit R vec)) (save : bool).
  Let c := cbo_cfg f k pp NoCorr b partial cat ks save.

  Lemma moved_floats : forall s la dt sg cp x z, parameters la dt sg s ->
    moved c s (floats cp) (floats x) (floats z) = floats (rmove k la dt sg cp x z).
  Proof.
    intros s la dt sg cp x z (H1 & H2 & H3 & H4). unfold moved, cbo_update, rmove. cbn [c cbo_cfg c_vadd c_vsub c_vscale c_noise].
    rewrite H1, H2, H3, floats_sub, noise_floats by auto. cbn [fopp fmul kopp kmul KOps_R]. rewrite !floats_scal, !floats_add.
    do 4 f_equal. ring.
  Qed.
  Lemma cbo_one_point : one_consensus_point c.
  Proof. intros e x a. reflexivity. Qed.
  Lemma cbo_plain : forall N, plain c N.
  Proof. intros. split; [left; exact cbo_one_point|reflexivity]. Qed.

  Lemma finite_admissible : forall d X a, finite_obj d f -> (1 <= length X)%nat -> (forall p, In p X -> length p = d) ->
    admissible a (map f (map floats X)).
  Proof.
    intros d X a HF HL HX. rewrite map_map. split.
    - intros e He. apply in_map_iff in He. destruct He as (p & <- & Hp). left. apply HF; auto.
    - destruct X as [|p X]; [cbn in HL; lia|]. destruct (HF p) as (y & Hy); [apply HX; cbn; auto|]. exists y. cbn. rewrite Hy. auto.
  Qed.

  (** consensus of finite points *)
  Lemma ccrow_finite : forall d X a, finite_obj d f -> (1 <= length X)%nat -> (forall p, In p X -> length p = d) ->
    c_ccrow c (map (c_f c) (map floats X)) (map floats X) (Fin a) = [floats (gibbs_point a (map f (map floats X)) d X)].
  Proof.
    intros d X a HF HL HX. cbn [c cbo_cfg c_ccrow c_f]. apply consensus_gibbs.
    - eapply finite_admissible; eauto.
    - split; auto. rewrite !map_length. auto.
  Qed.

  Theorem real_step : forall s log o s' m d X la dt sg, exec c s log -> perms_valid o s -> finite_draws d o -> finite_obj d f ->
    finite_alpha s -> parameters la dt sg s -> b = s_N s -> In m (s_active s) -> step c o s = Ok s' -> ensemble_at s m d X ->
    exists cp Y zs, length cp = d /\ ensemble (s_N s) d Y /\ length zs = length X /\ (forall z, In z zs -> length z = d) /\
      (exists a, cp = gibbs_point a (map f (map floats X)) d X) /\
      Y = map2 (fun x z => rmove k la dt sg cp x z) X zs /\
      nth_error (s_x s') m = Some (map pp (map floats Y)).
  Proof.
    intros s log o s' m d X la dt sg E P HD HF HA HP HB Hm HS [HX1 HX2].
    destruct (In_nth_error _ _ Hm) as (kk & Hk).
    pose proof (exec_wf _ _ _ E) as W. assert (Hlt : (m < s_M s)%nat) by (apply W; auto).
    destruct (HA m Hlt) as (a & Ha). assert (HN : (1 <= length X)%nat) by (rewrite (proj1 HX2); apply W).
    destruct (step_positions c s log o s' kk m (map floats X) (Fin a) E P cbo_one_point eq_refl HS Hk HX1 Ha)
      as (xb & cp & xr' & _ & _ & _ & HC & Hx' & _ & _ & HU).
    destruct (HU HB) as [-> HY]. rewrite (ccrow_finite d) in HC by (auto; apply HX2). injection HC as <-.
    set (cp := gibbs_point a (map f (map floats X)) d X) in *.
    assert (HZ : exists zs, length zs = length X /\ (forall z, In z zs -> length z = d) /\ (forall n, (n < length X)%nat -> o_z o kk n = floats (nth n zs []))).
    { clear - HD. generalize (length X). intros n. induction n as [|n (zs & L & H1 & H2)].
      - exists []. split; auto. split; [intros z []|intros; lia].
      - destruct (HD kk n) as (z & Hz & Lz). exists (zs ++ [z]). rewrite app_length. cbn. split; [lia|]. split.
        + intros z' H. apply in_app_or in H. destruct H as [H|[<-|[]]]; auto.
        + intros i Hi. destruct (Nat.eq_dec i n) as [->|]; [rewrite app_nth2, L, Nat.sub_diag by lia; auto|].
          rewrite app_nth1 by lia. apply H2. lia. }
    destruct HZ as (zs & Lz & Hz1 & Hz2). assert (Lc : length cp = d) by apply gibbs_point_length.
    exists cp, (map2 (fun x z => rmove k la dt sg cp x z) X zs), zs.
    split; auto. split.
    { split; [rewrite map2_length, (proj1 HX2) in *; lia|]. intros y Hy. apply In_nth_error in Hy. destruct Hy as (n & Hn).
      rewrite map2_nth in Hn. destruct (nth_error X n) eqn:E1; [|discriminate]. destruct (nth_error zs n) eqn:E2; [|discriminate].
      injection Hn as <-. apply length_rmove; auto. - apply HX2. eapply nth_error_In; eauto. - apply Hz1. eapply nth_error_In; eauto. }
    split; auto. split; auto. split; [exists a; auto|]. split; auto.
    rewrite Hx', HY. f_equal. apply nth_error_ext. intros n. rewrite mapi_nth, !nth_error_map, map2_nth.
    destruct (nth_error X n) as [x|] eqn:E1; cbn; auto. pose proof (nth_error_lt _ _ _ _ E1) as L1.
    destruct (nth_error_lt_Some _ zs n) as (z & E2); [lia|]. rewrite E2. cbn. do 2 f_equal.
    rewrite (Hz2 n L1). replace (nth n zs []) with z by (symmetry; apply nth_error_nth; auto). apply moved_floats; auto.
  Qed.

  (** ** bookkeeping along executions *)
  Lemma alpha_changed_exec : forall s s' log, exec c s log -> alpha_changed s s' -> exec c s' log.
  Proof.
    intros s s' log E (al & -> & H1 & _). eapply ex_params; eauto. exists al, (s_sigma s), (s_lamda s), (s_dt s). split; auto.
  Qed.

  Lemma step_keeps : forall s log o s', exec c s log -> perms_valid o s -> step c o s = Ok s' ->
    s_M s' = s_M s /\ s_N s' = s_N s /\ s_alpha s' = s_alpha s /\ s_sigma s' = s_sigma s /\ s_lamda s' = s_lamda s /\ s_dt s' = s_dt s /\ s_active s' = s_active s.
  Proof.
    intros s log o s' E P HS. pose proof (exec_wf _ _ _ E) as W. pose proof (perms_valid_ok _ _ P) as P'.
    destruct (step_char c o s W P' (or_introl cbo_one_point) eq_refl) as (s2 & HS2 & _ & H & _).
    rewrite HS in HS2. injection HS2 as <-. tauto.
  Qed.
  Lemma term_keeps : forall s b' s', terminate c s = Ok (b', s') ->
    s_x s' = s_x s /\ s_M s' = s_M s /\ s_N s' = s_N s /\ s_alpha s' = s_alpha s /\ s_sigma s' = s_sigma s /\ s_lamda s' = s_lamda s /\ s_dt s' = s_dt s.
  Proof.
    intros s b' s' H. unfold terminate in H. apply bind_ok in H. destruct H as (q & H & H2). inversion H2; subst.
    unfold select_active_runs in H. apply bind_ok in H. destruct H as (l & _ & H). inversion H. subst. destruct s; cbn; tauto.
  Qed.

  (** invariants of [steps_active] *)
  Lemma steps_keep : forall s log m d n s' la dt sg, exec c s log -> finite_alpha s -> parameters la dt sg s ->
    steps_active c m d s n s' -> (exists log', exec c s' log') /\ finite_alpha s' /\ parameters la dt sg s' /\ s_N s' = s_N s /\ s_M s' = s_M s.
  Proof.
    intros s log m d n s' la dt sg E HA HP H. induction H as [|n s1 o s2 H IH Hm P HD HS|n s1 b' s2 H IH HT|n s1 s2 H IH HC].
    - split; [eauto|auto].
    - destruct IH as ((l & E1) & A1 & P1 & N1 & M1). destruct (step_keeps s1 l o s2 E1 P HS) as (K1 & K2 & K3 & K4 & K5 & K6 & K7).
      split; [eexists; eapply ex_step; eauto|]. split; [intros i Hi; rewrite K3; apply A1; congruence|].
      split; [unfold parameters in *; rewrite K4, K5, K6; auto|]. split; congruence.
    - destruct IH as ((l & E1) & A1 & P1 & N1 & M1). destruct (term_keeps s1 b' s2 HT) as (K0 & K1 & K2 & K3 & K4 & K5 & K6).
      split; [eexists; eapply ex_term; eauto|]. split; [intros i Hi; rewrite K3; apply A1; congruence|].
      split; [unfold parameters in *; rewrite K4, K5, K6; auto|]. split; congruence.
    - destruct IH as ((l & E1) & A1 & P1 & N1 & M1). split; [eexists; eapply alpha_changed_exec; eauto|].
      destruct HC as (al & -> & H1 & H2). split; auto.
  Qed.
  (** ** noise-free runs *)
  Lemma move_diff : forall la dt cp x y z z' d, length cp = d -> length x = d -> length y = d -> length z = d -> length z' = d ->
    vsub (rmove k la dt 0 cp x z) (rmove k la dt 0 cp y z') = vscal (1 - la * dt) (vsub x y).
  Proof.
    intros. apply (coord_ext _ _ d).
    - apply length_vsub; apply length_rmove; auto.
    - rewrite length_vscal. apply length_vsub; auto.
    - intros i Hi. rewrite coord_vscal, !coord_vsub by (rewrite ?(length_rmove _ _ _ _ _ _ _ d); congruence).
      rewrite !(coord_rmove _ _ _ _ _ _ _ _ d) by auto. ring.
  Qed.

  Lemma diffs_trans : forall r r' X Y Z, length X = length Y -> diffs r X Y -> diffs r' Y Z -> diffs (r' * r) X Z.
  Proof.
    intros r r' X Y Z HL H1 H2 i j xi xj zi zj A1 A2 A3 A4.
    destruct (nth_error_lt_Some _ Y i) as (yi & B1); [apply nth_error_lt in A1; lia|].
    destruct (nth_error_lt_Some _ Y j) as (yj & B2); [apply nth_error_lt in A2; lia|].
    rewrite (H2 i j yi yj zi zj), (H1 i j xi xj yi yj) by auto. unfold vscal. rewrite map_map. apply map_ext. intros; ring.
  Qed.

  (** what holds for the ensemble of an active run along noise-free steps, given a family [P] of
      ensembles which is preserved and on which post-processing does nothing *)
  Lemma noise_free_gen : forall (P : list (list R) -> Prop) s log m d n s' X la dt, exec c s log -> finite_obj d f -> finite_alpha s ->
    parameters la dt 0 s -> b = s_N s -> ensemble_at s m d X -> P X ->
    (forall X a zs Y, ensemble (s_N s) d X -> P X -> length zs = length X -> (forall z, In z zs -> length z = d) ->
       Y = map2 (fun x z => rmove k la dt 0 (gibbs_point a (map f (map floats X)) d X) x z) X zs ->
       P Y /\ forall y, In y Y -> pp (floats y) = floats y) ->
    steps_active c m d s n s' ->
    (forall y, In y X -> pp (floats y) = floats y) ->
    exists Y, ensemble_at s' m d Y /\ P Y /\ diffs ((1 - la * dt) ^ n) X Y.
  Proof.
    intros P s log m d n s' X la dt E HF HA HP HB HX HPX HPres H Hfix0. induction H as [|n s1 o s2 H IH Hm PV HD HS|n s1 b' s2 H IH HT|n s1 s2 H IH HC].
    - exists X. split; auto. split; auto. intros i j xi xj yi yj A1 A2 A3 A4. rewrite A1 in A3. rewrite A2 in A4. injection A3 as <-. injection A4 as <-.
      cbn. symmetry. unfold vscal. rewrite (map_ext _ (fun x => x)) by (intros; ring). apply map_id.
    - destruct IH as (Y & HY & HPY & HDY).
      destruct (steps_keep s log m d n s1 la dt 0 E HA HP H) as ((l & E1) & A1 & P1 & N1 & M1).
      destruct (real_step s1 l o s2 m d Y la dt 0 E1 PV HD HF A1 P1 (eq_trans HB (eq_sym N1)) Hm HS HY) as (cp & Z & zs & L1 & L2 & L3 & L4 & (a & ->) & HZ & Hx).
      assert (HYe : ensemble (s_N s) d Y) by (rewrite <- N1; apply HY).
      destruct (HPres Y a zs Z HYe HPY L3 L4 HZ) as [Q1 Q2].
      destruct (step_keeps s1 l o s2 E1 PV HS) as (K1 & K2 & _).
      exists Z. split; [|split; auto].
      + split; [|rewrite K2; auto]. rewrite Hx. f_equal. rewrite map_map. apply map_ext_in. auto.
      + change ((1 - la * dt) ^ S n) with ((1 - la * dt) * (1 - la * dt) ^ n). apply (diffs_trans _ _ X Y Z); auto.
        { destruct HX as [_ [HX _]]. destruct HYe as [HYe _]. congruence. }
        intros i j xi xj yi yj B1 B2 B3 B4. subst Z. rewrite map2_nth, B1 in B3. rewrite map2_nth, B2 in B4.
        destruct (nth_error zs i) as [zi|] eqn:Z1; [|discriminate]. destruct (nth_error zs j) as [zj|] eqn:Z2; [|discriminate].
        injection B3 as <-. injection B4 as <-. apply (move_diff _ _ _ _ _ _ _ d); auto;
          try (apply HYe; eapply nth_error_In; eassumption); apply L4; eapply nth_error_In; eassumption.
    - destruct IH as (Y & HY & HPY & HDY). destruct (term_keeps s1 b' s2 HT) as (K0 & K1 & K2 & _).
      exists Y. split; [|split; auto]. unfold ensemble_at. rewrite K0, K2. auto.
    - destruct IH as (Y & HY & HPY & HDY). exists Y. split; [|split; auto]. destruct HC as (al & -> & _). exact HY.
  Qed.

  (** no post-processing: any lamda * dt *)
  Theorem noise_free_contraction : forall s log m d n s' X la dt, exec c s log -> finite_obj d f -> finite_alpha s ->
    parameters la dt 0 s -> b = s_N s -> ensemble_at s m d X -> (forall p, length p = d -> pp (floats p) = floats p) ->
    steps_active c m d s n s' ->
    exists Y, ensemble_at s' m d Y /\ diffs ((1 - la * dt) ^ n) X Y.
  Proof.
    intros s log m d n s' X la dt E HF HA HP HB HX Hpp H.
    destruct (noise_free_gen (fun _ => True) s log m d n s' X la dt E HF HA HP HB HX I) as (Y & H1 & _ & H2); auto.
    - intros X0 a zs Y HX0 _ L3 L4 ->. split; auto. intros y Hy. apply Hpp. apply In_nth_error in Hy. destruct Hy as (i & Hi).
      rewrite map2_nth in Hi. destruct (nth_error X0 i) eqn:E1; [|discriminate]. destruct (nth_error zs i) eqn:E2; [|discriminate].
      injection Hi as <-. apply length_rmove; [apply gibbs_point_length|apply HX0; eapply nth_error_In; eauto|apply L4; eapply nth_error_In; eauto].
    - intros y Hy. apply Hpp. apply HX. auto.
    - eauto.
  Qed.

  (** a box is preserved if 0 <= lamda * dt <= 1 *)
  Lemma box_step : forall d lo hi X a zs la dt N, ensemble N d X -> (1 <= N)%nat -> finite_obj d f -> (forall p, In p X -> in_box d lo hi p) ->
    0 <= la * dt <= 1 -> length zs = length X -> (forall z, In z zs -> length z = d) ->
    forall y, In y (map2 (fun x z => rmove k la dt 0 (gibbs_point a (map f (map floats X)) d X) x z) X zs) -> in_box d lo hi y /\ length y = d.
  Proof.
    intros d lo hi X a zs la dt N HX HN HF HBox Hl L3 L4 y Hy. apply In_nth_error in Hy. destruct Hy as (i & Hi).
    rewrite map2_nth in Hi. destruct (nth_error X i) as [x|] eqn:E1; [|discriminate]. destruct (nth_error zs i) as [z|] eqn:E2; [|discriminate].
    injection Hi as <-. set (cp := gibbs_point a (map f (map floats X)) d X). apply nth_error_In in E1. apply nth_error_In in E2.
    assert (Lc : length cp = d) by apply gibbs_point_length. assert (Lx : length x = d) by (apply HX; auto). assert (Lz : length z = d) by auto.
    split; [|apply length_rmove; auto]. intros j Hj. rewrite (coord_rmove _ _ _ _ _ _ _ _ d) by auto.
    assert (B1 := HBox x E1 j Hj).
    assert (B2 : lo j <= coord j cp <= hi j).
    { apply (hull_coord a (map f (map floats X)) d X j (lo j) (hi j)); auto.
      - eapply finite_admissible; eauto; [rewrite (proj1 HX); auto|apply HX].
      - split; [rewrite !map_length; auto|apply HX].
      - intros p Hp. apply HBox; auto. }
    assert (0 <= la * dt * (coord j cp - lo j)) by (apply Rmult_le_pos; lra).
    assert (0 <= la * dt * (hi j - coord j cp)) by (apply Rmult_le_pos; lra).
    assert (0 <= (1 - la * dt) * (coord j x - lo j)) by (apply Rmult_le_pos; lra).
    assert (0 <= (1 - la * dt) * (hi j - coord j x)) by (apply Rmult_le_pos; lra).
    lra.
  Qed.

  Theorem noise_free_box : forall s log m d n s' X la dt lo hi, exec c s log -> finite_obj d f -> finite_alpha s ->
    parameters la dt 0 s -> b = s_N s -> ensemble_at s m d X -> 0 <= la * dt <= 1 ->
    (forall p, length p = d -> in_box d lo hi p -> pp (floats p) = floats p) -> (forall p, In p X -> in_box d lo hi p) ->
    steps_active c m d s n s' ->
    exists Y, ensemble_at s' m d Y /\ (forall p, In p Y -> in_box d lo hi p) /\ diffs ((1 - la * dt) ^ n) X Y.
  Proof.
    intros s log m d n s' X la dt lo hi E HF HA HP HB HX Hl Hpp HBox H.
    assert (HN : (1 <= s_N s)%nat) by (apply (exec_wf _ _ _ E)).
    apply (noise_free_gen (fun X => forall p, In p X -> in_box d lo hi p) s log m d n s' X la dt E HF HA HP HB HX HBox); auto.
    - intros X0 a zs Y HX0 HB0 L3 L4 ->.
      pose proof (box_step d lo hi X0 a zs la dt (s_N s) HX0 HN HF HB0 Hl L3 L4) as Q.
      split; intros y Hy; destruct (Q y Hy); auto.
    - intros y Hy. apply Hpp; auto. apply HX; auto.
  Qed.
End Cfg.
