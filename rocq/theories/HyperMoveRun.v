(** * Runs of HyperSurfaceCBO in a state of consensus, and the role of lamda *)
From Coq Require Import List Arith Bool Reals Lra Lia.
From Verif Require Import Scalar Np NpFacts State Pdyn Exec PdynFacts PdynStep PdynRun PdynOk StepFrame RVec RVecFacts ConsSpec ConsFacts Consensus Cbo CboSpec CboFacts AbsorbFacts MemSpec
  TermFacts RunFacts Variant VarSpec VarFacts VarMove VarExactSpec VarExact MirrorSpec HyperMaps HyperSpec HyperFacts HyperRun HyperMoveSpec HyperMoveFacts.
Import ListNotations.
Open Scope R_scope.

Section Runs.
  Variables (f : vec -> fl R) (k : noise_model) (pp : vec -> vec) (b : nat) (partial cat : bool) (ks : list (crit R vec)) (save : bool) (sd : sdf).
  Let c := hyper_cfg f k pp b partial cat ks save.
  Let S := surface_of sd k.

  Lemma term_same : forall (s : st R vec) b' s', terminate c s = Ok (b', s') ->
    s_x s' = s_x s /\ s_M s' = s_M s /\ s_N s' = s_N s /\ s_alpha s' = s_alpha s /\ s_sigma s' = s_sigma s /\ s_lamda s' = s_lamda s /\ s_dt s' = s_dt s.
  Proof.
    intros s b' s' H. unfold terminate in H. apply bind_ok in H. destruct H as (q & H & H2). inversion H2; subst.
    unfold select_active_runs in H. apply bind_ok in H. destruct H as (l & _ & H). inversion H. subst. destruct s; cbn; tauto.
  Qed.

  Lemma hyper_one : one_consensus_point c.
  Proof. intros e x a. reflexivity. Qed.

  Lemma hyper_keeps : forall n s log o s' u', vexec (hyper_inner S) (fun _ => tt) c n (s, tt) log -> perms_valid o s -> s_active s <> [] -> vstep (hyper_inner S) c o (s, tt) = Ok (s', u') ->
    s_M s' = s_M s /\ s_N s' = s_N s /\ s_alpha s' = s_alpha s /\ s_sigma s' = s_sigma s /\ s_lamda s' = s_lamda s /\ s_dt s' = s_dt s /\ s_active s' = s_active s.
  Proof.
    intros n s log o s' u' H P HA HS. destruct (vexec_inv _ _ _ _ (hyper_regular S) attr_unit c n s tt log hyper_one H) as [W _].
    destruct (pre_cons_full c o s W (perms_valid_ok _ _ P)) as (s0 & sc & ci & pi & cps & CO).
    apply vstep_inv in HS. destruct HS as (s0' & s2 & E1 & E2 & E3). rewrite (co_pre _ _ _ _ _ _ _ _ CO) in E1. injection E1 as <-.
    destruct (hyper_regular S c o s s0 sc ci pi cps tt s2 u' hyper_one W (perms_valid_ok _ _ P) HA CO I E2) as (x' & dd & fc & nf & -> & _).
    destruct CO as [_ _ _ K1 K2 K3 K4 K5 K6 _ K7 _ _ _ _ _ _ _ _ _].
    apply post_step_frame in E3. destruct E3 as (x & ud & fm & bcp & bce & be & bp & s5 & Et & ->).
    apply track_frame in Et. destruct Et as (ti & ts & h & ->). rewrite <- K1, <- K2, <- K3, <- K4, <- K5, <- K6, <- K7. destruct sc. repeat split; reflexivity.
  Qed.

  Lemma cell_repeat : forall (s : st R vec) m (v : vec) N i, nth_error (s_x s) m = Some (repeat v N) -> (i < N)%nat -> cell (s_x s) m i = Some v.
  Proof. intros s m v N i H Hi. unfold cell. rewrite H, nth_error_repeat, (proj2 (Nat.ltb_lt _ _) Hi). auto. Qed.

  (** one step from a consensus at p *)
  Lemma consensus_step : forall n s log o s' u' m p q d, vexec (hyper_inner S) (fun _ => tt) c n (s, tt) log -> perms_valid o s -> finite_draws d o -> length (s_active s) = s_M s ->
    length p = d -> (exists y, f (floats p) = Fin y) -> finite_alpha s -> finite_parameters s ->
    (forall dt sg z, 0 <= dt -> s_dt s = Fin dt -> length z = d -> sdf_proj sd (x_tilde sd k (Fin dt) (Fin sg) (floats p) (floats p) (floats z)) = floats q) -> pp (floats q) = floats q ->
    vstep (hyper_inner S) c o (s, tt) = Ok (s', u') -> all_at s m p -> all_at s' m q.
  Proof.
    intros n s log o s' u' m p q d H P HD HA Lp (y & Hf) FA (la & dt & sg & P1 & P2 & P3 & P4) HM Hpp HS AA.
    destruct (vexec_inv _ _ _ _ (hyper_regular S) attr_unit c n s tt log hyper_one H) as [W _].
    assert (Hlt : (m < s_M s)%nat) by (rewrite <- (proj1 (w_x _ _ W)); eapply nth_error_lt; exact AA).
    assert (NA : s_active s <> []) by (intros E; rewrite E in HA; cbn in HA; lia).
    assert (H' : vexec (hyper_inner S) (fun _ => tt) c (Datatypes.S n) (s', tt) (log ++ evaluated s s')) by (destruct u'; eapply vx_step; eauto).
    destruct (vexec_inv _ _ _ _ (hyper_regular S) attr_unit c _ s' tt _ hyper_one H') as [W' _].
    destruct (hyper_keeps n s log o s' u' H P NA HS) as (K1 & K2 & _).
    assert (X' : exists xr', nth_error (s_x s') m = Some xr' /\ length xr' = s_N s).
    { destruct (nth_error_lt_Some _ (s_x s') m) as (xr' & E). rewrite (proj1 (w_x _ _ W')), K1. auto. exists xr'. split; auto. rewrite (proj2 (w_x _ _ W') _ _ E). auto. }
    destruct X' as (xr' & Ex' & Lx'). unfold all_at. rewrite Ex', K2. f_equal. apply nth_error_ext. intros i. rewrite nth_error_repeat. destruct (Nat.lt_ge_cases i (s_N s)) as [Hi|Hi].
    2:{ rewrite (proj2 (nth_error_None _ _)) by lia. rewrite (proj2 (Nat.ltb_ge _ _) Hi). auto. }
    rewrite (proj2 (Nat.ltb_lt _ _) Hi).
    destruct (hyper_move S c n s tt log o s' u' hyper_one H P HA HS m i (floats p) (cell_repeat s m _ _ i AA Hi)) as (cp & (xr & a & xb & E1 & E2 & E3 & E4) & EC).
    unfold cell in EC. rewrite Ex' in EC. rewrite EC. f_equal. unfold all_at in AA. rewrite AA in E1. injection E1 as <-.
    destruct (FA m Hlt) as (a' & Ha'). rewrite E2 in Ha'. injection Ha' as ->.
    assert (HI : forall v, In v xb -> v = floats p).
    { intros v Hv. destruct (In_nth_error _ _ Hv) as (j & Hj). assert (Hj' : (j < length (run_sel c o s m))%nat) by (rewrite <- (takeM_length _ _ _ _ E3); eapply nth_error_lt; eauto).
      destruct (nth_error_lt_Some _ _ _ Hj') as (i' & Hi1). pose proof (takeM_nth _ _ _ _ _ _ E3 Hi1) as Hi'. rewrite Hj in Hi'. symmetry in Hi'. apply nth_error_In in Hi'. eapply repeat_spec; eauto. }
    assert (Exb : xb = map floats (repeat p (length xb))).
    { clear - HI. induction xb as [|v xb IH]; auto. cbn. f_equal; [apply HI; cbn; auto|]. apply IH. intros; apply HI; cbn; auto. }
    assert (Lxb : length xb <> 0%nat).
    { rewrite (takeM_length _ _ _ _ E3), run_sel_length; [|auto|apply perms_valid_ok; auto|auto]. pose proof (w_bs _ _ W). lia. }
    assert (cp = floats p).
    { cbn [c hyper_cfg c_ccrow c_f] in E4. rewrite Exb in E4. rewrite map_length, repeat_length in E4 || idtac.
      assert (HE : map f (map floats (repeat p (length xb))) = repeat (Fin y) (length xb)) by (rewrite map_map, map_repeat, Hf; auto).
      assert (EN : ensemble (length (repeat (@Fin R y) (length xb))) d (repeat p (length xb))).
      { split; [rewrite !repeat_length; auto|]. intros q' Hq. apply repeat_spec in Hq. subst q'. auto. }
      assert (AD : admissible a' (repeat (Fin y) (length xb))).
      { split; [intros e He; apply repeat_spec in He; left; eauto|]. exists y. destruct xb; [cbn in Lxb; lia|]. cbn. auto. }
      rewrite HE, (rescale_same a' _ d), (consensus_gibbs a' _ d) in E4 by auto. injection E4 as <-. f_equal. apply hull_single; auto.
      intros q' Hq. apply repeat_spec in Hq. auto. }
    subst cp. destruct (HD m i) as (z & Ez & Lz). rewrite Ez. unfold kick. rewrite P2, P3. cbn [c hyper_cfg c_pp c_vsub c_vadd c_vscale c_noise S surface_of h_proj h_tan].
    change (pp (sdf_proj sd (x_tilde sd k (Fin dt) (Fin sg) (floats p) (floats p) (floats z))) = floats q). rewrite HM by auto. exact Hpp.
  Qed.

  Lemma moves_keep : forall n s log d j s', vexec (hyper_inner S) (fun _ => tt) c n (s, tt) log -> moves c S d s j s' ->
    (exists n' log', vexec (hyper_inner S) (fun _ => tt) c n' (s', tt) log') /\ s_M s' = s_M s /\ s_N s' = s_N s /\ s_alpha s' = s_alpha s /\ s_sigma s' = s_sigma s /\ s_lamda s' = s_lamda s /\ s_dt s' = s_dt s.
  Proof.
    intros n s log d j s' H M. induction M as [|j s1 o s2 M IH NA HA P HD HS|j s1 b' s2 M IH HT].
    - split; eauto 10.
    - destruct IH as ((n1 & l1 & E1) & K1 & K2 & K3 & K4 & K5 & K6).
      destruct (vexec_inv _ _ _ _ (hyper_regular S) attr_unit c n1 s1 tt l1 hyper_one E1) as [W _].
      destruct (hyper_keeps n1 s1 l1 o s2 tt E1 P NA HS) as (J1 & J2 & J3 & J4 & J5 & J6 & _).
      split; [do 2 eexists; eapply vx_step; eauto|]. repeat split; congruence.
    - destruct IH as ((n1 & l1 & E1) & K1 & K2 & K3 & K4 & K5 & K6). split; [do 2 eexists; eapply vx_term; eauto|]. destruct (term_same _ _ _ HT) as (_ & J1 & J2 & J3 & J4 & J5 & J6). repeat split; congruence.
  Qed.

  Theorem stays : forall n s log d m p j s', surface_ok sd d -> on_surface sd p -> length p = d -> k <> NConst -> (forall a b, sd <> PlaneD a b) ->
    match sd with StiefelD _ _ svd => svd (floats p) <> None | _ => True end -> (exists y, f (floats p) = Fin y) -> pp (floats p) = floats p ->
    vexec (hyper_inner S) (fun _ => tt) c n (s, tt) log -> finite_alpha s -> finite_parameters s -> all_at s m p -> moves c S d s j s' -> all_at s' m p.
  Proof.
    intros n s log d m p j s' OK Hp Lp Hk NP Hs Hf Hpp E FA FP AA M. induction M as [|j s1 o s2 M IH NA HA P HD HS|j s1 b' s2 M IH HT]; auto.
    - destruct (moves_keep n s log d j s1 E M) as ((n1 & l1 & E1) & K1 & K2 & K3 & K4 & K5 & K6).
      assert (FA1 : finite_alpha s1) by (intros i Hi; rewrite K3; apply FA; congruence).
      assert (FP1 : finite_parameters s1) by (destruct FP as (la & dt & sg & Q1 & Q2 & Q3 & Q4); exists la, dt, sg; repeat split; congruence).
      eapply (consensus_step n1 s1 l1 o s2 tt m p p d); eauto. intros dt sg z Hdt _ Lz. apply (fixed_point sd k d); auto.
    - destruct (term_same _ _ _ HT) as (J0 & _ & J2 & _). unfold all_at in *. rewrite J0, J2. exact IH.
  Qed.

  (** the position after j steps on a plane *)
  Theorem runs_away : forall a b' n s log d m p dt j s', sd = PlaneD a b' -> surface_ok sd d -> plane a b' p -> length p = d -> k <> NConst ->
    (forall q, length q = d -> exists y, f (floats q) = Fin y) -> (forall q, length q = d -> pp (floats q) = floats q) ->
    vexec (hyper_inner S) (fun _ => tt) c n (s, tt) log -> finite_alpha s -> finite_parameters s -> s_dt s = Fin dt -> all_at s m p -> moves c S d s j s' ->
    all_at s' m (vadd (foot a b') (vscal ((1 + dt) ^ j) (vsub p (foot a b')))).
  Proof.
    intros a b' n s log d m p dt j s' Esd OK Hp Lp Hk Hf Hpp E FA FP Hdt AA M. assert (OK' := OK). rewrite Esd in OK'. destruct OK' as (Hd & La & Na). pose proof (vnorm_sqnorm_ne a Na) as Sa.
    assert (Lf : length (foot a b') = d) by (unfold foot; rewrite length_vscal; auto). assert (Ls : length (vsub p (foot a b')) = d) by (apply length_vsub; auto).
    assert (Lr : forall r, length (vadd (foot a b') (vscal r (vsub p (foot a b')))) = d) by (intros; apply length_vadd; auto; rewrite length_vscal; auto).
    assert (On : forall r, plane a b' (vadd (foot a b') (vscal r (vsub p (foot a b'))))).
    { intros r. unfold plane. rewrite dot_vadd_r by (rewrite length_vscal; congruence). rewrite dot_vscal_r, dot_vsub_r by congruence. rewrite (foot_on a b' Sa), Hp. ring. }
    induction M as [|j s1 o s2 M IH NA HA P HD HS|j s1 b2 s2 M IH HT].
    - replace (vadd (foot a b') (vscal ((1 + dt) ^ 0) (vsub p (foot a b')))) with p; auto. apply (coord_ext _ _ d); auto. intros i Hi.
      rewrite coord_vadd, coord_vscal, coord_vsub by (rewrite ?length_vscal; congruence). cbn. ring.
    - destruct (moves_keep n s log d j s1 E M) as ((n1 & l1 & E1) & K1 & K2 & K3 & K4 & K5 & K6).
      assert (FA1 : finite_alpha s1) by (intros i Hi; rewrite K3; apply FA; congruence).
      assert (FP1 : finite_parameters s1) by (destruct FP as (la & dt' & sg & Q1 & Q2 & Q3 & Q4); exists la, dt', sg; repeat split; congruence).
      eapply (consensus_step n1 s1 l1 o s2 tt m _ _ d); [eauto|eauto|eauto|eauto| | |eauto|eauto| |apply Hpp; auto|eauto|exact IH]; auto.
      intros dt' sg z Hdt' Ed Lz. rewrite K6, Hdt in Ed. injection Ed as <-. rewrite Esd. set (q := vadd (foot a b') (vscal ((1 + dt) ^ j) (vsub p (foot a b')))).
      assert (OKp : surface_ok (PlaneD a b') d) by (rewrite <- Esd; auto). rewrite (plane_runaway a b' k d dt sg q z OKp (On _) (Lr _) Lz Hk Hdt'). f_equal. apply (coord_ext _ _ d); auto.
      { apply length_vadd; [apply Lr|]. rewrite length_vscal. apply length_vsub; auto. apply Lr. }
      intros i Hi. unfold q. rewrite !coord_vadd, !coord_vscal, !coord_vsub, !coord_vadd, !coord_vscal, !coord_vsub by (rewrite ?length_vscal, ?(length_vsub _ _ d), ?Lr; auto; congruence). cbn. ring.
    - destruct (term_same _ _ _ HT) as (J0 & _ & J2 & _). unfold all_at in *. rewrite J0, J2. exact IH.
  Qed.
End Runs.

(** ** lamda *)
Theorem lamda_ignored : forall K V (O : KOps K) S (c : cfg K V) n s log o la s1 s2 u1 u2, one_consensus_point c ->
  vexec (hyper_inner S) (fun _ => tt) c n (s, tt) log -> perms_valid o s -> length (s_active s) = s_M s ->
  vstep (hyper_inner S) c o (s, tt) = Ok (s1, u1) -> vstep (hyper_inner S) c o (set_lamda la s, tt) = Ok (s2, u2) ->
  forall m i v, cell (s_x s) m i = Some v -> cell (s_x s1) m i = cell (s_x s2) m i.
Proof.
  intros K V O S c n s log o la s1 s2 u1 u2 C1 H P HA H1 H2 m i v Hv.
  destruct (vexec_inv _ _ _ _ (hyper_regular S) attr_unit c n s tt log C1 H) as [W _].
  destruct (hyper_move S c n s tt log o s1 u1 C1 H P HA H1 m i v Hv) as (cp & (xr & a & xb & A1 & A2 & A3 & A4) & ->).
  assert (H' : vexec (hyper_inner S) (fun _ => tt) c n (set_lamda la s, tt) log).
  { eapply vx_params; [exact H|]. exists (s_alpha s), (s_sigma s), la, (s_dt s). split; [|destruct s; reflexivity]. pose proof (w_al _ _ W) as [Q1 Q2]. split; auto. apply Forall_forall. intros r Hr. destruct (In_nth_error _ _ Hr) as (j & Hj). eapply Q2; eauto. }
  assert (P' : perms_valid o (set_lamda la s)) by (destruct s; exact P).
  assert (HA' : length (s_active (set_lamda la s)) = s_M (set_lamda la s)) by (destruct s; exact HA).
  assert (Hv' : cell (s_x (set_lamda la s)) m i = Some v) by (destruct s; exact Hv).
  destruct (hyper_move S c n _ tt log o s2 u2 C1 H' P' HA' H2 m i v Hv') as (cp' & (xr' & a' & xb' & B1 & B2 & B3 & B4) & ->).
  replace (s_x (set_lamda la s)) with (s_x s) in B1 by (destruct s; reflexivity). replace (s_alpha (set_lamda la s)) with (s_alpha s) in B2 by (destruct s; reflexivity).
  replace (run_sel c o (set_lamda la s) m) with (run_sel c o s m) in B3 by (destruct s; reflexivity).
  rewrite A1 in B1. injection B1 as <-. rewrite A2 in B2. injection B2 as <-. rewrite A3 in B3. injection B3 as <-. rewrite A4 in B4. injection B4 as <-.
  replace (s_dt (set_lamda la s)) with (s_dt s) by (destruct s; reflexivity). replace (s_sigma (set_lamda la s)) with (s_sigma s) by (destruct s; reflexivity).
  replace (kick c (set_lamda la s) v cp (o_z o m i)) with (kick c s v cp (o_z o m i)) by (destruct s; reflexivity). reflexivity.
Qed.
