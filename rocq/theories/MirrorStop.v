(** * Runs of MirrorCBO in consensus *)
From Coq Require Import List Arith Bool Reals Lra Lia.
From Verif Require Import Scalar ScalarFacts RFacts Np NpFacts State Pdyn Exec PdynFacts PdynStep PdynRun PdynOk StepFrame RVec RVecFacts ConsSpec ConsFacts Consensus Cbo CboSpec CboFacts AbsorbFacts MemSpec
  Variant VarSpec VarFacts VarMove VarExactSpec VarExact VarIndep ProxSpec ProxFacts ConvSpec ConvFacts ConRunSpec ConRun MirrorStopSpec.
Import ListNotations.
Open Scope R_scope.

(** the increment of a particle at its consensus point vanishes *)
Lemma no_increment : forall k la dt sg p z y d, k <> NConst -> length p = d -> length z = d -> length y = d ->
  vadd y (vadd (vscal (- la * dt) (vsub p p)) (vscal sg (rnoise k dt (vsub p p) z))) = y.
Proof.
  intros k la dt sg p z y d Hk Lp Lz Ly. pose proof (rmove_same k la dt sg p z Hk ltac:(congruence)) as RM.
  assert (LS : length (vsub p p) = d) by (apply length_vsub; auto). assert (LR : length (rnoise k dt (vsub p p) z) = d) by (apply length_rnoise; auto).
  assert (LI : length (vadd (vscal (- la * dt) (vsub p p)) (vscal sg (rnoise k dt (vsub p p) z))) = d) by (apply length_vadd; rewrite length_vscal; auto).
  apply (coord_ext _ _ d); auto. apply length_vadd; auto.
  intros i _. rewrite coord_vadd by congruence. rewrite coord_vadd by (rewrite !length_vscal; congruence). rewrite !coord_vscal, coord_vsub by auto.
  assert (Z := f_equal (coord i) RM). rewrite (coord_rmove _ _ _ _ _ _ _ _ d) in Z by auto. lra.
Qed.

Lemma mirror_stop_step : forall gc gr f k pp b partial cat ks save la dt sg d m p n s y log o s' y', let c := cbo_cfg f k pp NoCorr b partial cat ks save in
  k <> NConst -> finite_obj d f -> vexec (mirror_inner gc) (mirror_attr gr) c n (s, y) log -> n <> 0%nat -> finite_alpha s -> parameters la dt sg s ->
  run_in (fun q => q = p) s m d -> finite_dual d y m -> perms_valid o s -> finite_draws d o -> s_active s <> [] -> vstep (mirror_inner gc) c o (s, y) = Ok (s', y') ->
  nth_error y' m = nth_error y m /\ nth_error (s_x s') m = nth_error (s_x s) m.
Proof.
  intros gc gr f k pp b partial cat ks save la dt sg d m p n s y log o s' y' c Hk HF H Hn FA (P1 & P2 & P3 & P4) RI (Y & HY1 & HY2) P HD HA HS.
  assert (C1 : one_consensus_point c) by (apply cbo_one_point).
  destruct (in_dec Nat.eq_dec m (s_active s)) as [Hm|Hm].
  2:{ destruct (mirror_frozen gc gr c n s y log o s' y' m H P HA HS Hm) as [A B]. auto. }
  assert (E2 : vexec (mirror_inner gc) (mirror_attr gr) c (S n) (s', y') (log ++ evaluated s s')) by (eapply vx_step; eauto).
  assert (G : nth_error y' m = nth_error y m).
  2:{ split; auto. rewrite (mirror_dual _ _ _ _ _ _ _ H Hn), (mirror_dual _ _ _ _ _ _ _ E2) by discriminate. rewrite !nth_error_map, G. auto. }
  destruct (mirror_inv _ _ _ _ _ _ _ H) as [W Ry]. destruct (mirror_inv _ _ _ _ _ _ _ E2) as [W' Ry'].
  destruct (step_same (mirror_inner gc) (mirror_attr gr) _ _ (mirror_regular gc) (attr_mirror gr) c I n s y log o s' y' H P HA HS) as (J1 & J2 & _). rewrite J1, J2 in Ry'.
  assert (Hlt : (m < s_M s)%nat) by (rewrite <- (proj1 Ry); eapply nth_error_lt; exact HY1).
  apply (rows_eq _ _ _ _ _ _ _ _ Ry Ry'); auto. intros i Hi.
  destruct (In_nth_error _ _ Hm) as (kk & Hkk). destruct (cell_some c s m i W Hlt Hi) as (v & Hv).
  assert (LY : (i < length Y)%nat) by (pose proof (proj2 Ry _ _ HY1) as L; rewrite map_length in L; lia).
  destruct (nth_error_lt_Some _ _ _ LY) as (yq & Hyq). assert (Lyq : length yq = d) by (apply HY2; eapply nth_error_In; eauto).
  assert (Hy : cell y m i = Some (floats yq)) by (unfold cell; rewrite HY1, nth_error_map, Hyq; auto).
  destruct (mirror_move gc gr c n s y log o s' y' C1 eq_refl H P HS kk m i v (floats yq) Hkk Hv Hy) as (yv' & E & _ & HM). rewrite E, Hy. f_equal.
  destruct (last_index i (run_selp c o s m)) as [j|]; auto. destruct HM as (cp & HO & ->).
  assert (Hvp : v = floats p /\ length p = d).
  { destruct RI as (X & [HX1 HX2] & HXC). unfold cell in Hv. rewrite HX1 in Hv. apply nth_error_In in Hv. apply in_map_iff in Hv. destruct Hv as (q & <- & Hq).
    rewrite <- (HXC q Hq). split; auto. apply HX2; auto. }
  destruct Hvp as [-> Lp].
  assert (CV : convex_set d (fun q => q = p)).
  { intros p1 p2 t L1 L2 -> -> Ht. apply (coord_ext _ _ d); auto. apply mix_length; auto. intros r _. rewrite (mix_coord t p p d) by auto. ring. }
  destruct (own_in f k pp b partial cat ks save _ d o s m cp HF CV W P FA RI HO) as (q & -> & Lq & ->).
  destruct (HD kk j) as (z & Ez & Lz). rewrite Ez. unfold kick. rewrite P1, P2, P3. cbn [c cbo_cfg c_vadd c_vsub c_vscale c_noise].
  cbn [fmul fopp kopp kmul KOps_R]. rewrite floats_sub, noise_floats, !floats_scal, !floats_add by auto. f_equal. apply (no_increment _ _ _ _ _ _ _ d); auto.
Qed.

Theorem mirror_stop : forall gc gr f k pp b partial cat ks save la dt sg d m p n s y log s' y', let c := cbo_cfg f k pp NoCorr b partial cat ks save in
  k <> NConst -> finite_obj d f -> vexec (mirror_inner gc) (mirror_attr gr) c n (s, y) log -> n <> 0%nat -> finite_alpha s -> parameters la dt sg s ->
  run_in (fun q => q = p) s m d -> finite_dual d y m -> later_v (mirror_inner gc) c d (s, y) (s', y') ->
  nth_error y' m = nth_error y m /\ nth_error (s_x s') m = nth_error (s_x s) m.
Proof.
  intros gc gr f k pp b partial cat ks save la dt sg d m p n s y log s' y' c Hk HF H Hn FA PA RI FD T.
  assert (G : nth_error y' m = nth_error y m /\ nth_error (s_x s') m = nth_error (s_x s) m /\
    exists n' log', vexec (mirror_inner gc) (mirror_attr gr) c n' (s', y') log' /\ n' <> 0%nat /\ s_M s' = s_M s /\ s_N s' = s_N s /\ s_alpha s' = s_alpha s /\ parameters la dt sg s'); [|tauto].
  remember (s', y') as p' eqn:Ep. revert s' y' Ep. induction T as [|s1 y1 o s2 y2 T IH NA P HD HS|s1 y1 b1 s2 T IH HT]; intros s' y' Ep; injection Ep as <- <-.
  - split; auto. split; auto. exists n, log. auto 10.
  - destruct (IH _ _ eq_refl) as (A1 & A2 & n1 & l1 & E1 & N1 & K1 & K2 & K3 & K4).
    assert (FA1 : finite_alpha s1) by (intros r Hr; rewrite K3; apply FA; congruence).
    assert (RI1 : run_in (fun q => q = p) s1 m d). { destruct RI as (X & [HX1 HX2] & HXC). exists X. split; auto. split; [congruence|]. rewrite K2. auto. }
    assert (FD1 : finite_dual d y1 m) by (destruct FD as (Y & HY1 & HY2); exists Y; split; [congruence|auto]).
    destruct (mirror_stop_step gc gr f k pp b partial cat ks save la dt sg d m p n1 s1 y1 l1 o s2 y2 Hk HF E1 N1 FA1 K4 RI1 FD1 P HD NA HS) as [B1 B2].
    destruct (step_same (mirror_inner gc) (mirror_attr gr) _ _ (mirror_regular gc) (attr_mirror gr) c I n1 s1 y1 l1 o s2 y2 E1 P NA HS) as (J1 & J2 & J3 & J4 & J5 & J6 & _).
    split; [congruence|]. split; [congruence|]. exists (S n1), (l1 ++ evaluated s1 s2). split; [eapply vx_step; eauto|]. split; [discriminate|].
    split; [congruence|]. split; [congruence|]. split; [congruence|]. destruct K4 as (Q1 & Q2 & Q3 & Q4). repeat split; congruence || auto.
  - destruct (IH _ _ eq_refl) as (A1 & A2 & n1 & l1 & E1 & N1 & K1 & K2 & K3 & K4).
    destruct (term_same' c _ _ _ HT) as (J0 & J1 & J2 & J3 & J4 & J5 & J6).
    split; auto. split; [congruence|]. exists n1, l1. split; [eapply vx_term; eauto|]. split; auto.
    split; [congruence|]. split; [congruence|]. split; [congruence|]. destruct K4 as (Q1 & Q2 & Q3 & Q4). repeat split; congruence || auto.
Qed.
