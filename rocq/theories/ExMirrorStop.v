(** * A run of MirrorCBO whose positions agree while its dual points do not *)
From Coq Require Import String List Arith Bool Reals Permutation Lra Lia.
From Verif Require Import Scalar ScalarFacts RFacts Np NpFacts State Pdyn PdynFacts PdynStep PdynRun PdynOk Exec Script RVec RVecFacts Consensus ConsSpec ConsFacts Cbo CboSpec CboFacts AbsorbFacts ExCbo MemSpec
  Variant VarSpec VarFacts VarMove VarExactSpec VarExact VarTotal VarIndep ProxSpec ProxFacts ConvSpec ConvFacts ConRunSpec ConRun ExConRun MirrorStopSpec MirrorStop MirrorSpeed.
Import ListNotations.
Open Scope R_scope.

(** mirror map whose inverse projects to the point 0 *)
Definition to_zero (v : vec) : vec := floats [0].

Lemma own_unique : forall K V (O : KOps K) (c : cfg K V) o s m cp cp', own_consensus c o s m cp -> own_consensus c o s m cp' -> cp = cp'.
Proof. intros K V O c o s m cp cp' (xr & a & xb & E1 & E2 & E3 & E4) (xr' & a' & xb' & F1 & F2 & F3 & F4). congruence. Qed.

(** after one step from the points 1, 2, 4, whatever the mirror map is: dual points are finite and different *)
Lemma mirror_first : forall gc : vec -> vec, exists (s : st R vec) (y : arr vec) log a, let c := kc sqf NIso in
  vexec (mirror_inner gc) (mirror_attr (fun v => v)) c 1 (s, y) log /\ finite_alpha s /\ parameters 1 (/ 100) 0 s /\ s_active s = [0]%nat /\ s_M s = 1%nat /\ s_N s = 3%nat /\ perms_valid korc s /\
  1 <= a <= 4 /\ nth_error y 0 = Some (map floats [[1 - / 100 * (1 - a)]; [2 - / 100 * (2 - a)]; [4 - / 100 * (4 - a)]]).
Proof.
  intros gc.
  destruct (kstart sqf NIso 0 [[1]; [2]; [4]] eq_refl) as (s0 & _ & HC & HM & HN & HA & P & FA & PA & HX). set (c := kc sqf NIso) in *. set (inner := mirror_inner gc).
  assert (E0 : vexec inner (mirror_attr (fun v => v)) c 0 (s0, mirror_attr (fun v => v) s0) []) by (apply (vx_init inner (mirror_attr (fun v => v))); auto).
  pose proof (cbo_one_point sqf NIso (fun v => v) 2 false false [] false) as C1. assert (NA : s_active s0 <> []) by (rewrite HA; discriminate).
  assert (Y0 : mirror_attr (fun v => v) s0 = kx [[1]; [2]; [4]]) by (unfold mirror_attr; rewrite HX; reflexivity). rewrite Y0 in E0.
  destruct (mirror_total gc (fun v => v) c 0 s0 _ [] korc C1 eq_refl E0 P) as (s1 & y1 & HS).
  assert (E1 : vexec inner (mirror_attr (fun v => v)) c 1 (s1, y1) ([] ++ evaluated s0 s1)) by (eapply vx_step; eauto).
  destruct (step_same inner (mirror_attr (fun v => v)) _ _ (mirror_regular gc) (attr_mirror (fun v => v)) c I 0 s0 _ [] korc s1 y1 E0 P NA HS) as (J1 & J2 & J3 & J4 & J5 & J6 & J7).
  assert (P1 : perms_valid korc s1) by (intros m Hm; rewrite J2; apply P; congruence).
  destruct (mirror_total gc (fun v => v) c 1 s1 y1 _ korc C1 eq_refl E1 P1) as (s2 & y2 & HS2).
  destruct (mirror_inv _ _ _ _ _ _ _ E0) as [W0 R0]. destruct (mirror_inv _ _ _ _ _ _ _ E1) as [W1 R1].
  assert (RI0 : run_in (fun q => 1 <= coord 0 q <= 4) s0 0 1). { apply (krun_in s0 [[1]; [2]; [4]]); auto. intros q [<-|[<-|[<-|[]]]]; (split; [reflexivity|unfold coord; cbn [nth]; lra]). }
  (* every dual point moves by -(y - cp)/100 *)
  assert (MV : exists a, 1 <= a <= 4 /\ forall i t, nth_error [1; 2; 4] i = Some t -> cell y1 0 i = Some (floats [t - / 100 * (t - a)])).
  { assert (M : forall i t, nth_error [1; 2; 4] i = Some t -> exists q, 1 <= q <= 4 /\ own_consensus c korc s0 0 (floats [q]) /\ cell y1 0 i = Some (floats [t - / 100 * (t - q)])).
    { intros i t Ht. assert (Hv : cell (s_x s0) 0 i = Some (floats [t])). { rewrite HX. unfold cell, kx. cbn [nth_error]. destruct i as [|[|[|[|i]]]]; cbn in Ht; try discriminate; injection Ht as <-; reflexivity. }
      assert (Hy : cell (kx [[1]; [2]; [4]]) 0 i = Some (floats [t])) by (rewrite <- HX; auto).
      destruct (mirror_move gc (fun v => v) c 0 s0 _ [] korc s1 y1 C1 eq_refl E0 P HS 0%nat 0%nat i _ _ ltac:(rewrite HA; reflexivity) Hv Hy) as (yv & Hc & _ & HMv).
      assert (Si : run_selp c korc s0 0 = seq 0 3) by (unfold run_selp; rewrite HN; reflexivity).
      rewrite Si, last_index_seq in HMv. assert (Li : (i < 3)%nat) by (change 3%nat with (length [1; 2; 4]); eapply nth_error_lt; eauto). rewrite (proj2 (Nat.ltb_lt _ _) Li) in HMv.
      destruct HMv as (cp & HO & Ev).
      pose proof (slab_convex 1 0 1 4) as CV.
      destruct (own_in sqf NIso (fun v => v) 2 false false [] false _ 1 korc s0 0 cp (sqf_finite 1) CV W0 P FA RI0 HO) as (q & -> & Lq & Bq). destruct q as [|q [|? ?]]; try discriminate Lq.
      exists q. split; [exact Bq|]. split; auto. rewrite Hc, Ev. f_equal. destruct PA as (A1 & A2 & A3 & A4). unfold kick. rewrite A1, A2, A3. cbn [c kc cbo_cfg c_vadd c_vsub c_vscale c_noise].
      destruct (korc_finite 0%nat i) as (z & Ez & Lz). rewrite Ez. destruct z as [|z [|? ?]]; try discriminate Lz.
      cbn [fmul fopp kopp kmul KOps_R]. rewrite floats_sub, noise_floats, !floats_scal, !floats_add by lra. f_equal. unfold rnoise. cbn. f_equal. ring. }
    destruct (M 0%nat 1 eq_refl) as (a & BA & OA & _). exists a. split; auto. intros i t Ht. destruct (M i t Ht) as (q & _ & OQ & E). pose proof (own_unique _ _ _ _ _ _ _ _ _ OQ OA) as U. injection U as ->. exact E. }
  destruct MV as (a & BA & MV). pose proof (MV 0%nat 1 eq_refl) as M0. pose proof (MV 1%nat 2 eq_refl) as M1. pose proof (MV 2%nat 4 eq_refl) as M2.
  assert (YR : nth_error y1 0 = Some (map floats [[1 - / 100 * (1 - a)]; [2 - / 100 * (2 - a)]; [4 - / 100 * (4 - a)]])).
  { unfold cell in M0, M1, M2. destruct (nth_error y1 0) as [r|] eqn:Er; [|discriminate]. pose proof (proj2 R1 _ _ Er) as Lr. rewrite J2, HN in Lr.
    destruct r as [|r0 [|r1 [|r2 [|? ?]]]]; try discriminate Lr. cbn [nth_error] in M0, M1, M2. injection M0 as ->. injection M1 as ->. injection M2 as ->. reflexivity. }
  exists s1, y1, ([] ++ evaluated s0 s1), a. cbv zeta. split; [exact E1|]. split. { intros m Hm. rewrite J3. apply FA. congruence. }
  split. { destruct PA as (A1 & A2 & A3 & A4). repeat split; congruence || auto. }
  split; [congruence|]. split; [congruence|]. split; [congruence|]. split; [exact P1|]. split; [exact BA|exact YR].
Qed.

Lemma mirror_stop_case : exists s y log s' y', let c := kc sqf NIso in let inner := mirror_inner to_zero in
  finite_obj 1 sqf /\ vexec inner (mirror_attr (fun v => v)) c 1 (s, y) log /\ finite_alpha s /\ parameters 1 (/ 100) 0 s /\ run_in (fun q => q = [0]) s 0 1 /\ finite_dual 1 y 0 /\
  cell y 0 0 <> cell y 0 1 /\ s_active s = [0]%nat /\ vstep inner c korc (s, y) = Ok (s', y') /\ later_v inner c 1 (s, y) (s', y').
Proof.
  destruct (mirror_first to_zero) as (s & y & log & a & E & FA & PA & HA & HM & HN & P & BA & YR). set (c := kc sqf NIso) in *. set (inner := mirror_inner to_zero).
  pose proof (cbo_one_point sqf NIso (fun v => v) 2 false false [] false) as C1.
  destruct (mirror_total to_zero (fun v => v) c 1 s y _ korc C1 eq_refl E P) as (s2 & y2 & HS).
  exists s, y, log, s2, y2. cbv zeta. split; [apply sqf_finite|]. split; [exact E|]. split; [exact FA|]. split; [exact PA|].
  split. { exists [[0]; [0]; [0]]. split; [|intros q [<-|[<-|[<-|[]]]]; auto]. split.
    - rewrite (mirror_dual _ _ _ _ _ _ _ E) by discriminate. rewrite nth_error_map, YR. reflexivity.
    - rewrite HN. split; auto. intros q [<-|[<-|[<-|[]]]]; auto. }
  split. { eexists. split; [exact YR|]. intros q [<-|[<-|[<-|[]]]]; auto. }
  split. { unfold cell. rewrite YR. cbn. intros Z. injection Z as Z. lra. }
  split; [exact HA|]. split; [exact HS|]. eapply lv_step; [apply lv_start|rewrite HA; discriminate|exact P|apply korc_finite|exact HS].
Qed.

(** ... and never will *)
Lemma mirror_stop_apart : exists s y log, let c := kc sqf NIso in let inner := mirror_inner to_zero in
  vexec inner (mirror_attr (fun v => v)) c 1 (s, y) log /\ run_in (fun q => q = [0]) s 0 1 /\ s_active s = [0]%nat /\
  forall s' y', later_v inner c 1 (s, y) (s', y') -> run_in (fun q => q = [0]) s' 0 1 /\ cell y' 0 0 <> cell y' 0 1.
Proof.
  destruct mirror_stop_case as (s & y & log & s2 & y2 & HF & E & FA & PA & RI & FD & D & A & _). exists s, y, log. cbv zeta. split; [exact E|]. split; [exact RI|]. split; [exact A|].
  intros s' y' T. assert (NC : NIso <> NConst) by discriminate.
  destruct (mirror_stop to_zero (fun v => v) sqf NIso (fun v => v) 2 false false [] false 1 (/ 100) 0 1 0 [0] 1 s y log s' y' NC HF E ltac:(discriminate) FA PA RI FD T) as [G1 G2].
  split; [|unfold cell in *; rewrite G1; exact D].
  destruct RI as (X & [HX1 HX2] & HXC). exists X. split; [|exact HXC]. split; [rewrite G2; exact HX1|].
  assert (HN : s_N s' = s_N s).
  { assert (G : s_N s' = s_N s /\ exists n' log', vexec (mirror_inner to_zero) (mirror_attr (fun v => v)) (kc sqf NIso) n' (s', y') log'); [|tauto].
    clear - E T. remember (s', y') as p' eqn:Ep. revert s' y' Ep. induction T as [|s1 y1 o s2 y2 T IH NA P HD HS|s1 y1 b1 s2 T IH HT]; intros s' y' Ep; injection Ep as <- <-.
    - eauto.
    - destruct (IH _ _ eq_refl) as (K & n1 & l1 & E1).
      destruct (step_same _ (mirror_attr (fun v => v)) _ _ (mirror_regular to_zero) (attr_mirror (fun v => v)) (kc sqf NIso) I n1 s1 y1 l1 o s2 y2 E1 P NA HS) as (_ & J2 & _).
      split; [congruence|]. do 2 eexists. eapply vx_step; eauto.
    - destruct (IH _ _ eq_refl) as (K & n1 & l1 & E1). destruct (term_same' (kc sqf NIso) _ _ _ HT) as (_ & _ & J2 & _). split; [congruence|]. do 2 eexists. eapply vx_term; eauto. }
  rewrite HN. exact HX2.
Qed.

(** projection to [-1, 1], as ProjectionSquare; points that are not finite play no role *)
Definition to_box (v : vec) : vec := match reals v with Some x => floats (map (fun t => Rmax (-1) (Rmin 1 t)) x) | None => v end.
Lemma to_box_lands : forall v, length v = 1%nat -> exists q, to_box (floats v) = floats q /\ length q = 1%nat /\ -1 <= coord 0 q <= 1 /\ (1 <= coord 0 v -> coord 0 q = 1).
Proof.
  intros v L. destruct v as [|t [|? ?]]; try discriminate L. unfold to_box. rewrite reals_floats. eexists. split; [reflexivity|]. split; [reflexivity|].
  unfold coord. cbn [map nth]. split; [split; [apply Rmax_l|]; apply Rmax_lub; [lra|apply Rmin_l]|].
  intros Ht. rewrite Rmin_left by auto. apply Rmax_right. lra.
Qed.

Lemma mirror_speed_case : forall j, exists s y log s' y', let c := kc sqf NIso in let inner := mirror_inner to_box in
  vexec inner (mirror_attr (fun v => v)) c 1 (s, y) log /\ finite_alpha s /\ parameters 1 (/ 100) 0 s /\ finite_dual 1 y 0 /\ travels inner c 1 (s, y) j (s', y') /\
  exists t, cell y 0 2 = Some (floats [t]) /\ 39 / 10 <= t.
Proof.
  intros j. destruct (mirror_first to_box) as (s & y & log & a & E & FA & PA & HA & HM & HN & P & BA & YR). exists s, y, log.
  assert (T : exists s' y', travels (mirror_inner to_box) (kc sqf NIso) 1 (s, y) j (s', y') /\ s_active s' = [0]%nat).
  { induction j as [|j (s1 & y1 & T & HA1)]; [exists s, y; split; [constructor|auto]|].
    destruct (travels_same _ _ _ _ (mirror_regular to_box) (attr_mirror (fun v => v)) (kc sqf NIso) I _ _ _ _ _ _ _ _ E T) as ((n1 & l1 & E1) & K1 & K2 & _).
    assert (P1 : perms_valid korc s1) by (intros m Hm; rewrite K2; apply P; congruence). assert (NA : s_active s1 <> []) by (rewrite HA1; discriminate).
    destruct (mirror_total to_box (fun v => v) (kc sqf NIso) n1 s1 y1 l1 korc (cbo_one_point _ _ _ _ _ _ _ _) eq_refl E1 P1) as (s2 & y2 & HS).
    destruct (step_same _ _ _ _ (mirror_regular to_box) (attr_mirror (fun v => v)) (kc sqf NIso) I n1 s1 y1 l1 korc s2 y2 E1 P1 NA HS) as (_ & _ & _ & _ & _ & _ & JA).
    exists s2, y2. split; [eapply tr_step; eauto; [rewrite HA1, K1, HM; reflexivity|apply korc_finite]|congruence]. }
  destruct T as (s' & y' & T & _). exists s', y'. cbv zeta. split; [exact E|]. split; [exact FA|]. split; [exact PA|]. split. { eexists. split; [exact YR|]. intros q [<-|[<-|[<-|[]]]]; auto. }
  split; [exact T|]. exists (4 - / 100 * (4 - a)). split; [unfold cell; rewrite YR; reflexivity|lra].
Qed.
