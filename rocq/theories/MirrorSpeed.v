(** * How fast the dual points of MirrorCBO can move *)
From Coq Require Import List Arith Bool Reals Lra Lia.
From Verif Require Import MemFacts3 Scalar ScalarFacts RFacts Np NpFacts State Pdyn Exec PdynFacts PdynStep PdynRun PdynOk StepFrame RVec RVecFacts ConsSpec ConsFacts Consensus Cbo CboSpec CboFacts AbsorbFacts MemSpec
  Variant VarSpec VarFacts VarMove VarExactSpec VarExact VarIndep ProxSpec ProxFacts ConvSpec ConvFacts ConRunSpec ConRun MirrorStopSpec.
Import ListNotations.
Open Scope R_scope.

Lemma slab_convex : forall d i lo hi, convex_set d (fun q => lo <= coord i q <= hi).
Proof. intros d i lo hi p q t Lp Lq Hp Hq Ht. rewrite (mix_coord t p q d) by auto. nra. Qed.

Lemma mirror_speed_step : forall (gc gr : vec -> vec) f k (pp : vec -> vec) b partial cat ks save la dt d i lo hi m n (s : st R vec) (y : arr vec) log o s' y', let c := cbo_cfg f k pp NoCorr b partial cat ks save in
  finite_obj d f -> (forall v, length v = d -> exists q, pp (gc (floats v)) = floats q /\ length q = d /\ lo <= coord i q <= hi) ->
  vexec (mirror_inner gc) (mirror_attr gr) c n (s, y) log -> n <> 0%nat -> finite_alpha s -> parameters la dt 0 s -> 0 <= la -> finite_dual d y m ->
  perms_valid o s -> finite_draws d o -> s_active s <> [] -> vstep (mirror_inner gc) c o (s, y) = Ok (s', y') ->
  forall kk v, cell y m kk = Some (floats v) -> length v = d -> exists v', cell y' m kk = Some (floats v') /\ length v' = d /\ Rabs (coord i v' - coord i v) <= la * dt * (hi - lo).
Proof.
  intros gc gr f k pp b partial cat ks save la dt d i lo hi m n s y log o s' y' c HF HL H Hn FA (P1 & P2 & P3 & P4) Hla (Y & HY1 & HY2) P HD HA HS kk v Hv Lv.
  assert (C1 : one_consensus_point c) by (apply cbo_one_point). destruct (mirror_inv _ _ _ _ _ _ _ H) as [W Ry].
  assert (Hld : 0 <= la * dt) by (apply Rmult_le_pos; auto).
  assert (Hlh : lo <= hi) by (destruct (HL v Lv) as (q & _ & _ & B); lra).
  assert (Stay : exists v', Some (floats v) = Some (floats v') /\ length v' = d /\ Rabs (coord i v' - coord i v) <= la * dt * (hi - lo)).
  { exists v. split; auto. split; auto. unfold Rminus at 1. rewrite Rplus_opp_r, Rabs_R0. apply Rmult_le_pos; lra. }
  destruct (in_dec Nat.eq_dec m (s_active s)) as [Hm|Hm].
  2:{ destruct (mirror_frozen gc gr c n s y log o s' y' m H P HA HS Hm) as [A _]. unfold cell in *. rewrite A, Hv. exact Stay. }
  destruct (In_nth_error _ _ Hm) as (ka & Hka).
  assert (Hx : cell (s_x s) m kk = Some (pp (gc (floats v)))) by (rewrite (mirror_dual _ _ _ _ _ _ _ H Hn), cell_map, Hv; reflexivity).
  assert (RI : run_in (fun q => lo <= coord i q <= hi) s m d).
  { assert (EX : nth_error (s_x s) m = Some (map (fun v => pp (gc v)) (map floats Y))) by (rewrite (mirror_dual _ _ _ _ _ _ _ H Hn); exact (map_nth_error _ _ _ HY1)).
    destruct (choose_points (fun q => length q = d /\ lo <= coord i q <= hi) (map (fun v => pp (gc v)) (map floats Y))) as (X & EXX & HX).
    { intros u Hu. apply in_map_iff in Hu. destruct Hu as (w & <- & Hw). apply in_map_iff in Hw. destruct Hw as (t & <- & Ht). apply HL. auto. }
    rewrite EXX in EX. exists X. split; [|intros q Hq; apply HX; auto]. split; [exact EX|]. split; [|intros q Hq; apply HX; auto].
    pose proof (proj2 (w_x _ _ W) _ _ EX) as L. rewrite map_length in L. exact L. }
  destruct (@mirror_move R vec _ gc gr c n s y log o s' y' C1 eq_refl H P HS ka m kk _ _ Hka Hx Hv) as (yv & E & _ & HM).
  enough (G : exists v', Some yv = Some (floats v') /\ length v' = d /\ Rabs (coord i v' - coord i v) <= la * dt * (hi - lo)) by (destruct G as (v' & A & B); exists v'; split; [exact (eq_trans E A)|exact B]).
  destruct (last_index kk (run_selp c o s m)) as [j|]; [|subst yv; exact Stay]. destruct HM as (cp & HO & ->).
  destruct (own_in f k pp b partial cat ks save _ d o s m cp HF (slab_convex d i lo hi) W P FA RI HO) as (q & -> & Lq & Bq).
  destruct (HL v Lv) as (x & Ex & Lx & Bx). destruct (HD ka j) as (z & Ez & Lz). rewrite Ez, Ex. unfold kick. rewrite P1, P2, P3. cbn [c cbo_cfg c_vadd c_vsub c_vscale c_noise].
  cbn [fmul fopp kopp kmul KOps_R]. rewrite floats_sub, noise_floats, !floats_scal, !floats_add by auto.
  assert (LS : length (vsub x q) = d) by (apply length_vsub; auto). assert (LR : length (rnoise k dt (vsub x q) z) = d) by (apply length_rnoise; auto).
  assert (LI : length (vadd (vscal (- la * dt) (vsub x q)) (vscal 0 (rnoise k dt (vsub x q) z))) = d) by (apply length_vadd; rewrite length_vscal; auto).
  eexists. split; [reflexivity|]. split; [apply length_vadd; auto|].
  rewrite coord_vadd by congruence. rewrite coord_vadd by (rewrite !length_vscal; congruence). rewrite !coord_vscal, coord_vsub by congruence.
  match goal with |- Rabs ?e <= _ => replace e with (la * dt * (coord i q - coord i x)) by ring end.
  rewrite Rabs_mult, (Rabs_right (la * dt)) by lra. apply Rmult_le_compat_l; auto. apply Rabs_le. lra.
Qed.

Lemma mirror_speed_full : forall (gc gr : vec -> vec) f k (pp : vec -> vec) b partial cat ks save la dt d i lo hi m n (s : st R vec) (y : arr vec) log j s' y', let c := cbo_cfg f k pp NoCorr b partial cat ks save in
  finite_obj d f -> (forall v, length v = d -> exists q, pp (gc (floats v)) = floats q /\ length q = d /\ lo <= coord i q <= hi) ->
  vexec (mirror_inner gc) (mirror_attr gr) c n (s, y) log -> n <> 0%nat -> finite_alpha s -> parameters la dt 0 s -> 0 <= la -> finite_dual d y m ->
  travels (mirror_inner gc) c d (s, y) j (s', y') ->
  (forall kk v, cell y m kk = Some (floats v) -> length v = d -> exists v', cell y' m kk = Some (floats v') /\ length v' = d /\ Rabs (coord i v' - coord i v) <= INR j * (la * dt * (hi - lo))) /\
    exists n' log', vexec (mirror_inner gc) (mirror_attr gr) c n' (s', y') log' /\ n' <> 0%nat /\ s_M s' = s_M s /\ s_N s' = s_N s /\ s_alpha s' = s_alpha s /\ parameters la dt 0 s'.
Proof.
  intros gc gr f k pp b partial cat ks save la dt d i lo hi m n s y log j s' y' c HF HL H Hn FA PA Hla FD T.
  remember (s', y') as p' eqn:Ep. revert s' y' Ep. induction T as [|j s1 y1 o s2 y2 T IH NA LA P HD HS|j s1 y1 b1 s2 T IH HT]; intros s' y' Ep; injection Ep as <- <-.
  - split; [|exists n, log; auto 10]. intros kk v Hv Lv. exists v. split; auto. split; auto. unfold Rminus at 1. rewrite Rplus_opp_r, Rabs_R0. cbn [INR]. lra.
  - destruct (IH _ _ eq_refl) as (A1 & n1 & l1 & E1 & N1 & K1 & K2 & K3 & K4).
    assert (FA1 : finite_alpha s1) by (intros r Hr; rewrite K3; apply FA; congruence).
    destruct (mirror_inv _ _ _ _ _ _ _ H) as [_ R0]. destruct (mirror_inv _ _ _ _ _ _ _ E1) as [_ R1].
    assert (FD1 : finite_dual d y1 m).
    { destruct FD as (Y & HY1 & HY2). assert (Lm : (m < length y1)%nat). { rewrite (proj1 R1), K1, <- (proj1 R0). eapply nth_error_lt; exact HY1. }
      destruct (nth_error_lt_Some _ _ _ Lm) as (r & Er).
      destruct (choose_points (fun q => length q = d) r) as (Y1 & -> & HYY); [|exists Y1; auto].
      intros u Hu. destruct (In_nth_error _ _ Hu) as (kk & Hk). pose proof (proj2 R1 _ _ Er) as Lr. pose proof (proj2 R0 _ _ HY1) as L0. rewrite map_length in L0.
      assert (Lk : (kk < length Y)%nat) by (rewrite L0, <- K2, <- Lr; eapply nth_error_lt; exact Hk). destruct (nth_error_lt_Some _ _ _ Lk) as (w & Hw).
      destruct (A1 kk w) as (w' & Hw' & Lw' & _). unfold cell. rewrite HY1, nth_error_map, Hw. reflexivity. apply HY2. eapply nth_error_In; eauto.
      unfold cell in Hw'. rewrite Er, Hk in Hw'. injection Hw' as ->. eauto. }
    destruct (step_same (mirror_inner gc) (mirror_attr gr) _ _ (mirror_regular gc) (attr_mirror gr) c I n1 s1 y1 l1 o s2 y2 E1 P NA HS) as (J1 & J2 & J3 & J4 & J5 & J6 & _).
    split.
    + intros kk v Hv Lv. destruct (A1 kk v Hv Lv) as (w & Hw & Lw & Bw).
      destruct (mirror_speed_step gc gr f k pp b partial cat ks save la dt d i lo hi m n1 s1 y1 l1 o s2 y2 HF HL E1 N1 FA1 K4 Hla FD1 P HD NA HS kk w Hw Lw) as (w' & Hw' & Lw' & Bw').
      exists w'. split; auto. split; auto. rewrite S_INR. replace (coord i w' - coord i v) with ((coord i w' - coord i w) + (coord i w - coord i v)) by ring.
      eapply Rle_trans; [apply Rabs_triang|]. lra.
    + exists (S n1), (l1 ++ evaluated s1 s2). split; [eapply vx_step; eauto|]. split; [discriminate|].
      split; [congruence|]. split; [congruence|]. split; [congruence|]. destruct K4 as (Q1 & Q2 & Q3 & Q4). repeat split; congruence || auto.
  - destruct (IH _ _ eq_refl) as (A1 & n1 & l1 & E1 & N1 & K1 & K2 & K3 & K4).
    destruct (term_same' c _ _ _ HT) as (J0 & J1 & J2 & J3 & J4 & J5 & J6). split; auto.
    exists n1, l1. split; [eapply vx_term; eauto|]. split; auto.
    split; [congruence|]. split; [congruence|]. split; [congruence|]. destruct K4 as (Q1 & Q2 & Q3 & Q4). repeat split; congruence || auto.
Qed.

Theorem mirror_speed : forall (gc gr : vec -> vec) f k (pp : vec -> vec) b partial cat ks save la dt d i lo hi m n (s : st R vec) (y : arr vec) log j s' y', let c := cbo_cfg f k pp NoCorr b partial cat ks save in
  finite_obj d f -> (forall v, length v = d -> exists q, pp (gc (floats v)) = floats q /\ length q = d /\ lo <= coord i q <= hi) ->
  vexec (mirror_inner gc) (mirror_attr gr) c n (s, y) log -> n <> 0%nat -> finite_alpha s -> parameters la dt 0 s -> 0 <= la -> finite_dual d y m ->
  travels (mirror_inner gc) c d (s, y) j (s', y') ->
  forall kk v, cell y m kk = Some (floats v) -> length v = d -> exists v', cell y' m kk = Some (floats v') /\ length v' = d /\ Rabs (coord i v' - coord i v) <= INR j * (la * dt * (hi - lo)).
Proof. intros gc gr f k pp b partial cat ks save la dt d i lo hi m n s y log j s' y' c HF HL H Hn FA PA Hla FD T. eapply mirror_speed_full; eauto. Qed.

(** a dual point far beyond the upper end keeps its particle there *)
Theorem mirror_stuck : forall (gc gr : vec -> vec) f k (pp : vec -> vec) b partial cat ks save la dt d i lo hi m n (s : st R vec) (y : arr vec) log j s' y', let c := cbo_cfg f k pp NoCorr b partial cat ks save in
  finite_obj d f -> (forall v, length v = d -> exists q, pp (gc (floats v)) = floats q /\ length q = d /\ lo <= coord i q <= hi /\ (hi <= coord i v -> coord i q = hi)) ->
  vexec (mirror_inner gc) (mirror_attr gr) c n (s, y) log -> n <> 0%nat -> finite_alpha s -> parameters la dt 0 s -> 0 <= la -> finite_dual d y m ->
  travels (mirror_inner gc) c d (s, y) j (s', y') ->
  forall kk v, cell y m kk = Some (floats v) -> length v = d -> hi + INR j * (la * dt * (hi - lo)) <= coord i v -> exists x, cell (s_x s') m kk = Some (floats x) /\ coord i x = hi.
Proof.
  intros gc gr f k pp b partial cat ks save la dt d i lo hi m n s y log j s' y' c HF HL H Hn FA PA Hla FD T kk v Hv Lv B.
  assert (HL' : forall v, length v = d -> exists q, pp (gc (floats v)) = floats q /\ length q = d /\ lo <= coord i q <= hi) by (intros u Lu; destruct (HL u Lu) as (q & A1 & A2 & A3 & _); eauto).
  destruct (mirror_speed_full gc gr f k pp b partial cat ks save la dt d i lo hi m n s y log j s' y' HF HL' H Hn FA PA Hla FD T) as (A & n' & l' & E' & N' & _).
  destruct (A kk v Hv Lv) as (w & Hw & Lw & Bw). destruct (HL w Lw) as (q & Eq & Lq & _ & Hq). exists q. split.
  - rewrite (mirror_dual _ _ _ _ _ _ _ E' N'), cell_map, Hw. cbn [option_map c cbo_cfg c_pp]. rewrite Eq. reflexivity.
  - apply Hq. pose proof (Rle_abs (- (coord i w - coord i v))) as Q. rewrite Rabs_Ropp in Q. lra.
Qed.
