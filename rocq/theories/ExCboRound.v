(** * Noise-free CBO in double precision: cases *)
From Coq Require Import String List Arith Bool Reals ZArith Lia Lra.
From Flocq Require Import Core Relative.
From Verif Require Import Scalar Np NpFacts State Pdyn PdynFacts PdynRun PdynOk Exec RunFacts MoveFacts Script RVec RVecFacts Consensus ConsSpec PostProc PostFacts Cbo CboSpec
  Rounding RoundSpec RoundFacts RoundFacts2 ExRound ClockSpec ExClock CboRound CboRoundSpec CboRoundFacts.
Import ListNotations.
Open Scope R_scope.

Lemma b64_rounding : rounding u64 eta64 b64.
Proof.
  constructor.
  - unfold u64. split; [apply bpow_ge_0|]. apply Rle_trans with (bpow radix2 (-3)); [apply bpow_le; lia|]. cbn. lra.
  - apply bpow_ge_0.
  - exact b64_err.
  - exact b64_0.
  - intros x. apply b64_id. apply generic_format_round; [apply FLT_exp_valid, prec53|apply valid_rnd_N].
  - intros x Hx. rewrite <- b64_0. apply b64_mono. exact Hx.
Qed.
Lemma lsum_positive : positive_sums (lsum b64).
Proof.
  intros [|a l] H; [cbn; lra|]. cbn [lsum]. assert (Ha : 0 <= a) by (apply H; left; auto). assert (Hl : forall x, In x l -> 0 <= x) by (intros; apply H; right; auto).
  clear H. revert a Ha. induction l as [|x l IH]; intros a Ha; [exact Ha|]. cbn [fold_left]. apply IH; [intros; apply Hl; right; auto|].
  apply (ro_pos _ _ _ b64_rounding). pose proof (Hl x (or_introl eq_refl)). lra.
Qed.

Definition exp64 (x : R) : R := b64 (exp x).
Definition log64 (x : R) : R := b64 (ln x).
Definition step_f (p : vec) : fl R := match p with [Fin a] => if Rltb (1 / 2) a then Fin 2048 else Fin 0 | _ => Fin 0 end.
Definition rcf : cfg R vec := cbo_cfg_r b64 exp64 log64 (lsum b64) step_f NAniso (pp_point (10 ^ 8) false) 2 true false [] false.
Local Notation O := (KOps_rounded b64).

Lemma exp64_tiny : exp64 (-2048) = 0.
Proof.
  unfold exp64. assert (P : 0 < exp (-2048)) by apply exp_pos.
  assert (L : exp (-2048) <= bpow radix2 (-2048)).
  { rewrite <- (exp_ln (bpow radix2 (-2048))) by apply bpow_gt_0.
    destruct (Rle_lt_dec (-2048) (ln (bpow radix2 (-2048)))) as [G|G]; [destruct G as [G|G]; [left; apply exp_increasing; exact G|rewrite <- G; lra]|exfalso].
    assert (G2 : ln (bpow radix2 (-2048)) = - (2048 * ln 2)).
    { rewrite bpow_powerRZ. change (IZR radix2) with 2. cbn [powerRZ]. rewrite ln_Rinv by (apply pow_lt; lra). rewrite ln_pow by lra.
      f_equal. f_equal. rewrite INR_IZR_INZ, positive_nat_Z. reflexivity. }
    rewrite G2 in G. assert (ln 2 < 1) by (rewrite <- (ln_exp 1); apply ln_increasing; [lra|]; pose proof (exp_ineq1 1); lra). lra. }
  change (b64 (exp (-2048))) with (round radix2 (FLT_exp (-1074) 53) ZnearestE (exp (-2048))).
  apply (round_N_small radix2 (FLT_exp (-1074) 53) _ (exp (-2048)) (mag radix2 (exp (-2048)))).
  - split; [apply bpow_mag_le; lra|apply bpow_mag_gt].
  - assert (M : (mag radix2 (exp (-2048)) <= -2047)%Z).
    { apply mag_le_bpow; [lra|]. rewrite Rabs_right by lra. eapply Rle_lt_trans; [exact L|]. apply bpow_lt. lia. }
    unfold FLT_exp. lia.
Qed.

(** ** the computed consensus of a good and a bad particle is the good one *)
Lemma b64_1 : b64 1 = 1. Proof. change 1 with (bpow radix2 0). apply b64_id, fmt_bpow. lia. Qed.
Lemma b64_2048 : b64 (-2048) = -2048.
Proof. replace (-2048) with (- bpow radix2 11) by (cbn; lra). apply b64_id, generic_format_opp, fmt_bpow. lia. Qed.
Lemma two_coeffs : coeffs_r b64 exp64 log64 (lsum b64) 1 [0; 2048] = [1; 0].
Proof.
  unfold coeffs_r. cbn [map]. replace (- (1) * 0) with 0 by ring. replace (- (1) * 2048) with (-2048) by ring. rewrite b64_0, b64_2048.
  assert (MX : row_max [0; -2048] = 0) by (unfold row_max; cbn; unfold Rmax; repeat destruct Rle_dec; lra).
  assert (E0 : exp64 0 = 1) by (unfold exp64; rewrite exp_0; exact b64_1).
  assert (LS : lse_r b64 exp64 log64 (lsum b64) [0; -2048] = 0).
  { unfold lse_r. rewrite MX. cbn [map]. replace (0 - 0) with 0 by ring. replace (-2048 - 0) with (-2048) by ring. rewrite b64_0, b64_2048, E0, exp64_tiny.
    cbn [lsum fold_left]. replace (1 + 0) with 1 by ring. rewrite b64_1. unfold log64. rewrite ln_1, b64_0, Rplus_0_r. exact b64_0. }
  unfold softmax_r. rewrite LS. cbn [map]. replace (0 - 0) with 0 by ring. replace (-2048 - 0) with (-2048) by ring. rewrite b64_0, b64_2048, E0, exp64_tiny. reflexivity.
Qed.
Lemma two_consensus : forall x1 x2, is_b64 x1 -> x1 <= 1 / 2 < x2 -> c_ccrow rcf (map (c_f rcf) [[Fin x1]; [Fin x2]]) [[Fin x1]; [Fin x2]] (Fin 1) = [[Fin x1]].
Proof.
  intros x1 x2 F [H1 H2]. cbn [rcf cbo_cfg_r c_ccrow c_f map]. unfold cc_r, step_f. rewrite (proj2 (Rltb_false (1 / 2) x1)) by lra. rewrite (proj2 (Rltb_true (1 / 2) x2)) by lra.
  cbn [map number hd length seq nth]. rewrite two_coeffs. unfold mean_r. cbn [map2 lsum fold_left]. rewrite Rmult_1_r, Rmult_0_r, b64_0, Rplus_0_r, !(b64_id x1 F). reflexivity.
Qed.

(** ** one step *)
Lemma float_big : 0 <= 10 ^ 8 <= float_max.
Proof. split; [apply pow_le; lra|]. replace (10 ^ 8) with (IZR 100000000) by (cbn; lra). unfold float_max. apply IZR_le. apply Z.leb_le. vm_compute. reflexivity. Qed.
Lemma rinit_ok : forall x1 x2 la dt, 0 <= dt -> exists s, @exec R vec O rcf s [] /\ s_N s = 2%nat /\ s_M s = 1%nat /\ s_active s = [0%nat] /\ s_alpha s = [[Fin 1]] /\ parameters la dt 0 s /\
  ensemble_at s 0 1 [[x1]; [x2]].
Proof.
  intros x1 x2 la dt Hdt.
  assert (X : exists s, @init R vec O rcf [[[Fin x1]; [Fin x2]]] false (Fin 1) (Fin 0) (Fin la) (Fin dt) (fun _ => [0; 1]%nat) None [] None = Ok s /\ s_N s = 2%nat /\ s_M s = 1%nat /\
    s_active s = [0%nat] /\ s_alpha s = [[Fin 1]] /\ parameters la dt 0 s /\ s_x s = [[[Fin x1]; [Fin x2]]]).
  { eexists. split; [reflexivity|]. repeat split; auto. }
  destruct X as (s & E & N & M & A & AL & P & HX). exists s. split.
  - apply ex_init. exists [[[Fin x1]; [Fin x2]]], false, (Fin 1), (Fin 0), (Fin la), (Fin dt), (fun _ => [0; 1]%nat), None, [], None.
    split; [split; [reflexivity|repeat constructor]|]. split; [cbn; lia|]. split; [cbn; lia|]. split; [|split; [discriminate|exact E]].
    intros m _. apply (perm_b_ok 2). reflexivity.
  - split; [exact N|]. split; [exact M|]. split; [exact A|]. split; [exact AL|]. split; [exact P|]. split; [rewrite HX; reflexivity|]. rewrite N. split; [reflexivity|].
    intros p [<-|[<-|[]]]; reflexivity.
Qed.
Lemma exact_step : forall s log o s' x1 x2 la dt, @exec R vec O rcf s log -> perms_valid o s -> finite_draws 1 o -> s_N s = 2%nat -> s_active s = [0%nat] -> s_alpha s = [[Fin 1]] -> parameters la dt 0 s ->
  ensemble_at s 0 1 [[x1]; [x2]] -> is_b64 x1 -> x1 <= 1 / 2 < x2 -> @step R vec O rcf o s = Ok s' ->
  ensemble_at s' 0 1 [[clip1 (10 ^ 8) (stepr b64 (b64 (- la * dt)) x1 x1)]; [clip1 (10 ^ 8) (stepr b64 (b64 (- la * dt)) x2 x1)]].
Proof.
  intros s log o s' x1 x2 la dt E P HD N A AL HP [HX1 HX2] F H12 HS.
  destruct (step_positions (O:=O) rcf s log o s' 0 0 [[Fin x1]; [Fin x2]] (Fin 1) E P ltac:(intros e x a; reflexivity) eq_refl HS ltac:(rewrite A; reflexivity) HX1 ltac:(rewrite AL; reflexivity))
    as (xb & cp & xr' & _ & _ & _ & HC & Hx' & _ & _ & HU).
  destruct (HU ltac:(rewrite N; reflexivity)) as [-> ->]. rewrite two_consensus in HC by auto. injection HC as <-.
  destruct (HD 0%nat 0%nat) as (z0 & Ez0 & L0). destruct (HD 0%nat 1%nat) as (z1 & Ez1 & L1). split.
  - rewrite Hx'. unfold mapi. cbn [mapi_from]. rewrite Ez0, Ez1.
    change [Fin x1] with (floats [x1]). change [Fin x2] with (floats [x2]).
    pose proof (moved_r u64 eta64 b64 exp64 log64 (lsum b64) b64_rounding step_f NAniso (10 ^ 8) 2 true false [] false lsum_positive s la dt [x1] [x1] z0 HP eq_refl L0) as M0.
    pose proof (moved_r u64 eta64 b64 exp64 log64 (lsum b64) b64_rounding step_f NAniso (10 ^ 8) 2 true false [] false lsum_positive s la dt [x1] [x2] z1 HP eq_refl L1) as M1.
    fold rcf in M0, M1. rewrite M0, M1. change (c_pp rcf) with (pp_point (10 ^ 8) false). rewrite !pp_floats by exact float_big. reflexivity.
  - destruct (step_keeps_r b64 exp64 log64 (lsum b64) step_f NAniso (10 ^ 8) 2 true false [] false float_big s log o s' E P HS) as (_ & -> & _). rewrite N. split; [reflexivity|].
    intros p [<-|[<-|[]]]; reflexivity.
Qed.

Lemma clip1_id : forall T x, - T <= x <= T -> clip1 T x = x.
Proof. intros T x H. unfold clip1, Rmax, Rmin. repeat destruct Rle_dec; lra. Qed.

(** ** particles that never meet *)
Definition near : R := 1 / 2 + bpow radix2 (-53).
Lemma near_step : stepr b64 (b64 (- (1) * (1 / 4))) near (1 / 2) = near.
Proof.
  unfold stepr. replace (near - 1 / 2) with (bpow radix2 (-53)) by (unfold near; ring). rewrite (b64_id (bpow radix2 (-53))) by (apply fmt_bpow; lia).
  replace (- (1) * (1 / 4)) with (- bpow radix2 (-2)) by (cbn; lra). rewrite (b64_id (- bpow radix2 (-2))) by (apply generic_format_opp, fmt_bpow; lia).
  replace (- bpow radix2 (-2) * bpow radix2 (-53)) with (- bpow radix2 (-55)) by (rewrite <- Ropp_mult_distr_l, <- bpow_plus; reflexivity).
  rewrite (b64_id (- bpow radix2 (-55))) by (apply generic_format_opp, fmt_bpow; lia).
  rewrite (b64_val (near + - bpow radix2 (-55)) 0 4503599627370496 (3 / 4) 4503599627370497); unfold near; [cbn; lra|lia| | |lra|right; right; split; [lra|reflexivity]].
  - cbn. lra.
  - cbn. lra.
Qed.
Lemma half_step : forall k x, is_b64 x -> stepr b64 k x x = x.
Proof. intros k x F. unfold stepr. replace (x - x) with 0 by ring. rewrite b64_0, Rmult_0_r, b64_0, Rplus_0_r. apply b64_id. exact F. Qed.
Definition dorc : orc vec := {| o_z := fun _ _ => [Fin 1]; o_perm := fun _ => [0; 1]%nat |}.
Lemma dorc_finite : finite_draws 1 dorc. Proof. intros k n. exists [1]. split; reflexivity. Qed.
Lemma rplain : forall N, plain rcf N. Proof. intros N. split; [left; intros e x a; reflexivity|reflexivity]. Qed.

Theorem never_meet : exists s, @exec R vec O rcf s [] /\ alpha_within 1 s /\ parameters 1 (1 / 4) 0 s /\ s_N s = 2%nat /\ ensemble_at s 0 1 [[1 / 2]; [near]] /\ 1 / 2 < near /\
  forall n, exists s', rounded_steps b64 1 rcf 0 1 s n s' /\ ensemble_at s' 0 1 [[1 / 2]; [near]].
Proof.
  destruct (rinit_ok (1 / 2) near 1 (1 / 4) ltac:(lra)) as (s & E & N & M & A & AL & P & HX).
  assert (NB : 1 / 2 < near) by (unfold near; pose proof (bpow_gt_0 radix2 (-53)); lra).
  assert (F : is_b64 (1 / 2)) by (replace (1 / 2) with (bpow radix2 (-1)) by (cbn; lra); apply fmt_bpow; lia).
  assert (NL : near <= 1) by (unfold near; cbn; lra). assert (T1 : 1 <= 10 ^ 8) by (apply pow_R1_Rle; lra).
  exists s. split; [exact E|]. split; [intros m Hm; rewrite M in Hm; destruct m; [|lia]; exists 1; rewrite AL; split; [reflexivity|rewrite Rabs_R1; lra]|]. split; [exact P|]. split; [exact N|]. split; [exact HX|]. split; [exact NB|].
  intros n. assert (G : exists s', rounded_steps b64 1 rcf 0 1 s n s' /\ ensemble_at s' 0 1 [[1 / 2]; [near]] /\ (exists l, @exec R vec O rcf s' l) /\ s_N s' = 2%nat /\ s_M s' = 1%nat /\ s_active s' = [0%nat] /\ s_alpha s' = [[Fin 1]] /\
      parameters 1 (1 / 4) 0 s').
  { induction n as [|n (s1 & H & X1 & (l & E1) & N1 & M1 & A1 & L1 & P1)].
    - exists s. split; [constructor|]. split; [exact HX|]. split; [eauto|]. auto.
    - assert (PV : perms_valid dorc s1) by (intros m _; rewrite N1; apply (perm_b_ok 2); reflexivity).
      destruct (exec_step_good (O:=O) rcf s1 l dorc E1 (rplain _) PV) as (s2 & HS).
      destruct (step_keeps_r b64 exp64 log64 (lsum b64) step_f NAniso (10 ^ 8) 2 true false [] false float_big s1 l dorc s2 E1 PV HS) as (K1 & K2 & K3 & K4 & K5 & K6 & K7).
      exists s2. split; [eapply rs_step; eauto; [rewrite A1; left; reflexivity|exact dorc_finite]|]. split.
      + pose proof (exact_step s1 l dorc s2 (1 / 2) near 1 (1 / 4) E1 PV dorc_finite N1 A1 L1 P1 X1 F (conj (Rle_refl _) NB) HS) as Q.
        rewrite half_step, near_step, !clip1_id in Q by (auto || lra). exact Q.
      + split; [eexists; eapply ex_step; eauto|]. rewrite K1, K2, K3, K7. unfold parameters in *. rewrite K4, K5, K6. auto. }
  destruct G as (s' & G1 & G2 & _). eauto.
Qed.

(** ** leaving the hull *)
Theorem leaves_hull : exists s s', @exec R vec O rcf s [] /\ alpha_within 1 s /\ parameters 1 1 0 s /\ s_N s = 2%nat /\ ensemble_at s 0 1 [[bpow radix2 (-60)]; [1]] /\
  rounded_steps b64 1 rcf 0 1 s 1 s' /\ ensemble_at s' 0 1 [[bpow radix2 (-60)]; [0]].
Proof.
  destruct (rinit_ok (bpow radix2 (-60)) 1 1 1 ltac:(lra)) as (s & E & N & M & A & AL & P & HX).
  assert (PV : perms_valid dorc s) by (intros m _; rewrite N; apply (perm_b_ok 2); reflexivity).
  destruct (exec_step_good (O:=O) rcf s [] dorc E (rplain _) PV) as (s2 & HS).
  assert (F : is_b64 (bpow radix2 (-60))) by (apply fmt_bpow; lia).
  assert (B0 : 0 < bpow radix2 (-60) <= 1 / 2) by (split; [apply bpow_gt_0|]; cbn; lra). assert (T1 : 1 <= 10 ^ 8) by (apply pow_R1_Rle; lra).
  exists s, s2. split; [exact E|]. split; [intros m Hm; rewrite M in Hm; destruct m; [|lia]; exists 1; rewrite AL; split; [reflexivity|rewrite Rabs_R1; lra]|]. split; [exact P|]. split; [exact N|]. split; [exact HX|].
  split; [eapply rs_step; [constructor|rewrite A; left; reflexivity|exact PV|exact dorc_finite|exact HS]|].
  pose proof (exact_step s [] dorc s2 (bpow radix2 (-60)) 1 1 1 E PV dorc_finite N A AL P HX F ltac:(lra) HS) as Q.
  assert (S1 : stepr b64 (b64 (- (1) * 1)) 1 (bpow radix2 (-60)) = 0).
  { unfold stepr. replace (- (1) * 1) with (- bpow radix2 0) by (cbn; lra). rewrite (b64_id (- bpow radix2 0)) by (apply generic_format_opp, fmt_bpow; lia).
    assert (D : b64 (1 - bpow radix2 (-60)) = 1).
    { rewrite (b64_val (1 - bpow radix2 (-60)) 0 9007199254740991 (127 / 128) 9007199254740992); [cbn; lra|lia| | |lra|right; right; split; [lra|reflexivity]]; cbn; lra. }
    rewrite D. replace (- bpow radix2 0 * 1) with (- bpow radix2 0) by ring. rewrite (b64_id (- bpow radix2 0)) by (apply generic_format_opp, fmt_bpow; lia).
    replace (1 + - bpow radix2 0) with 0 by (cbn; lra). exact b64_0. }
  rewrite half_step, S1, !clip1_id in Q by (auto || lra). exact Q.
Qed.

Lemma round_case : rounding u64 eta64 b64 /\ arithmetic u64 u64 eta64 b64 exp64 log64 (lsum b64) /\ positive_sums (lsum b64) /\ 0 <= 10 ^ 8 <= float_max /\ objective_within 1 (10 ^ 8) 2048 step_f /\
  INR 2 * (u64 + u64) + u64 * (1 * 2048) <= / 128 /\ within (10 ^ 8) [[1 / 2]; [near]] /\ 0 < - b64 (- (1) * (1 / 4)) <= 1.
Proof.
  split; [exact b64_rounding|]. split; [exact b64_arithmetic|]. split; [exact lsum_positive|]. split; [exact float_big|]. split.
  { intros [|a [|]] L _; try discriminate. cbn. destruct Rltb; eexists; split; try reflexivity; unfold Rabs; destruct Rcase_abs; lra. }
  split; [pose proof b64_small; assert (0 <= u64) by apply bpow_ge_0; cbn; lra|]. split.
  - assert (T1 : 1 <= 10 ^ 8) by (apply pow_R1_Rle; lra). assert (near <= 1 /\ 0 <= near) by (unfold near; cbn; lra).
    intros p [<-|[<-|[]]] [|i] Hi; try (cbn in Hi; lia); unfold coord; cbn [nth]; rewrite Rabs_right; lra.
  - replace (- (1) * (1 / 4)) with (- bpow radix2 (-2)) by (cbn; lra). rewrite (b64_id (- bpow radix2 (-2))) by (apply generic_format_opp, fmt_bpow; lia). cbn. lra.
Qed.

Lemma step_case : exists s s', @exec R vec O rcf s [] /\ 2%nat = s_N s /\ perms_valid dorc s /\ finite_draws 1 dorc /\ parameters 1 (1 / 4) 0 s /\ nth_error (s_alpha s) 0 = Some [Fin 1] /\ In 0%nat (s_active s) /\
  ensemble_at s 0 1 [[1 / 2]; [near]] /\ @step R vec O rcf dorc s = Ok s'.
Proof.
  destruct (rinit_ok (1 / 2) near 1 (1 / 4) ltac:(lra)) as (s & E & N & M & A & AL & P & HX).
  assert (PV : perms_valid dorc s) by (intros m _; rewrite N; apply (perm_b_ok 2); reflexivity).
  destruct (exec_step_good (O:=O) rcf s [] dorc E (rplain _) PV) as (s2 & HS).
  exists s, s2. rewrite AL, A. split; [exact E|]. split; [auto|]. split; [exact PV|]. split; [exact dorc_finite|]. split; [exact P|]. split; [reflexivity|]. split; [left; reflexivity|]. split; [exact HX|exact HS].
Qed.
