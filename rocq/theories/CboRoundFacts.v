(** * Lemmas: noise-free CBO with rounding *)
From Coq Require Import String List Arith Bool Reals Permutation Lia Lra.
From Verif Require Import Scalar Np NpFacts State Pdyn PdynFacts PdynStep PdynRun PdynOk Exec RunFacts BatchFacts MoveFacts RVec RVecFacts
  Consensus ConsSpec ConsFacts PostProc PostFacts Cbo CboSpec CboFacts AbsorbFacts MiniFacts Rounding RoundSpec RoundFacts2 ClockSpec CboRound CboRoundSpec.
Import ListNotations.
Open Scope R_scope.

(** one coordinate *)
Definition stepr (rnd : R -> R) (k x c : R) : R := rnd (x + rnd (k * rnd (x - c))).
Definition clip1 (B x : R) : R := Rmax (- B) (Rmin B x).
Lemma clip1_lip : forall B x y, Rabs (clip1 B x - clip1 B y) <= Rabs (x - y).
Proof. intros B x y. unfold clip1, Rmax, Rmin. repeat destruct Rle_dec; unfold Rabs; repeat destruct Rcase_abs; lra. Qed.
Lemma clip1_within : forall B x, 0 <= B -> Rabs (clip1 B x) <= B.
Proof. intros B x H. unfold clip1, Rmax, Rmin. repeat destruct Rle_dec; unfold Rabs; repeat destruct Rcase_abs; lra. Qed.

Section Coordinate.
  Variables (u eta : R) (rnd : R -> R).
  Hypothesis (RO : rounding u eta rnd).
  Lemma stepr_error : forall k x c B C, -1 <= k <= 0 -> Rabs x <= B -> Rabs c <= C -> Rabs (stepr rnd k x c - (x + k * (x - c))) <= 5 * u * (B + C) + 4 * eta.
  Proof.
    intros k x c B C Hk Hx Hc. destruct RO as [Hu He HR _ _ _]. unfold stepr. set (a := rnd (x - c)). set (b := rnd (k * a)).
    pose proof (HR (x - c)) as E1. fold a in E1. pose proof (HR (k * a)) as E2. fold b in E2. pose proof (HR (x + b)) as E3. set (z := rnd (x + b)) in *.
    set (S := B + C). assert (HB : 0 <= B) by (pose proof (Rabs_pos x); lra). assert (HC : 0 <= C) by (pose proof (Rabs_pos c); lra).
    assert (A0 : Rabs (x - c) <= S) by (unfold S; eapply Rle_trans; [apply Rabs_triang|]; rewrite Rabs_Ropp; lra).
    assert (A1 : Rabs (a - (x - c)) <= u * S + eta) by (eapply Rle_trans; [exact E1|]; nra).
    assert (A2 : Rabs a <= (1 + u) * S + eta) by (replace a with ((a - (x - c)) + (x - c)) by ring; eapply Rle_trans; [apply Rabs_triang|]; lra).
    assert (Ak : Rabs k <= 1) by (unfold Rabs; destruct Rcase_abs; lra).
    assert (A3 : Rabs (k * a) <= Rabs a) by (rewrite Rabs_mult; pose proof (Rabs_pos a); nra).
    assert (A4 : Rabs (b - k * a) <= u * ((1 + u) * S + eta) + eta) by (eapply Rle_trans; [exact E2|]; nra).
    assert (A5 : Rabs b <= ((1 + u) * S + eta) + (u * ((1 + u) * S + eta) + eta)) by (replace b with ((b - k * a) + k * a) by ring; eapply Rle_trans; [apply Rabs_triang|]; lra).
    assert (A6 : Rabs (x + b) <= S + (((1 + u) * S + eta) + (u * ((1 + u) * S + eta) + eta))) by (eapply Rle_trans; [apply Rabs_triang|]; unfold S in *; lra).
    assert (A7 : Rabs (z - (x + b)) <= u * (S + (((1 + u) * S + eta) + (u * ((1 + u) * S + eta) + eta))) + eta) by (eapply Rle_trans; [exact E3|]; nra).
    assert (A8 : Rabs (k * (a - (x - c))) <= u * S + eta) by (rewrite Rabs_mult; pose proof (Rabs_pos (a - (x - c))); nra).
    replace (z - (x + k * (x - c))) with ((z - (x + b)) + (b - k * a) + k * (a - (x - c))) by ring.
    eapply Rle_trans; [apply Rabs_triang|]. eapply Rle_trans; [apply Rplus_le_compat_r, Rabs_triang|].
    assert (HS : 0 <= S) by (unfold S; lra). assert (0 <= u * S) by nra. assert (0 <= u * eta) by nra. assert (u * (u * S) <= 1 / 8 * (u * S)) by nra.
    assert (u * (u * eta) <= 1 / 8 * (u * eta)) by nra. assert (u * eta <= 1 / 8 * eta) by nra. assert (u * (u * (u * S)) <= 1 / 64 * (u * S)) by nra.
    replace (5 * u * S) with (5 * (u * S)) by ring. nra.
  Qed.
  Lemma stepr_nearer : forall k x y c B C T, -1 <= k <= 0 -> Rabs x <= B -> Rabs y <= B -> Rabs c <= C ->
    Rabs (clip1 T (stepr rnd k x c) - clip1 T (stepr rnd k y c)) <= (1 + k) * Rabs (x - y) + 2 * (5 * u * (B + C) + 4 * eta).
  Proof.
    intros k x y c B C T Hk Hx Hy Hc. eapply Rle_trans; [apply clip1_lip|].
    pose proof (stepr_error k x c B C Hk Hx Hc) as E1. pose proof (stepr_error k y c B C Hk Hy Hc) as E2.
    replace (stepr rnd k x c - stepr rnd k y c) with ((stepr rnd k x c - (x + k * (x - c))) + (1 + k) * (x - y) + - (stepr rnd k y c - (y + k * (y - c)))) by ring.
    eapply Rle_trans; [apply Rabs_triang|]. rewrite Rabs_Ropp. eapply Rle_trans; [apply Rplus_le_compat_r, Rabs_triang|].
    rewrite Rabs_mult, (Rabs_right (1 + k)) by lra. lra.
  Qed.
End Coordinate.

Lemma map2_floats : forall (g : fl R -> fl R -> fl R) (h : R -> R -> R) p q, (forall a b, g (Fin a) (Fin b) = Fin (h a b)) -> map2 g (floats p) (floats q) = floats (map2 h p q).
Proof. intros g h p q H. revert q. induction p as [|a p IH]; intros [|b q]; try reflexivity. cbn. rewrite H. f_equal. apply IH. Qed.
Lemma map_floats : forall (g : fl R -> fl R) (h : R -> R) p, (forall a, g (Fin a) = Fin (h a)) -> map g (floats p) = floats (map h p).
Proof. intros g h p H. induction p as [|a p IH]; [reflexivity|]. cbn. rewrite H. f_equal. exact IH. Qed.
Lemma pp_floats : forall T p, 0 <= T <= float_max -> pp_point T false (floats p) = floats (map (clip1 T) p).
Proof.
  intros T p HT. apply map_floats. intros a. destruct (pp_default_spec T (Fin a) HT) as (x & -> & _ & ->). reflexivity.
Qed.

Section Steps.
  Variables (u eta : R) (rnd Exp Log : R -> R) (sum : list R -> R).
  Hypothesis (RO : rounding u eta rnd).
  Variables (f : vec -> fl R) (k : noise_model) (T : R) (b : nat) (partial cat : bool) (ks : list (crit R vec)) (save : bool).
  Hypothesis (HT : 0 <= T <= float_max) (HS : positive_sums sum).
  Local Notation O := (KOps_rounded rnd).
  Local Notation c := (cbo_cfg_r rnd Exp Log sum f k (pp_point T false) b partial cat ks save).

  Lemma noise_r_floats : forall dt p z, 0 <= dt -> length z = length p -> exists w, noise_r rnd sum k (Fin dt) (floats p) (floats z) = floats w /\ length w = length p.
  Proof.
    intros dt p z Hdt L. unfold noise_r.
    assert (E : sqrt_r rnd (Fin dt) = Fin (rnd (sqrt dt))) by (unfold sqrt_r, fsqrt, Rltb; destruct Rlt_dec; [lra|reflexivity]). rewrite E.
    assert (S : forall w, map (@fmul R O (Fin (rnd (sqrt dt)))) (floats w) = floats (map (fun a => rnd (rnd (sqrt dt) * a)) w)) by (intros; apply map_floats; reflexivity).
    destruct k.
    - exists (map (fun a => rnd (rnd (sqrt dt) * a)) z). rewrite S, map_length. auto.
    - assert (Q : exists q, norm_r rnd sum (floats p) = Fin q).
      { unfold norm_r, sqrt_r, fsqrt, Rltb. destruct Rlt_dec as [G|G]; [exfalso|eauto]. apply (Rlt_not_le _ _ G), HS.
        intros x Hx. apply in_map_iff in Hx as (a & <- & _). apply RO. apply Rle_0_sqr. }
      destruct Q as (q & ->). rewrite (map_floats _ (fun a => rnd (a * q))) by reflexivity. rewrite S. eexists. split; [reflexivity|]. rewrite !map_length. exact L.
    - rewrite (map2_floats _ (fun a b => rnd (a * b))) by reflexivity. rewrite S. eexists. split; [reflexivity|]. rewrite map_length, map2_length, L. lia.
  Qed.

  (** the new position, before post-processing *)
  Definition movedr (kk : R) (cp x : list R) : list R := map2 (stepr rnd kk) x cp.
  Lemma moved_r : forall s la dt cp x z, parameters la dt 0 s -> length cp = length x -> length z = length x ->
    @moved R vec O c s (floats cp) (floats x) (floats z) = floats (movedr (rnd (- la * dt)) cp x).
  Proof.
    intros s la dt cp x z (H1 & H2 & H3 & H4) Lc Lz. unfold moved, cbo_update. cbn [cbo_cfg_r c_vadd c_vsub c_vscale c_noise]. rewrite H1, H2, H3.
    rewrite (map2_floats (@fsub R O) (fun a b => rnd (a - b)) x cp) by reflexivity.
    assert (Ld : length (map2 (fun a b => rnd (a - b)) x cp) = length x) by (rewrite map2_length; lia).
    destruct (noise_r_floats dt (map2 (fun a b => rnd (a - b)) x cp) z H4 ltac:(lia)) as (w & -> & Lw).
    change (@fmul R O (@fopp R O (Fin la)) (Fin dt)) with (Fin (rnd (- la * dt))).
    rewrite (map_floats _ (fun a => rnd (rnd (- la * dt) * a))) by reflexivity. rewrite (map_floats _ (fun a => rnd (0 * a))) by reflexivity.
    rewrite !(map2_floats (@fadd R O) (fun a b => rnd (a + b))) by reflexivity. f_equal. unfold movedr.
    rewrite Ld in Lw. clear H1 H2 H3 Lz Ld z s. revert cp w Lc Lw. induction x as [|a x IH]; intros [|q cp] [|e w] Lc Lw; try discriminate; [reflexivity|].
    cbn [map2 map]. f_equal; [|apply IH; [injection Lc; auto|injection Lw; auto]].
    unfold stepr. rewrite Rmult_0_l, (ro_0 _ _ _ RO), Rplus_0_r, (ro_id _ _ _ RO). reflexivity.
  Qed.

  Lemma one_point_r : @one_consensus_point R vec c. Proof. intros e x a. reflexivity. Qed.
  Lemma step_keeps_r : forall s log o s', @exec R vec O c s log -> perms_valid o s -> @step R vec O c o s = Ok s' ->
    s_M s' = s_M s /\ s_N s' = s_N s /\ s_alpha s' = s_alpha s /\ s_sigma s' = s_sigma s /\ s_lamda s' = s_lamda s /\ s_dt s' = s_dt s /\ s_active s' = s_active s.
  Proof.
    intros s log o s' E P H. pose proof (exec_wf _ _ _ E) as W. pose proof (perms_valid_ok _ _ P) as P'.
    destruct (step_char (O:=O) c o s W P' (or_introl one_point_r) eq_refl) as (s2 & HS2 & _ & K & _). rewrite H in HS2. injection HS2 as <-. tauto.
  Qed.
  Lemma term_keeps_r : forall s b' s', @terminate R vec O c s = Ok (b', s') ->
    s_x s' = s_x s /\ s_M s' = s_M s /\ s_N s' = s_N s /\ s_alpha s' = s_alpha s /\ s_sigma s' = s_sigma s /\ s_lamda s' = s_lamda s /\ s_dt s' = s_dt s.
  Proof.
    intros s b' s' H. unfold terminate in H. apply bind_ok in H. destruct H as (q & H & H2). inversion H2; subst.
    unfold select_active_runs in H. apply bind_ok in H. destruct H as (l & _ & H). inversion H. subst. destruct s; cbn; tauto.
  Qed.

  (** ** one step *)
  Variables (d : nat) (C A : R).
  Hypothesis (HC0 : 0 <= C) (HC : consensus_within d b T C A c).
  Theorem step_r : forall s log o s' m X la dt, @exec R vec O c s log -> perms_valid o s -> finite_draws d o -> alpha_within A s -> parameters la dt 0 s ->
    b = s_N s \/ partial = false -> In m (s_active s) -> @step R vec O c o s = Ok s' -> ensemble_at s m d X -> within T X ->
    exists cp, length cp = d /\ (forall i, (i < d)%nat -> Rabs (coord i cp) <= C) /\
      ensemble_at s' m d (map (fun x => map (clip1 T) (movedr (rnd (- la * dt)) cp x)) X).
  Proof.
    intros s log o s' m X la dt E P HD HA HP HB Hm HSt [HX1 HX2] HW.
    destruct (In_nth_error _ _ Hm) as (kk & Hk). pose proof (exec_wf _ _ _ E) as W. assert (Hlt : (m < s_M s)%nat) by (apply W; auto).
    destruct (HA m Hlt) as (a & Ha & Ba).
    destruct (step_positions_batch (O:=O) c s log o s' kk m (map floats X) (Fin a) E P one_point_r eq_refl HSt Hk HX1 Ha)
      as (xb & cp & xr' & LB & NB & HI & HCC & Hx' & _ & HU & _).
    specialize (HU HB). destruct (choose_points (fun q => In q X) xb) as (Xb & -> & HXb).
    { intros v Hv. apply HI in Hv. apply in_map_iff in Hv. destruct Hv as (q & <- & Hq). eauto. }
    assert (Lb : length Xb = b) by (rewrite map_length in LB; exact LB).
    assert (Hdb : forall q, In q Xb -> length q = d) by (intros q Hq; apply HX2; auto).
    assert (Wb : within T Xb) by (intros q Hq; apply HW; auto).
    destruct (HC Xb a Lb Hdb Wb Ba) as (r & Er & Lr & Br). rewrite Er in HCC. injection HCC as <-.
    exists r. split; [exact Lr|]. split; [exact Br|]. split.
    - rewrite Hx', HU. f_equal. apply nth_error_ext. intros n. rewrite mapi_nth, !nth_error_map. destruct (nth_error X n) as [x|] eqn:E1; cbn [option_map]; auto. f_equal.
      destruct (HD kk n) as (z & -> & Lz). assert (Lx : length x = d) by (apply HX2; eapply nth_error_In; eauto).
      rewrite (moved_r s la dt r x z HP) by congruence. apply pp_floats. exact HT.
    - destruct (step_keeps_r s log o s' E P HSt) as (_ & -> & _). destruct HX2 as [L1 L2]. split; [rewrite map_length; exact L1|].
      intros y Hy. apply in_map_iff in Hy as (x & <- & Hx). rewrite map_length. unfold movedr. rewrite map2_length, Lr, (L2 x Hx). lia.
  Qed.

  (** ** n steps *)
  Lemma coord_moved : forall cp x kk i, length cp = d -> length x = d -> (i < d)%nat -> coord i (map (clip1 T) (movedr kk cp x)) = clip1 T (stepr rnd kk (coord i x) (coord i cp)).
  Proof.
    intros cp x kk i Lc Lx Hi. unfold coord, movedr.
    destruct (nth_error_lt_Some _ x i ltac:(lia)) as (a & Ea). destruct (nth_error_lt_Some _ cp i ltac:(lia)) as (q & Eq).
    rewrite (nth_error_nth x i 0 Ea), (nth_error_nth cp i 0 Eq). apply nth_error_nth. rewrite nth_error_map, map2_nth, Ea, Eq. reflexivity.
  Qed.
  Theorem steps_r : forall s log m n s' X la dt kap, @exec R vec O c s log -> alpha_within A s -> parameters la dt 0 s ->
    b = s_N s \/ partial = false -> ensemble_at s m d X -> within T X -> kap = - rnd (- la * dt) -> 0 < kap <= 1 -> rounded_steps rnd A c m d s n s' ->
    exists Y, ensemble_at s' m d Y /\ within T Y /\ nearer d ((1 - kap) ^ n) (2 * (5 * u * (T + C) + 4 * eta) / kap) X Y.
  Proof.
    intros s log m n s' X la dt kap E HA HP HB HX HW Hk Hk1 H. set (e := 5 * u * (T + C) + 4 * eta).
    assert (E0 : 0 <= e) by (unfold e; pose proof (ro_u _ _ _ RO); pose proof (ro_eta _ _ _ RO); assert (0 <= u * (T + C)) by (apply Rmult_le_pos; lra); lra).
    assert (G : exists Y, ensemble_at s' m d Y /\ within T Y /\ ((exists log', @exec R vec O c s' log') /\ alpha_within A s' /\ parameters la dt 0 s' /\ s_N s' = s_N s) /\
      nearer d ((1 - kap) ^ n) (2 * e / kap) X Y).
    { induction H as [|n s1 o s2 H IH Hm PV HD HSt|n s1 b' s2 H IH Ht|n s1 al H IH Hal1 Hal2].
      - exists X. split; [exact HX|]. split; [exact HW|]. split; [eauto|].
        intros i j xi xj yi yj l' H1 H2 H3 H4 Hl. rewrite H1 in H3. rewrite H2 in H4. injection H3 as <-. injection H4 as <-. cbn [pow].
        assert (0 <= 2 * e / kap) by (apply Rmult_le_pos; [lra|left; apply Rinv_0_lt_compat; lra]). lra.
      - destruct IH as (Y & HY & WY & ((l & E1) & A1 & P1 & N1) & HN).
        destruct (step_r s1 l o s2 m Y la dt E1 PV HD A1 P1 ltac:(rewrite N1; exact HB) Hm HSt HY WY) as (cp & Lc & Bc & HZ).
        destruct (step_keeps_r s1 l o s2 E1 PV HSt) as (K1 & K2 & K3 & K4 & K5 & K6 & _).
        assert (LY : forall y, In y Y -> length y = d) by apply HY.
        eexists. split; [exact HZ|]. split; [|split].
        + intros p Hp i Hi. apply in_map_iff in Hp as (x & <- & Hx). rewrite map_length in Hi. unfold movedr in Hi. rewrite map2_length, Lc, (LY x Hx) in Hi.
          rewrite coord_moved; auto; [|lia]. apply clip1_within. apply HT.
        + split; [eexists; eapply ex_step; eauto|]. split; [intros i Hi; rewrite K3; apply A1; congruence|]. split; [unfold parameters in *; rewrite K4, K5, K6; exact P1|congruence].
        + intros i j xi xj zi zj l' Hxi Hxj Hzi Hzj Hl.
          rewrite nth_error_map in Hzi, Hzj. destruct (nth_error Y i) as [yi|] eqn:Yi; [|discriminate]. destruct (nth_error Y j) as [yj|] eqn:Yj; [|discriminate].
          injection Hzi as <-. injection Hzj as <-. pose proof (nth_error_In _ _ Yi) as Ii. pose proof (nth_error_In _ _ Yj) as Ij.
          rewrite !coord_moved by auto.
          pose proof (stepr_nearer u eta rnd RO (rnd (- la * dt)) (coord l' yi) (coord l' yj) (coord l' cp) T C T ltac:(lra)
            (WY yi Ii l' ltac:(rewrite (LY yi Ii); exact Hl)) (WY yj Ij l' ltac:(rewrite (LY yj Ij); exact Hl)) (Bc l' Hl)) as Q. fold e in Q.
          replace (1 + rnd (- la * dt)) with (1 - kap) in Q by lra.
          assert (D : Rabs (coord l' yi - coord l' yj) <= (1 - kap) ^ n * Rabs (coord l' xi - coord l' xj) + 2 * e / kap).
          { eapply HN; eauto. }
          eapply Rle_trans; [exact Q|]. eapply Rle_trans; [apply Rplus_le_compat_r, Rmult_le_compat_l; [lra|exact D]|]. cbn [pow]. right. field. lra.
      - destruct IH as (Y & HY & WY & ((l & E1) & A1 & P1 & N1) & HN). destruct (term_keeps_r s1 b' s2 Ht) as (K0 & K1 & K2 & K3 & K4 & K5 & K6).
        exists Y. split; [unfold ensemble_at in *; rewrite K0, K2; exact HY|]. split; [exact WY|]. split; [|exact HN].
        split; [eexists; eapply ex_term; eauto|]. split; [intros i Hi; rewrite K3; apply A1; congruence|]. split; [unfold parameters in *; rewrite K4, K5, K6; exact P1|congruence].
      - destruct IH as (Y & HY & WY & ((l & E1) & A1 & P1 & N1) & HN). exists Y. split; [exact HY|]. split; [exact WY|]. split; [|exact HN].
        split; [eexists; eapply ex_params; [exact E1|]; exists al, (s_sigma s1), (s_lamda s1), (s_dt s1); split; auto|]. split; [exact Hal2|]. split; [exact P1|exact N1]. }
    destruct G as (Y & HY & WY & _ & HN). exists Y. auto.
  Qed.
End Steps.

(** ** the computed consensus is bounded *)
Lemma weighted_bound : forall (x w : list R) T, length x = length w -> (forall y, In y x -> Rabs y <= T) -> (forall p, In p w -> 0 <= p) -> Rabs (Rsum (map2 Rmult x w)) <= T * Rsum w.
Proof.
  intros x w T L Hx Hw. revert w L Hw. induction x as [|a x IH]; intros [|p w] L Hw; try discriminate.
  - cbn. rewrite Rabs_R0. lra.
  - cbn [map2 Rsum fold_right]. change (fold_right Rplus 0 ?l) with (Rsum l). cbn in L. specialize (IH (fun y Hy => Hx y (or_intror Hy)) w ltac:(lia) (fun q Hq => Hw q (or_intror Hq))).
    eapply Rle_trans; [apply Rabs_triang|]. rewrite Rabs_mult, (Rabs_right p) by (apply Rle_ge, Hw; left; auto).
    assert (Rabs a * p <= T * p) by (apply Rmult_le_compat_r; [apply Hw; left; auto|apply Hx; left; auto]). cbn. change (fold_right Rplus 0 ?l) with (Rsum l). lra.
Qed.
Lemma consensus_r_within : forall u v eta rnd Exp Log sum, arithmetic u v eta rnd Exp Log sum -> forall f k pp b partial cat ks save d T A F, (1 <= b)%nat -> 0 <= T ->
  objective_within d T F f -> INR b * (u + v) + u * (A * F) <= / 128 ->
  consensus_within d b T (2 * T + 4 * INR b * eta) A (cbo_cfg_r rnd Exp Log sum f k pp b partial cat ks save).
Proof.
  intros u v eta rnd Exp Log sum AR f k pp b partial cat ks save d T A F Hb HT0 HF Hq Xb a Lb Hd HW Ha. cbn [cbo_cfg_r c_ccrow c_f]. unfold cc_r.
  set (es := map f (map floats Xb)). set (e := map number es). set (cs := coeffs_r rnd Exp Log sum (number (Fin a)) e).
  assert (Le : length e = b) by (unfold e, es; rewrite !map_length; exact Lb).
  assert (Hd0 : length (hd [] (map floats Xb)) = d).
  { destruct Xb as [|p Xb]; [cbn in Lb; lia|]. cbn. unfold floats. rewrite map_length. apply Hd. left; auto. }
  rewrite Hd0.
  assert (HE : forall y, In y e -> Rabs (a * y) <= A * F).
  { intros y Hy. unfold e, es in Hy. rewrite !map_map in Hy. apply in_map_iff in Hy as (p & <- & Hp). destruct (HF p (Hd p Hp)) as (z & -> & Bz).
    - intros i Hi. apply (HW p Hp). rewrite (Hd p Hp). exact Hi.
    - cbn [number]. rewrite Rabs_mult. apply Rmult_le_compat; auto using Rabs_pos. }
  set (col := fun j => map (fun x => number (nth j x (Fin 0))) (map floats Xb)).
  exists (map (fun j => mean_r rnd sum cs (col j)) (seq 0 d)). split; [|split].
  - f_equal. unfold floats. symmetry. exact (map_map (fun j => mean_r rnd sum cs (col j)) Fin (seq 0 d)).
  - rewrite map_length, seq_length. reflexivity.
  - intros i Hi. unfold coord. replace (nth i (map (fun j => mean_r rnd sum cs (col j)) (seq 0 d)) 0) with (mean_r rnd sum cs (col i)).
    2:{ symmetry. apply nth_error_nth. rewrite nth_error_map, (nth_error_nth' (seq 0 d) 0%nat) by (rewrite seq_length; exact Hi). rewrite seq_nth by exact Hi. reflexivity. }
    assert (Lcol : length (col i) = length e) by (unfold col; rewrite !map_length; congruence).
    assert (Hcol : forall y, In y (col i) -> Rabs y <= T).
    { intros y Hy. unfold col in Hy. rewrite map_map in Hy. apply in_map_iff in Hy as (p & <- & Hp). unfold floats. change (Fin 0) with (Fin 0). 
      replace (number (nth i (map Fin p) (Fin 0))) with (coord i p); [apply (HW p Hp); rewrite (Hd p Hp); exact Hi|]. rewrite (map_nth Fin p 0). reflexivity. }
    assert (Ne : e <> []) by (intros G; rewrite G in Le; cbn in Le; lia).
    destruct (default_consensus _ _ _ _ _ _ _ AR a e (A * F) (col i) T Ne HE ltac:(rewrite Le; exact Hq) Lcol Hcol) as (_ & _ & M). change (coeffs_r rnd Exp Log sum a e) with cs in M.
    destruct (gibbs_w_sum a e Ne) as [G1 G2].
    pose proof (weighted_bound (col i) (gibbs_w a e) T ltac:(rewrite Lcol; unfold gibbs_w; now rewrite map_length) Hcol G2) as WB. rewrite G1 in WB. rewrite Le in M.
    set (mm := mean_r rnd sum cs (col i)) in *. set (ex := Rsum (map2 Rmult (col i) (gibbs_w a e))) in *.
    replace mm with ((mm - ex) + ex) by ring. eapply Rle_trans; [apply Rabs_triang|].
    set (q := INR b * (u + v) + u * (A * F)) in *. assert (Q1 : T * (67 * q) <= T * (67 * / 128)) by (apply Rmult_le_compat_l; lra).
    clearbody mm ex q. clear - M WB Q1 HT0. lra.
Qed.

Theorem contraction_r : forall u v eta rnd Exp Log sum, rounding u eta rnd -> arithmetic u v eta rnd Exp Log sum -> positive_sums sum ->
  forall f k T b partial cat ks save, 0 <= T <= float_max ->
  let c := cbo_cfg_r rnd Exp Log sum f k (pp_point T false) b partial cat ks save in
  forall d F A s log m n s' X la dt kap, objective_within d T F f -> INR b * (u + v) + u * (A * F) <= / 128 ->
  @exec R vec (KOps_rounded rnd) c s log -> alpha_within A s -> parameters la dt 0 s -> b = s_N s \/ partial = false ->
  ensemble_at s m d X -> within T X -> kap = - rnd (- la * dt) -> 0 < kap <= 1 -> rounded_steps rnd A c m d s n s' ->
  exists Y, ensemble_at s' m d Y /\ within T Y /\ nearer d ((1 - kap) ^ n) ((30 * u * (T + 2 * INR b * eta) + 8 * eta) / kap) X Y.
Proof.
  intros u v eta rnd Exp Log sum RO AR PS f k T b partial cat ks save HT c d F A s log m n s' X la dt kap HF Hq E HA HP HB HX HW Hk Hk1 H.
  assert (Hb : (1 <= b)%nat) by (destruct (exec_wf _ _ _ E); tauto || apply (exec_wf _ _ _ E)).
  pose proof (ro_eta _ _ _ RO) as He. pose proof (ro_u _ _ _ RO) as Hu. pose proof (pos_INR b) as Hbp.
  assert (Q0 : 0 <= 4 * INR b * eta) by (apply Rmult_le_pos; lra).
  destruct (steps_r u eta rnd Exp Log sum RO f k T b partial cat ks save HT PS d (2 * T + 4 * INR b * eta) A ltac:(lra)
    (consensus_r_within u v eta rnd Exp Log sum AR f k (pp_point T false) b partial cat ks save d T A F Hb (proj1 HT) HF Hq)
    s log m n s' X la dt kap E HA HP HB HX HW Hk Hk1 H) as (Y & H1 & H2 & H3).
  exists Y. split; [exact H1|]. split; [exact H2|]. intros i j xi xj yi yj l G1 G2 G3 G4 Hl. eapply Rle_trans; [exact (H3 i j xi xj yi yj l G1 G2 G3 G4 Hl)|]. apply Rplus_le_compat_l.
  apply Rmult_le_compat_r; [left; apply Rinv_0_lt_compat; lra|]. assert (0 <= u * (4 * INR b * eta)) by (apply Rmult_le_pos; lra).
  replace (30 * u * (T + 2 * INR b * eta)) with (30 * (u * T) + 15 * (u * (4 * INR b * eta))) by ring.
  replace (2 * (5 * u * (T + (2 * T + 4 * INR b * eta)) + 4 * eta)) with (30 * (u * T) + 10 * (u * (4 * INR b * eta)) + 8 * eta) by ring. lra.
Qed.
Theorem step_error_r : forall u eta rnd, rounding u eta rnd -> forall k x c B C, -1 <= k <= 0 -> Rabs x <= B -> Rabs c <= C ->
  Rabs (rnd (x + rnd (k * rnd (x - c))) - (x + k * (x - c))) <= 5 * u * (B + C) + 4 * eta.
Proof. exact stepr_error. Qed.
