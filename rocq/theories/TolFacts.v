(** * update_norm, drift_mean and diff_tol of CBO *)
From Coq Require Import String List Arith Bool Reals Lia Lra.
From Verif Require Import Scalar Np NpFacts RFacts State Pdyn PdynFacts PdynStep PdynRun PdynOk Exec TermSpec TermFacts RunFacts MoveFacts HistSpec RVec RVecFacts Consensus ConsSpec ConsFacts PostProc Cbo CboSpec CboFacts AbsorbFacts
  MomentFacts ResampTerm TolSpec.
Import ListNotations.
Open Scope R_scope.

Section Gen.
  Context {K V : Type} {O : KOps K}.
  Lemma step_udiff : forall (c : cfg K V) s log o s' m xr xr', exec c s log -> perms_valid o s -> step c o s = Ok s' ->
    nth_error (s_x s) m = Some xr -> nth_error (s_x s') m = Some xr' -> nth_error (s_udiff s') m = Some (c_norm c (map2 (c_vsub c) xr' xr)).
  Proof.
    intros c s log o s' m xr xr' E P HS Hx Hx'. pose proof (exec_wf _ _ _ E) as W.
    destruct (step_ok_char c o s s' W (perms_valid_ok _ _ P) HS) as (W' & (EM & _) & _ & HR).
    assert (Hm : (m < s_M s)%nat). { rewrite <- (proj1 (w_x _ _ W)). eapply nth_error_lt; eauto. }
    destruct (row_at_Some c s m W Hm) as (r & Er & _).
    destruct (HR m r Er) as (xr0 & er & nf & r' & _ & _ & Hp & Er').
    destruct (row_at_lt _ _ _ Er) as (_ & Ex & _).
    destruct (row_at_lt _ _ _ Er') as (_ & Ex' & _ & _ & _ & _ & _ & Eu & _).
    unfold run_post in Hp. cbv zeta in Hp.
    apply bind_ok in Hp. destruct Hp as ([j w] & A1 & Hp). apply bind_ok in Hp. destruct Hp as (p & A2 & Hp).
    apply bind_ok in Hp. destruct Hp as (e & A3 & Hp). inversion Hp; subst r'. cbn [r_x r_ud] in *.
    assert (r_x r = xr) by congruence. assert (Q : map (c_pp c) xr0 = xr') by congruence. rewrite Eu. rewrite <- Q. congruence.
  Qed.
End Gen.

Lemma fdiv_real : forall a b : R, b <> 0 -> fdiv (Fin a) (Fin b) = Fin (a / b).
Proof.
  intros a b H. unfold fdiv. assert (Q : k_is0 b = false). { unfold k_is0. cbn. destruct (Rltb b 0) eqn:E1; auto. destruct (Rltb 0 b) eqn:E2; auto.
    exfalso. apply Rltb_false in E1. apply Rltb_false in E2. lra. } rewrite Q. reflexivity.
Qed.
Lemma concat_floats : forall D, concat (map floats D) = floats (concat D).
Proof. induction D; auto. cbn. unfold floats in *. rewrite map_app, IHD. auto. Qed.
Lemma sqnorm_concat : forall D, sqnorm (concat D) = Rsum (map sqnorm D).
Proof.
  induction D as [|u D IH]; auto. cbn [concat map]. rewrite Rsum_cons, <- IH. induction u as [|a u IHu]; cbn [app]. unfold sqnorm at 2; cbn; ring. rewrite !sqnorm_cons, IHu. ring.
Qed.
Lemma map2_floats_sub : forall X Y, map2 (map2 fsub) (map floats Y) (map floats X) = map floats (map2 vsub Y X).
Proof. intros X Y. revert X. induction Y as [|y Y IH]; intros [|x X]; auto. cbn. f_equal; auto. apply floats_sub. Qed.
Lemma moved_flip : forall X Y, Rsum (map sqnorm (map2 vsub Y X)) = moved_sq X Y.
Proof. unfold moved_sq. intros X Y. f_equal. revert X. induction Y as [|y Y IH]; intros [|x X]; auto. cbn. f_equal; auto. Qed.
Lemma moved_sq_nonneg : forall X Y, 0 <= moved_sq X Y.
Proof. intros. rewrite <- moved_flip. apply Rsum_map_nonneg. intros. apply sqnorm_nonneg. Qed.
Lemma moved_sq_each : forall X Y n x y, nth_error X n = Some x -> nth_error Y n = Some y -> sqnorm (vsub y x) <= moved_sq X Y.
Proof.
  intros X Y. revert Y. induction X as [|x0 X IH]; intros [|y0 Y] [|n] x y Hx Hy; try discriminate; unfold moved_sq in *; cbn [map2]; rewrite Rsum_cons; cbn in Hx, Hy.
  - injection Hx as ->. injection Hy as ->. pose proof (moved_sq_nonneg X Y). unfold moved_sq in *. lra.
  - specialize (IH Y n x y Hx Hy). pose proof (sqnorm_nonneg (vsub y0 x0)). lra.
Qed.

Section Cfg.
  Variables (f : vec -> fl R) (k : noise_model) (pp : vec -> vec) (co : corr R) (b : nat) (partial cat : bool) (ks : list (crit R vec)) (save : bool).
  Let c := cbo_cfg f k pp co b partial cat ks save.

  Theorem update_norm_is : forall s log o s' m d X Y, exec c s log -> perms_valid o s -> step c o s = Ok s' -> ensemble_at s m d X -> ensemble_at s' m d Y ->
    nth_error (s_udiff s') m = Some (Fin (sqrt (moved_sq X Y) / INR (s_N s))).
  Proof.
    intros s log o s' m d X Y E P HS [HX1 [LX HX2]] [HY1 [LY HY2]]. rewrite (step_udiff c s log o s' m _ _ E P HS HX1 HY1).
    cbn [c cbo_cfg c_norm c_vsub]. rewrite map2_floats_sub, concat_floats, fnorm_floats, map_length. unfold vnorm. rewrite sqnorm_concat, moved_flip.
    pose proof (exec_wf _ _ _ E) as W. assert (HN : (1 <= s_N s)%nat) by apply W.
    assert (LN : s_N s' = s_N s). { destruct (step_ok_char c o s s' W (perms_valid_ok _ _ P) HS) as (_ & (_ & H & _) & _). auto. }
    assert (LL : length (map2 vsub Y X) = s_N s) by (rewrite map2_length; lia). rewrite LL.
    assert (INR (s_N s) <> 0) by (apply not_0_INR; lia). rewrite fdiv_real by auto. auto.
  Qed.

  Lemma sqrt_div_lt : forall u n t, 0 <= u -> 0 < n -> 0 < t -> (sqrt u / n < t <-> u < (n * t) ^ 2).
  Proof.
    intros u n t Hu Hn Ht. assert (S2 : sqrt u * sqrt u = u) by (apply sqrt_sqrt; auto). pose proof (sqrt_pos u) as S0. split; intros H.
    - assert (sqrt u < n * t). { apply (Rmult_lt_reg_r (/ n)); [apply Rinv_0_lt_compat; auto|]. replace (n * t * / n) with t by (field; lra). exact H. }
      assert (0 < n * t) by nra. nra.
    - assert (sqrt u < n * t). { apply Rnot_le_lt. intros C. assert (0 < n * t) by nra. assert ((n * t) * (n * t) <= sqrt u * sqrt u) by nra. lra. }
      apply (Rmult_lt_reg_r n); auto. unfold Rdiv. rewrite Rmult_assoc, Rinv_l; lra.
  Qed.

  Theorem diff_tol_means : forall s log o s' m d X Y tol, exec c s log -> perms_valid o s -> step c o s = Ok s' -> ensemble_at s m d X -> ensemble_at s' m d Y -> 0 < tol ->
    (holds c s' (CDiffTol (Fin tol)) m = true <-> moved_sq X Y < (INR (s_N s) * tol) ^ 2).
  Proof.
    intros s log o s' m d X Y tol E P HS HX HY Ht. cbn [holds]. rewrite (update_norm_is s log o s' m d X Y) by auto. cbn [fltb].
    pose proof (exec_wf _ _ _ E) as W. assert (HN : (1 <= s_N s)%nat) by apply W. assert (HN2 : 0 < INR (s_N s)) by (apply lt_0_INR; lia).
    rewrite <- (sqrt_div_lt _ _ _ (moved_sq_nonneg X Y) HN2 Ht). cbn [kltb KOps_R]. apply Rltb_true.
  Qed.
  Theorem diff_tol_each : forall s log o s' m d X Y tol n x y, exec c s log -> perms_valid o s -> step c o s = Ok s' -> ensemble_at s m d X -> ensemble_at s' m d Y -> 0 < tol ->
    holds c s' (CDiffTol (Fin tol)) m = true -> nth_error X n = Some x -> nth_error Y n = Some y -> vnorm (vsub y x) < INR (s_N s) * tol.
  Proof.
    intros s log o s' m d X Y tol n x y E P HS HX HY Ht H Hx Hy.
    apply (diff_tol_means s log o s' m d X Y tol E P HS HX HY Ht) in H. pose proof (moved_sq_each X Y n x y Hx Hy) as Q.
    pose proof (vnorm_sq (vsub y x)) as V. pose proof (sqrt_pos (sqnorm (vsub y x))) as V0. fold (vnorm (vsub y x)) in V0.
    pose proof (exec_wf _ _ _ E) as W. assert (HN : (1 <= s_N s)%nat) by apply W. assert (HN2 : 0 < INR (s_N s)) by (apply lt_0_INR; lia).
    assert (0 < INR (s_N s) * tol) by nra. apply Rnot_le_lt. intros C. nra.
  Qed.
End Cfg.

(** ** drift_mean *)
Lemma Rsum_concat_abs : forall D, Rsum (map Rabs (concat D)) = Rsum (map (fun u => Rsum (map Rabs u)) D).
Proof. induction D as [|u D IH]; auto. cbn [concat map]. rewrite map_app, Rsum_app, Rsum_cons, IH. auto. Qed.
Lemma abs_coords : forall u d, length u = d -> Rsum (map Rabs u) = Rsum (map (fun l => Rabs (coord l u)) (seq 0 d)).
Proof.
  induction u as [|a u IH]; intros d <-; auto. cbn [map length seq]. rewrite !Rsum_cons, (IH (length u)) by auto. f_equal. rewrite <- seq_shift, map_map. auto.
Qed.
Lemma fabs_floats : forall u : list R, fsum (map fabs (floats u)) = Fin (Rsum (map Rabs u)).
Proof. intros. unfold floats. rewrite map_map, <- fsum_fin, map_map. f_equal. Qed.
Lemma concat_length_same : forall (D : list (list R)) d, (forall u, In u D -> length u = d) -> length (concat D) = (length D * d)%nat.
Proof. induction D as [|u D IH]; intros d H; auto. cbn [concat length]. rewrite app_length, (IH d), (H u); cbn; auto. intros; apply H; cbn; auto. Qed.

Section Drift.
  Variables (f : vec -> fl R) (k : noise_model) (pp : vec -> vec) (b : nat) (partial cat : bool) (ks : list (crit R vec)) (save : bool).
  Let c := cbo_cfg f k pp NoCorr b partial cat ks save.
  Theorem drift_mean_is : forall s log o s' kk m d X, exec c s log -> perms_valid o s -> step c o s = Ok s' -> finite_obj d f -> finite_alpha s -> b = s_N s ->
    nth_error (s_active s) kk = Some m -> ensemble_at s m d X -> (1 <= d)%nat ->
    exists cs l a, s_cons s' = Some cs /\ nth_error (s_alpha s) m = Some [Fin a] /\ nth_error cs kk = Some [floats (gibbs_point a (map f (map floats X)) d X)] /\
      documented c "drift_mean" s s' = Some (HMean l) /\ nth_error l kk = Some (Fin (mean_distance d X (gibbs_point a (map f (map floats X)) d X))).
  Proof.
    intros s log o s' kk m d X E P HS HF HA HB Hk [HX1 HX2] Hd. pose proof (exec_wf _ _ _ E) as W. pose proof (perms_valid_ok _ _ P) as P'.
    destruct (step_char c o s W P' (or_introl (cbo_one_point _ _ _ _ _ _ _ _)) eq_refl) as (s2 & HS2 & _ & _ & _ & _ & (cs & D & C1 & C2 & C3 & C4 & HR) & _).
    rewrite HS in HS2. injection HS2 as <-.
    assert (Hlt : (m < s_M s)%nat). { apply W. eapply nth_error_In; eauto. }
    destruct (HA m Hlt) as (a & Ha). destruct (row_at_Some c s m W Hlt) as (r & Er & _). destruct (row_at_lt _ _ _ Er) as (_ & Ex & _ & Ea & _).
    destruct (HR kk m r Hk Er) as (r1 & cpr & dr & r' & HM & Hc & Hdr & _ & _).
    assert (RX : r_x r = map floats X) by congruence. assert (RA : r_a r = [Fin a]) by congruence.
    unfold run_move in HM. rewrite RA, RX in HM.
    assert (LX : length (map floats X) = s_N s) by (rewrite map_length; apply HX2).
    assert (S1 : run_sel c o s m = seq 0 (length (map floats X))) by (unfold run_sel; cbn [c cbo_cfg c_bsize]; rewrite HB, Nat.eqb_refl, LX; auto).
    assert (S2 : run_selp c o s m = seq 0 (length (map floats X))) by (unfold run_selp; cbn [c cbo_cfg c_bsize]; rewrite HB, Nat.eqb_refl, LX; auto).
    rewrite S1, S2 in HM. rewrite takeM_all in HM. cbn [bind] in HM.
    assert (HN : (1 <= length X)%nat) by (rewrite (proj1 HX2); apply W).
    rewrite (ccrow_finite f k pp b partial cat ks save d) in HM by (auto; apply HX2).
    apply bind_ok in HM. destruct HM as (er & _ & HM). rewrite ?takeM_all in HM. cbn [bind] in HM. apply bind_ok in HM. destruct HM as (xr & _ & HM).
    injection HM as _ <- <-. set (cp := gibbs_point a (map f (map floats X)) d X) in *. assert (Lc : length cp = d) by apply gibbs_point_length.
    exists cs, (map (c_dmean c) D), a. split; auto. split; auto. split; auto. split. { unfold documented. cbn. rewrite C2. auto. }
    rewrite nth_error_map, Hdr. cbn [option_map]. f_equal. cbn [c cbo_cfg c_dmean c_vsub].
    match goal with |- context[concat ?t] => replace t with (map floats (map (fun x => vsub x cp) X)) end.
    2:{ rewrite !map_map. apply map_ext. intros x. symmetry. apply floats_sub. }
    rewrite concat_floats. unfold mean_distance.
    assert (LV : forall u, In u (map (fun x => vsub x cp) X) -> length u = d).
    { intros u Hu. apply in_map_iff in Hu. destruct Hu as (x & <- & Hx). apply length_vsub; auto. apply HX2; auto. }
    assert (LD : length (floats (concat (map (fun x => vsub x cp) X))) = (length X * d)%nat).
    { unfold floats. rewrite map_length, (concat_length_same _ d) by auto. rewrite map_length. auto. }
    rewrite LD, fabs_floats, fdiv_real by (rewrite mult_INR; apply Rmult_integral_contrapositive_currified; apply not_0_INR; lia).
    rewrite mult_INR. do 2 f_equal. rewrite Rsum_concat_abs, map_map. f_equal. apply map_ext_in. intros x Hx.
    assert (Lx : length x = d) by (apply HX2; auto). rewrite (abs_coords _ d) by (apply length_vsub; auto). f_equal. apply map_ext. intros l. rewrite coord_vsub by congruence. auto.
  Qed.
End Drift.

(** ** diff_tol stops noise-free CBO *)
Section Stop.
  Variables (f : vec -> fl R) (k : noise_model) (pp : vec -> vec) (b : nat) (partial cat : bool) (ks : list (crit R vec)) (save : bool).
  Let c := cbo_cfg f k pp NoCorr b partial cat ks save.
  Variables (d : nat) (la dt tol : R) (lo hi : nat -> R) (sched : st R vec -> res (st R vec)) (os : nat -> orc vec).
  Hypotheses (HF : finite_obj d f) (Hl : 0 < la * dt <= 1) (Ht : 0 < tol) (Hks : Forall builtin ks) (Htol : In (CDiffTol (Fin tol)) ks)
    (Hpp : forall p, length p = d -> in_box d lo hi p -> pp (floats p) = floats p) (Hsched : alpha_sched sched) (Hos : forall i, finite_draws d (os i)).

  (** run m at the (n+1)-st check: still shrinking, or at rest *)
  Definition stop_inv (n : nat) (q : st R vec) (m : nat) : Prop := exists Y, ensemble_at q m d Y /\ (forall y, In y Y -> in_box d lo hi y) /\
    ((exists lo' hi', (forall y, In y Y -> in_box d lo' hi' y) /\ (forall l, (l < d)%nat -> 0 <= hi' l - lo' l <= (1 - la * dt) ^ n * (hi l - lo l)) /\
       (forall n', n = S n' -> exists u, nth_error (s_udiff q) m = Some (Fin (sqrt u / INR (s_N q))) /\ 0 <= u <= INR (s_N q) * ((la * dt * (1 - la * dt) ^ n') ^ 2 * box_sq d lo hi)))
     \/ nth_error (s_udiff q) m = Some (Fin 0)).

  Definition stop_state (N M n : nat) (q : st R vec) : Prop := (exists log, exec c q log) /\ finite_alpha q /\ parameters la dt 0 q /\ s_N q = N /\ s_M q = M /\
    forall m, (m < M)%nat -> stop_inv n q m.

  Lemma meets_tol : forall q m u, nth_error (s_udiff q) m = Some (Fin u) -> u < tol -> meets_some c q m = true.
  Proof.
    intros q m u H L. unfold meets_some. apply existsb_exists. exists (CDiffTol (Fin tol)). split; auto. cbn [holds]. rewrite H. cbn. apply Rltb_true. auto.
  Qed.

  Lemma box_sq_nonneg : 0 <= box_sq d lo hi.
  Proof. unfold box_sq. apply Rsum_map_nonneg. intros l _. apply pow2_ge_0. Qed.

  Lemma stop_step : forall N M n q q1 o q2 q3, (1 <= N)%nat -> b = N -> stop_state N M n q -> terminate c q = Ok (false, q1) -> perms_valid o q1 -> finite_draws d o ->
    step c o q1 = Ok q2 -> alpha_changed q2 q3 -> stop_state N M (S n) q3.
  Proof.
    intros N M n q q1 o q2 q3 HN HB ((log & E) & HA & HP & EN & EM & HI) HT P HD HS HC.
    assert (E1 : exec c q1 log) by (eapply ex_term; eauto).
    destruct (term_keeps _ _ _ _ _ _ _ _ q false q1 HT) as (K0 & K1 & K2 & K3 & K4 & K5 & K6).
    assert (HA1 : finite_alpha q1) by (intros i Hi; rewrite K3; apply HA; congruence).
    assert (HP1 : parameters la dt 0 q1) by (unfold parameters in *; rewrite K4, K5, K6; auto).
    destruct (step_keeps _ _ _ _ _ _ _ _ q1 log o q2 E1 P HS) as (L1 & L2 & L3 & L4 & L5 & L6 & L7).
    assert (E2 : exec c q2 (log ++ evaluated q1 q2)) by (eapply ex_step; eauto).
    assert (FC : s_x q3 = s_x q2 /\ s_N q3 = s_N q2 /\ s_M q3 = s_M q2 /\ s_udiff q3 = s_udiff q2 /\ finite_alpha q3 /\ parameters la dt 0 q3).
    { assert (HP2 : parameters la dt 0 q2) by (unfold parameters in *; rewrite L4, L5, L6; auto).
      destruct HC as (al & -> & A1 & A2). destruct q2; cbn in *. auto 10. }
    destruct FC as (F1 & F2 & F3 & F4 & F5 & F6).
    split; [eexists; eapply alpha_changed_exec; eauto|]. split; auto. split; auto. split; [congruence|]. split; [congruence|].
    intros m Hm. destruct (HI m Hm) as (Y & [HY1 HY2] & HYB & HYC). assert (HY : ensemble_at q1 m d Y) by (split; [congruence|rewrite K2; auto]).
    assert (LN : length Y = N) by (rewrite (proj1 HY2); auto).
    destruct (in_dec Nat.eq_dec m (s_active q1)) as [Hact|Hact].
    - destruct HYC as [(lo' & hi' & B1 & B2 & _)|Hz].
      2:{ exfalso. assert (MS : meets_some c q m = true) by (eapply meets_tol; eauto). 
          destruct (terminate_spec c q false q1 (exec_wf _ _ _ E) HT) as (AA & _). rewrite AA in Hact. apply filter_In in Hact. rewrite MS in Hact. destruct Hact. discriminate. }
      destruct (real_step f k pp b partial cat ks save q1 log o q2 m d Y la dt 0 E1 P HD HF HA1 HP1 ltac:(congruence) Hact HS HY)
        as (cp & Z & zs & Lc & HZ & Lz & Lz2 & (a & Ecp) & EZ & Hx2).
      assert (AD : admissible a (map f (map floats Y))) by (apply (finite_admissible f d); auto; [lia|apply HY2]).
      assert (CB : in_box d lo' hi' cp /\ in_box d lo hi cp).
      { subst cp. split; intros l Hll; (apply hull_coord; [auto|split; [rewrite !map_length; auto|apply HY2]|auto|]); intros p Hp; [apply B1|apply HYB]; auto. }
      destruct CB as [CB CB2].
      assert (ZN : forall i z, nth_error Z i = Some z -> exists y, nth_error Y i = Some y /\ length z = d /\ forall l, (l < d)%nat -> coord l z = (1 - la * dt) * coord l y + la * dt * coord l cp).
      { intros i z Hz. rewrite EZ, map2_nth in Hz. destruct (nth_error Y i) as [y|] eqn:Ey; [|discriminate]. destruct (nth_error zs i) as [zz|] eqn:Ez; [|discriminate].
        injection Hz as <-. exists y. assert (length y = d) by (apply HY2; eapply nth_error_In; eauto). assert (length zz = d) by (apply Lz2; eapply nth_error_In; eauto).
        split; auto. split; [apply length_rmove; auto|]. intros l Hll. rewrite (coord_rmove _ _ _ _ _ _ _ _ d) by auto. ring. }
      assert (ZB : forall z, In z Z -> in_box d lo hi z).
      { intros z Hz l Hll. apply In_nth_error in Hz. destruct Hz as (i & Hz). destruct (ZN i z Hz) as (y & Hy & _ & Q). rewrite (Q l Hll).
        pose proof (HYB y (nth_error_In _ _ Hy) l Hll). pose proof (CB2 l Hll). split; nra. }
      assert (PZ : map pp (map floats Z) = map floats Z).
      { rewrite map_map. apply map_ext_in. intros z Hz. apply Hpp; auto. apply HZ; auto. }
      rewrite PZ in Hx2. assert (HZ2 : ensemble_at q2 m d Z) by (split; auto; rewrite L2; auto).
      exists Z. split; [split; [rewrite F1; auto|rewrite F2, L2; auto]|]. split; auto. left.
      exists (fun l => (1 - la * dt) * lo' l + la * dt * coord l cp), (fun l => (1 - la * dt) * hi' l + la * dt * coord l cp).
      split; [|split].
      + intros z Hz l Hll. apply In_nth_error in Hz. destruct Hz as (i & Hz). destruct (ZN i z Hz) as (y & Hy & _ & Q). rewrite (Q l Hll).
        pose proof (B1 y (nth_error_In _ _ Hy) l Hll). split; nra.
      + intros l Hll. pose proof (B2 l Hll) as [W1 W2]. cbn [pow]. split; nra.
      + intros n' Hn'. injection Hn' as <-. exists (moved_sq Y Z). split.
        { rewrite F4, F2, L2. exact (update_norm_is f k pp NoCorr b partial cat ks save q1 log o q2 m d Y Z E1 P HS HY HZ2). }
        split; [apply moved_sq_nonneg|]. rewrite F2, L2, K2, EN, <- LN. unfold moved_sq.
        assert (LZ : length Z = length Y) by (rewrite EZ, map2_length; lia).
        assert (BD : forall i y z, nth_error Y i = Some y -> nth_error Z i = Some z -> sqnorm (vsub z y) <= (la * dt * (1 - la * dt) ^ n) ^ 2 * box_sq d lo hi).
        { intros i y z Hy Hz. destruct (ZN i z Hz) as (y' & Hy' & Lz' & Q). rewrite Hy in Hy'. injection Hy' as <-.
          assert (Ly : length y = d) by (apply HY2; eapply nth_error_In; eauto).
          rewrite (sqnorm_coords _ d) by (apply length_vsub; auto). unfold box_sq. rewrite <- Rsum_map_scal. apply Rsum_map_le. intros l Hll. apply in_seq in Hll.
          rewrite coord_vsub by congruence. rewrite (Q l) by lia. pose proof (B1 y (nth_error_In _ _ Hy) l ltac:(lia)) as U1. pose proof (CB l ltac:(lia)) as U2. pose proof (B2 l ltac:(lia)) as U3.
          replace ((1 - la * dt) * coord l y + la * dt * coord l cp - coord l y) with (la * dt * (coord l cp - coord l y)) by ring.
          assert (U4 : - ((1 - la * dt) ^ n * (hi l - lo l)) <= coord l cp - coord l y <= (1 - la * dt) ^ n * (hi l - lo l)) by lra.
          set (v := coord l cp - coord l y) in *. set (w := (1 - la * dt) ^ n * (hi l - lo l)) in *.
          replace ((la * dt * (1 - la * dt) ^ n) ^ 2 * (hi l - lo l) ^ 2) with ((la * dt) * (la * dt) * (w * w)) by (unfold w; ring).
          replace (la * dt * v * (la * dt * v)) with ((la * dt) * (la * dt) * (v * v)) by ring.
          apply Rmult_le_compat_l; [nra|]. nra. }
        clear - BD LZ. set (B := (la * dt * (1 - la * dt) ^ n) ^ 2 * box_sq d lo hi) in *. clearbody B. revert Z LZ BD.
        induction Y as [|y Y IH]; intros [|z Z] LZ BD; try discriminate; [cbn; lra|]. cbn [map2]. rewrite Rsum_cons. cbn [length]. rewrite S_INR.
        pose proof (BD 0%nat y z eq_refl eq_refl). specialize (IH Z ltac:(auto) (fun i => BD (S i))). lra.
    - assert (Hx2 : nth_error (s_x q2) m = Some (map floats Y)).
      { rewrite (step_positions_inactive c q1 log o q2 m _ E1 P (cbo_plain _ _ _ _ _ _ _ _ _) HS Hact (proj1 HY)). f_equal. rewrite map_map. apply map_ext_in.
        intros y Hy. cbn [c cbo_cfg c_pp]. apply Hpp; auto. apply HY2; auto. }
      assert (HY3 : ensemble_at q2 m d Y) by (split; auto; rewrite L2; apply HY).
      exists Y. split; [split; [rewrite F1; auto|rewrite F2; apply HY3]|]. split; auto. right. rewrite F4.
      rewrite (update_norm_is f k pp NoCorr b partial cat ks save q1 log o q2 m d Y Y E1 P HS HY HY3). do 2 f_equal.
      assert (MZ : moved_sq Y Y = 0). { unfold moved_sq. clear. induction Y as [|y Y IH]; auto. cbn [map2]. rewrite Rsum_cons, IH. rewrite vsub_self. unfold sqnorm. rewrite dot_vscal_l. ring. }
      rewrite MZ, sqrt_0. unfold Rdiv. ring.
  Qed.

  Theorem diff_tol_stops : forall s log n, exec c s log -> finite_alpha s -> parameters la dt 0 s -> b = s_N s -> in_range os s ->
    (forall m, (m < s_M s)%nat -> exists X, ensemble_at s m d X /\ forall p, In p X -> in_box d lo hi p) ->
    (la * dt * (1 - la * dt) ^ n) ^ 2 * box_sq d lo hi < INR (s_N s) * tol ^ 2 ->
    forall fuel i, (S n <= fuel)%nat -> exists s', optimize_loop c (step c) sched os fuel i s = Some (Ok s').
  Proof.
    intros s log n E HA HP HB HR HX Hn fuel i Hfuel. pose proof (exec_wf _ _ _ E) as W. assert (HN : (1 <= s_N s)%nat) by apply W.
    assert (HI : stop_state (s_N s) (s_M s) 0 s).
    { split; eauto. split; auto. split; auto. split; auto. split; auto. intros m Hm. destruct (HX m Hm) as (X & X1 & X2). exists X. split; auto. split; auto. left. exists lo, hi. split; auto. split.
      - intros l Hll. cbn [pow]. rewrite Rmult_1_l. destruct X as [|x X]. { exfalso. destruct X1 as [_ [Z _]]. cbn in Z. lia. }
        pose proof (X2 x (or_introl eq_refl) l Hll). lra.
      - intros n' Hn'. discriminate. }
    assert (HO : forall q : st R vec, s_N q = s_N s -> s_M q = s_M s -> forall i, perms_valid (os i) q).
    { intros q Q1 Q2 j m Hm. rewrite Q1. apply HR. congruence. }
    assert (GEN : forall fu j q i0, stop_state (s_N s) (s_M s) j q -> (j + fu >= S n)%nat -> (j <= S n)%nat -> exists s', optimize_loop c (step c) sched os fu i0 q = Some (Ok s')).
    { induction fu as [|fu IH]; intros j q i0 HQ H1 H2.
      - assert (j = S n) by lia. subst j. destruct HQ as ((l & EQ) & A1 & A2 & A3 & A4 & A5). cbn [optimize_loop].
        destruct (terminate_total c q (exec_wf _ _ _ EQ) Hks) as (bb & q1 & TE). rewrite TE.
        destruct (terminate_spec c q bb q1 (exec_wf _ _ _ EQ) TE) as (_ & TB & _).
        assert (bb = true) as ->; [|eauto]. apply TB. intros m Hm. rewrite A4 in Hm. destruct (A5 m Hm) as (Y & _ & _ & [(lo' & hi' & _ & _ & U)|U]).
        + destruct (U n eq_refl) as (u & U1 & U2). rewrite A3 in *. eapply meets_tol; [exact U1|]. apply sqrt_div_lt; try lra; [apply lt_0_INR; lia|].
          assert (HN2 : 0 < INR (s_N s)) by (apply lt_0_INR; lia).
          assert (INR (s_N s) * ((la * dt * (1 - la * dt) ^ n) ^ 2 * box_sq d lo hi) < INR (s_N s) * (INR (s_N s) * tol ^ 2)) by (apply Rmult_lt_compat_l; auto).
          nra.
        + eapply meets_tol; eauto.
      - destruct (Nat.eq_dec j (S n)) as [->|NE].
        + destruct HQ as ((l & EQ) & A1 & A2 & A3 & A4 & A5). cbn [optimize_loop].
          destruct (terminate_total c q (exec_wf _ _ _ EQ) Hks) as (bb & q1 & TE). rewrite TE.
          destruct (terminate_spec c q bb q1 (exec_wf _ _ _ EQ) TE) as (_ & TB & _).
          assert (bb = true) as ->; [|eauto]. apply TB. intros m Hm. rewrite A4 in Hm. destruct (A5 m Hm) as (Y & _ & _ & [(lo' & hi' & _ & _ & U)|U]).
          * destruct (U n eq_refl) as (u & U1 & U2). rewrite A3 in *. eapply meets_tol; [exact U1|]. apply sqrt_div_lt; try lra; [apply lt_0_INR; lia|].
            assert (HN2 : 0 < INR (s_N s)) by (apply lt_0_INR; lia).
            assert (INR (s_N s) * ((la * dt * (1 - la * dt) ^ n) ^ 2 * box_sq d lo hi) < INR (s_N s) * (INR (s_N s) * tol ^ 2)) by (apply Rmult_lt_compat_l; auto).
            nra.
          * eapply meets_tol; eauto.
        + pose proof HQ as ((l & EQ) & A1 & A2 & A3 & A4 & A5). cbn [optimize_loop].
          destruct (terminate_total c q (exec_wf _ _ _ EQ) Hks) as (bb & q1 & TE). rewrite TE. destruct bb; [eauto|].
          destruct (term_keeps _ _ _ _ _ _ _ _ q false q1 TE) as (K0 & K1 & K2 & K3 & K4 & K5 & K6).
          assert (E1 : exec c q1 l) by (eapply ex_term; eauto).
          assert (P1 : perms_valid (os i0) q1) by (apply HO; congruence).
          destruct (exec_step_good c q1 l (os i0) E1 (cbo_plain _ _ _ _ _ _ _ _ _) P1) as (q2 & HS). rewrite HS. cbn [bind].
          destruct (step_keeps _ _ _ _ _ _ _ _ q1 l (os i0) q2 E1 P1 HS) as (L1 & L2 & L3 & _).
          destruct (Hsched q2) as (q3 & Q1 & Q2). { intros m Hm. rewrite L3, K3. apply A1. congruence. }
          rewrite Q1. apply (IH (S j)); try lia. eapply (stop_step (s_N s) (s_M s) j q q1 (os i0) q2 q3); eauto. }
    apply (GEN fuel 0%nat s i HI); lia.
  Qed.

  Theorem diff_tol_terminates : forall s log, exec c s log -> finite_alpha s -> parameters la dt 0 s -> b = s_N s -> in_range os s ->
    (forall m, (m < s_M s)%nat -> exists X, ensemble_at s m d X /\ forall p, In p X -> in_box d lo hi p) ->
    exists n, forall fuel i, (n <= fuel)%nat -> exists s', optimize_loop c (step c) sched os fuel i s = Some (Ok s').
  Proof.
    intros s log E HA HP HB HR HX. pose proof (exec_wf _ _ _ E) as W. assert (HN : (1 <= s_N s)%nat) by apply W.
    assert (HN2 : 0 < INR (s_N s)) by (apply lt_0_INR; lia). pose proof box_sq_nonneg as B0.
    assert (PZ : 0 < INR (s_N s) * tol ^ 2) by (apply Rmult_lt_0_compat; auto; apply pow_lt; auto).
    destruct (pow_lt_1_zero (1 - la * dt)) with (y := INR (s_N s) * tol ^ 2 / (box_sq d lo hi + 1)) as (n & Hn).
    { apply Rabs_def1; lra. } { apply Rdiv_lt_0_compat; lra. }
    exists (S n). intros fuel i Hf. apply (diff_tol_stops s log n); auto.
    specialize (Hn n (le_n n)). assert (R0 : 0 <= (1 - la * dt) ^ n <= 1).
    { split; [apply pow_le; lra|]. assert (G : (1 - la * dt) ^ n <= 1 ^ n) by (apply pow_incr; lra). rewrite pow1 in G. auto. }
    rewrite Rabs_right in Hn by lra. set (r := (1 - la * dt) ^ n) in *.
    assert (Q : r * (box_sq d lo hi + 1) < INR (s_N s) * tol ^ 2).
    { apply (Rmult_lt_reg_r (/ (box_sq d lo hi + 1))); [apply Rinv_0_lt_compat; lra|]. rewrite Rmult_assoc, Rinv_r by lra. rewrite Rmult_1_r. exact Hn. }
    assert (Q2 : (la * dt * r) ^ 2 <= r). { assert (Q3 : la * dt * r <= 1 * r) by (apply Rmult_le_compat_r; lra). assert (Q4 : 0 <= la * dt * r) by (apply Rmult_le_pos; lra).
      set (x := la * dt * r) in *. replace (x ^ 2) with (x * x) by ring. nra. }
    eapply Rle_lt_trans; [|exact Q]. set (x := (la * dt * r) ^ 2) in *. assert (x * box_sq d lo hi <= r * box_sq d lo hi) by (apply Rmult_le_compat_r; auto). lra.
  Qed.
End Stop.
