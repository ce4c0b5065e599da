(** * PSO runs away, CBOMemory stays in the hull *)
From Coq Require Import String List Arith Bool Lia Permutation Reals Lra.
From Verif Require Import Scalar ScalarFacts RFacts Np NpFacts State Pdyn PdynFacts PdynStep PdynRun Exec PdynOk RunFacts StepFrame BestFacts BcFacts HeaviFacts RVec RVecFacts Consensus ConsSpec ConsFacts Polar PolarSpec PolarFacts Cbo CboSpec CboFacts AbsorbFacts Memory MemSpec MemFacts MemFacts2 MemFacts3 MemRaise MemMove MemMove2 MemReal MemRunSpec PolarRestSpec PolarRest PolarCluster MemRun PostProc PostFacts.
Import ListNotations.
Open Scope R_scope.

Lemma ens_nth : forall N d X n, ensemble N d X -> (n < N)%nat -> exists x, nth_error X n = Some x /\ length x = d.
Proof.
  intros N d X n [L H] Hn. destruct (nth_error_lt_Some _ X n) as [x Hx]; [lia|]. exists x. split; auto. apply H. eapply nth_error_In; eauto.
Qed.
Lemma ens_lt : forall N d X n x, ensemble N d X -> nth_error X n = Some x -> (n < N)%nat /\ length x = d.
Proof. intros N d X n x [L H] Hx. split; [rewrite <- L; apply nth_error_Some; congruence|]. apply H. eapply nth_error_In; eauto. Qed.

(** growth of the factor *)
Lemma factor_grows : forall e r s r' la dt mm lm q P, 0 <= e -> 0 <= r -> 1 <= P -> P <= s -> 0 <= la -> 0 <= dt -> 0 <= mm -> 0 <= lm -> 0 < q -> e <= la * dt * dt / q ->
  r' = (mm * dt * r + la * dt * s + lm * dt * (s - 1)) / q -> 0 <= r' /\ (1 + e) * P <= s + dt * r'.
Proof.
  intros e r s r' la dt mm lm q P He Hr HP Hs Hla Hdt Hmm Hlm Hq Hle ->.
  assert (A1 : 0 <= mm * dt * r) by (repeat apply Rmult_le_pos; auto). assert (A2 : 0 <= la * dt) by (apply Rmult_le_pos; auto).
  assert (A3 : 0 <= lm * dt * (s - 1)) by (apply Rmult_le_pos; [apply Rmult_le_pos; auto|lra]).
  assert (A4 : 0 <= la * dt * s) by (apply Rmult_le_pos; lra). assert (Iq : 0 < / q) by (apply Rinv_0_lt_compat; auto).
  split; [apply Rmult_le_pos; lra|].
  replace (s + dt * ((mm * dt * r + la * dt * s + lm * dt * (s - 1)) / q)) with (s + (la * dt * dt / q) * s + dt * ((mm * dt * r + lm * dt * (s - 1)) / q)) by (field; lra).
  assert (A5 : 0 <= dt * ((mm * dt * r + lm * dt * (s - 1)) / q)) by (apply Rmult_le_pos; auto; apply Rmult_le_pos; lra).
  assert (A6 : e * s <= la * dt * dt / q * s) by (apply Rmult_le_compat_r; lra).
  assert (A7 : (1 + e) * P <= (1 + e) * s) by (apply Rmult_le_compat_l; lra). lra.
Qed.
Lemma pow_ge_1 : forall e n, 0 <= e -> 1 <= (1 + e) ^ n.
Proof. intros. apply pow_R1_Rle. lra. Qed.

Section Away.
  Variables (f : vec -> fl R) (k : noise_model) (pp : vec -> vec) (b : nat) (partial cat : bool) (ks : list (crit R vec)) (save : bool).
  Let c := cbo_cfg f k pp NoCorr b partial cat ks save.

  Lemma kept_points : forall m (ms : mst R vec) X, points_at (s_x (m_s ms)) m X -> points_at (m_ev ms) m X -> s_x (m_s ms) = map (map pp) (m_ev ms) ->
    forall x, In x X -> pp (floats x) = floats x.
  Proof.
    intros m ms X H1 H2 H3 x Hx. apply In_nth_error in Hx. destruct Hx as [n Hn].
    assert (C1 := cell_points _ _ _ _ _ H1 Hn). assert (C2 := cell_points _ _ _ _ _ H2 Hn). rewrite H3, cell_map, C2 in C1. cbn [option_map] in C1. injection C1 as C1. exact C1.
  Qed.

  (** ** no memory drift: the differences between the particles grow *)
  Theorem pso_spreads : forall ms m d X e n ms', mem_constructed c ms -> ensemble_at (m_s ms) m d X -> finite_obj d f -> b = s_N (m_s ms) -> 0 <= e ->
    mem_steps Pso (pso_quiet e 0) (untouched m) c d ms n ms' ->
    exists X' s, ensemble_at (m_s ms') m d X' /\ length X' = length X /\ (1 + e) ^ n <= s /\ diffs s X X' /\ ((1 <= n)%nat -> forall x, In x X' -> pp (floats x) = floats x).
  Proof.
    intros ms m d X e n ms' HC HX HF Hb He HS.
    destruct (start_inv f k pp b partial cat ks save ms m d X HC HF HX) as [I0 Hm].
    set (J := fun (n : nat) (X' Y' V' : list (list R)) (er : list (fl R)) => exists r s, 0 <= r /\ (1 + e) ^ n <= s /\ diffs s X X' /\ diffs r X V' /\ ((1 <= n)%nat -> forall x, In x X' -> pp (floats x) = floats x)).
    destruct (mem_steps_inv f k pp b partial cat ks save Pso (pso_quiet e 0) (untouched m) d m ms (mem_evaluated ms) J) with (n := n) (ms' := ms') as (_ & _ & EN & X' & Y' & V' & er' & I1 & r & s & H1 & H2 & H3 & H4 & H5); auto.
    - constructor; auto.
    - intros j ms1 log1 p o z2 ms2 X1 Y1 V1 er1 E1 M1 N1 Hne PV HD HD2 (FA & la & dt & mm & ga & -> & HP & Hla & Hmm & Hq & Hle) Hst HU I1 (r & s & R1 & R2 & R3 & R4 & _).
      destruct (FA m) as (a & Ha); [congruence|].
      destruct (pso_step_real f k pp b partial cat ks save o z2 ms1 log1 ms2 m d X1 Y1 V1 er1 a 0 la dt mm ga E1 PV Hne HD HD2 HF Hst HP) as (X2 & Y2 & V2 & er2 & I2 & PE & G & _); auto; try congruence; try lra.
      exists X2, Y2, V2, er2. split; auto.
      assert (Hdt : 0 <= dt) by apply HP.
      destruct (factor_grows e r s ((mm * dt * r + la * dt * s + 0 * dt * (s - 1)) / (mm + ga * dt)) la dt mm 0 (mm + ga * dt) ((1 + e) ^ j)) as [F1 F2]; auto; try lra. { apply pow_ge_1; auto. }
      set (r' := (mm * dt * r + la * dt * s + 0 * dt * (s - 1)) / (mm + ga * dt)) in *.
      exists r', (s + dt * r'). split; auto. split; [cbn [pow]; exact F2|].
      destruct I0 as [_ EX0 _ _ _ _ _ _]. destruct I1 as [_ EX1 _ EY1 _ EV1 _ _]. destruct I2 as [PX2 EX2 _ EY2 _ EV2 _ _].
      destruct (mem_step_ok _ _ _ _ _ _ _ (mem_exec_wf _ _ _ _ E1) (perms_valid_ok _ _ PV) Hne Hst) as (_ & _ & _ & _ & A5 & _ & _ & _ & _ & _ & A11 & _).
      assert (C : forall n1 n2 x1 x2, nth_error X n1 = Some x1 -> nth_error X n2 = Some x2 ->
        (forall v1 v2, nth_error V2 n1 = Some v1 -> nth_error V2 n2 = Some v2 -> vsub v1 v2 = vscal r' (vsub x1 x2)) /\
        (forall y1 y2, nth_error X2 n1 = Some y1 -> nth_error X2 n2 = Some y2 -> vsub y1 y2 = vscal (s + dt * r') (vsub x1 x2))).
      { intros n1 n2 x1 x2 Q1 Q2. destruct (ens_lt _ _ _ _ _ EX0 Q1) as [L1 D1]. destruct (ens_lt _ _ _ _ _ EX0 Q2) as [L2 D2]. rewrite <- N1 in L1, L2.
        destruct (ens_nth _ _ _ _ EX1 L1) as (p1 & B1 & K1). destruct (ens_nth _ _ _ _ EX1 L2) as (p2 & B2 & K2).
        destruct (ens_nth _ _ _ _ EY1 L1) as (q1 & B3 & K3). destruct (ens_nth _ _ _ _ EY1 L2) as (q2 & B4 & K4).
        destruct (ens_nth _ _ _ _ EV1 L1) as (u1 & B5 & K5). destruct (ens_nth _ _ _ _ EV1 L2) as (u2 & B6 & K6).
        rewrite <- A5 in L1, L2.
        destruct (ens_nth _ _ _ _ EX2 L1) as (y1 & B7 & K7). destruct (ens_nth _ _ _ _ EX2 L2) as (y2 & B8 & K8).
        destruct (ens_nth _ _ _ _ EV2 L1) as (v1 & B9 & K9). destruct (ens_nth _ _ _ _ EV2 L2) as (v2 & B10 & K10).
        assert (D : forall i, coord i v1 - coord i v2 = r' * (coord i x1 - coord i x2) /\ coord i y1 - coord i y2 = (s + dt * r') * (coord i x1 - coord i x2)).
        { intros i. destruct (G _ _ _ _ _ _ B1 B3 B5 B7 B9 i) as [G1 G2]. destruct (G _ _ _ _ _ _ B2 B4 B6 B8 B10 i) as [G3 G4].
          assert (W1 := f_equal (coord i) (R3 _ _ _ _ _ _ Q1 Q2 B1 B2)). assert (W2 := f_equal (coord i) (R4 _ _ _ _ _ _ Q1 Q2 B5 B6)).
          rewrite coord_vscal, !coord_vsub in W1, W2 by congruence.
          assert (Z : coord i v1 - coord i v2 = r' * (coord i x1 - coord i x2)).
          { rewrite G1, G3. unfold r'.
            replace (coord i p1) with (coord i p2 + s * (coord i x1 - coord i x2)) by lra. replace (coord i u1) with (coord i u2 + r * (coord i x1 - coord i x2)) by lra.
            field. lra. }
          split; auto. rewrite G2, G4. replace (coord i p1 + dt * coord i v1 - (coord i p2 + dt * coord i v2)) with ((coord i p1 - coord i p2) + dt * (coord i v1 - coord i v2)) by ring.
          rewrite W1, Z. ring. }
        split; intros w1 w2 S1 S2.
        - assert (w1 = v1) by congruence. assert (w2 = v2) by congruence. subst w1 w2.
          apply (coord_ext _ _ d); [apply length_vsub; auto|rewrite length_vscal; apply length_vsub; auto|]. intros i _. rewrite coord_vscal, !coord_vsub by congruence. apply D.
        - assert (w1 = y1) by congruence. assert (w2 = y2) by congruence. subst w1 w2.
          apply (coord_ext _ _ d); [apply length_vsub; auto|rewrite length_vscal; apply length_vsub; auto|]. intros i _. rewrite coord_vscal, !coord_vsub by congruence. apply D. }
      split; [|split].
      + intros n1 n2 x1 x2 y1 y2 Q1 Q2 Q3 Q4. apply (proj2 (C _ _ _ _ Q1 Q2)); auto.
      + intros n1 n2 x1 x2 y1 y2 Q1 Q2 Q3 Q4. apply (proj1 (C _ _ _ _ Q1 Q2)); auto.
      + intros _. apply (kept_points m ms2 X2); auto.
    - exists X, X, (map (vscal 0) X), (map f (map floats X)). split; auto. exists 0, 1. split; [lra|]. split; [cbn; lra|].
      destruct I0 as [_ EX0 _ _ _ _ _ _]. split; [|split; [|lia]].
      + intros n1 n2 x1 x2 y1 y2 Q1 Q2 Q3 Q4. assert (y1 = x1) by congruence. assert (y2 = x2) by congruence. subst. 
        destruct (ens_lt _ _ _ _ _ EX0 Q1) as [_ D1]. destruct (ens_lt _ _ _ _ _ EX0 Q2) as [_ D2].
        apply (coord_ext _ _ d); [apply length_vsub; auto|rewrite length_vscal; apply length_vsub; auto|]. intros i _. rewrite coord_vscal. ring.
      + intros n1 n2 x1 x2 y1 y2 Q1 Q2 Q3 Q4. rewrite nth_error_map, Q1 in Q3. rewrite nth_error_map, Q2 in Q4. injection Q3 as <-. injection Q4 as <-.
        destruct (ens_lt _ _ _ _ _ EX0 Q1) as [_ D1]. destruct (ens_lt _ _ _ _ _ EX0 Q2) as [_ D2].
        apply (coord_ext _ _ d); [apply length_vsub; rewrite length_vscal; auto|rewrite length_vscal; apply length_vsub; auto|]. intros i _. rewrite coord_vscal, !coord_vsub by (rewrite ?length_vscal; congruence). rewrite !coord_vscal. ring.
    - exists X', s. destruct I1 as [PX EX _ _ _ _ _ _]. split; [split; [exact PX|rewrite EN in *; exact EX]|]. split; auto. rewrite (proj1 EX), EN. symmetry. apply HX.
  Qed.

  (** ** the objective rises away from the consensus point: the particles leave, the memory stays *)
  Theorem pso_leaves : forall ms m d X a e n ms', mem_constructed c ms -> ensemble_at (m_s ms) m d X -> finite_obj d f -> b = s_N (m_s ms) -> 0 <= e ->
    (forall x, In x X -> rising f (gibbs_point a (map f (map floats X)) d X) x) ->
    mem_steps Pso (fun p s => (exists lm, 0 <= lm /\ pso_quiet e lm p s) /\ nth_error (s_alpha s) m = Some [Fin a]) (untouched m) c d ms n ms' ->
    exists X' s, ensemble_at (m_s ms') m d X' /\ points_at (m_y ms') m X /\ (1 + e) ^ n <= s /\
      forall j x x', nth_error X j = Some x -> nth_error X' j = Some x' ->
        vsub x' (gibbs_point a (map f (map floats X)) d X) = vscal s (vsub x (gibbs_point a (map f (map floats X)) d X)).
  Proof.
    intros ms m d X a e n ms' HC HX HF Hb He HR HS. set (g := gibbs_point a (map f (map floats X)) d X) in *.
    assert (Lg : length g = d) by apply gibbs_point_length.
    destruct (start_inv f k pp b partial cat ks save ms m d X HC HF HX) as [I0 Hm].
    set (J := fun (n : nat) (X' Y' V' : list (list R)) (er : list (fl R)) => Y' = X /\ er = map f (map floats X) /\ exists r s, 0 <= r /\ (1 + e) ^ n <= s /\
      (forall j x x' v' i, nth_error X j = Some x -> nth_error X' j = Some x' -> nth_error V' j = Some v' ->
         coord i x' = coord i g + s * (coord i x - coord i g) /\ coord i v' = r * (coord i x - coord i g))).
    destruct (mem_steps_inv f k pp b partial cat ks save Pso (fun p s => (exists lm, 0 <= lm /\ pso_quiet e lm p s) /\ nth_error (s_alpha s) m = Some [Fin a]) (untouched m) d m ms (mem_evaluated ms) J) with (n := n) (ms' := ms')
      as (_ & _ & EN & X' & Y' & V' & er' & I1 & EQ1 & EQ2 & r & s & H1 & H2 & H3); auto; [| | |subst Y' er'].
    - constructor; auto.
    - intros j ms1 log1 p o z2 ms2 X1 Y1 V1 er1 E1 M1 N1 Hne PV HD HD2 ((lm & Hlm & FA & la & dt & mm & ga & -> & HP & Hla & Hmm & Hq & Hle) & Ha) Hst HU I1 (EQ1 & EQ2 & r & s & R1 & R2 & R3). subst Y1 er1.
      destruct (pso_step_real f k pp b partial cat ks save o z2 ms1 log1 ms2 m d X1 X V1 (map f (map floats X)) a lm la dt mm ga E1 PV Hne HD HD2 HF Hst HP) as (X2 & Y2 & V2 & er2 & I2 & PE & G & GM); auto; try congruence; try lra.
      fold g in G. exists X2, Y2, V2, er2. split; auto.
      assert (Hdt : 0 <= dt) by apply HP.
      destruct (factor_grows e r s ((mm * dt * r + la * dt * s + lm * dt * (s - 1)) / (mm + ga * dt)) la dt mm lm (mm + ga * dt) ((1 + e) ^ j)) as [F1 F2]; auto; try lra. { apply pow_ge_1; auto. }
      set (r' := (mm * dt * r + la * dt * s + lm * dt * (s - 1)) / (mm + ga * dt)) in *.
      assert (S1 : 1 <= s + dt * r'). { assert (Q := pow_ge_1 e (S j) He). cbn [pow] in Q. lra. }
      pose proof (pi_xe _ _ _ _ _ _ _ I0) as EX0. pose proof (pi_xe _ _ _ _ _ _ _ I1) as EX1. pose proof (pi_ve _ _ _ _ _ _ _ I1) as EV1. pose proof (pi_xe _ _ _ _ _ _ _ I2) as EX2. pose proof (pi_ye _ _ _ _ _ _ _ I2) as EY2. pose proof (pi_ve _ _ _ _ _ _ _ I2) as EV2. pose proof (pi_e _ _ _ _ _ _ _ I2) as PE2.
      pose proof (mem_exec_wf _ _ _ _ E1) as W1.
      destruct (mem_step_ok _ _ _ _ _ _ _ W1 (perms_valid_ok _ _ PV) Hne Hst) as (_ & _ & A3 & A4 & A5 & _).
      assert (Le : length er2 = s_N (m_s ms)). { pose proof (w_e _ _ (mw_s _ _ A3)) as Re'. rewrite (proj2 Re' _ _ PE2). congruence. }
      rewrite A5, N1 in EX2, EY2, EV2. rewrite N1 in EX1, EV1.
      assert (D : forall q x x' v' i, nth_error X q = Some x -> nth_error X2 q = Some x' -> nth_error V2 q = Some v' ->
         coord i x' = coord i g + (s + dt * r') * (coord i x - coord i g) /\ coord i v' = r' * (coord i x - coord i g)).
      { intros q x x' v' i Q1 Q2 Q3. destruct (ens_lt _ _ _ _ _ EX0 Q1) as [L1 D1].
        destruct (ens_nth _ _ _ _ EX1 L1) as (p1 & B1 & K1). destruct (ens_nth _ _ _ _ EV1 L1) as (u1 & B5 & K5).
        destruct (G _ _ _ _ _ _ B1 Q1 B5 Q2 Q3 i) as [G1 G2]. destruct (R3 _ _ _ _ i Q1 B1 B5) as [T1 T2].
        assert (Z : coord i v' = r' * (coord i x - coord i g)). { rewrite G1, T1, T2. unfold r'. field. lra. }
        split; auto. rewrite G2, Z, T1. ring. }
      assert (MM : forall q x, nth_error X q = Some x -> nth_error Y2 q = Some x /\ nth_error er2 q = Some (f (floats x))).
      { intros q x Q. destruct (ens_lt _ _ _ _ _ EX0 Q) as [L1 D1]. destruct (ens_nth _ _ _ _ EX2 L1) as (x' & B1 & K1). destruct (ens_nth _ _ _ _ EV2 L1) as (v' & B2 & K2).
        destruct (HR x (nth_error_In _ _ Q) _ S1) as (u & w & U1 & U2 & U3).
        assert (Ex : x' = vadd g (vscal (s + dt * r') (vsub x g))).
        { assert (Lxg : length (vsub x g) = d) by (apply length_vsub; auto). apply (coord_ext _ _ d); auto; [apply length_vadd; auto; rewrite length_vscal; auto|]. intros i _. rewrite coord_vadd, coord_vscal, coord_vsub by (rewrite ?length_vscal; congruence).
          apply (D q x x' v' i Q B1 B2). }
        rewrite <- Ex in U2. destruct (GM q x x' u w Q B1) as [Y1' Y2']; auto. { rewrite !nth_error_map, Q. cbn [option_map]. f_equal. auto. }
        assert (Z : Rltb w u = false) by (apply Rltb_false; lra). rewrite Z in Y1', Y2'. rewrite U1. auto. }
      split. { apply nth_error_ext. intros q. destruct (nth_error X q) as [x|] eqn:Q; [apply (MM _ _ Q)|]. apply nth_error_None in Q. apply nth_error_None. rewrite (proj1 EY2). rewrite (proj1 EX0) in Q. auto. }
      split. { apply nth_error_ext. intros q. rewrite !nth_error_map. destruct (nth_error X q) as [x|] eqn:Q; [apply (MM _ _ Q)|]. apply nth_error_None in Q. apply nth_error_None. rewrite (proj1 EX0) in Q. lia. }
      exists r', (s + dt * r'). split; auto.
    - exists X, X, (map (vscal 0) X), (map f (map floats X)). split; auto. split; auto. split; auto. exists 0, 1. split; [lra|]. split; [cbn; lra|].
      intros j x x' v' i Q1 Q2 Q3. assert (x' = x) by congruence. subst x'. rewrite nth_error_map, Q1 in Q3. injection Q3 as <-. rewrite coord_vscal. split; ring.
    - exists X', s. destruct I1 as [PX EX PY _ _ EV _ _]. rewrite EN in EX, EV. split; [split; [exact PX|rewrite EN; exact EX]|]. split; auto. split; auto.
      intros j x x' Q1 Q2. destruct HX as [_ EX0]. destruct (ens_lt _ _ _ _ _ EX0 Q1) as [L1 D1]. destruct (ens_lt _ _ _ _ _ EX Q2) as [_ D2]. destruct (ens_nth _ _ _ _ EV L1) as (v' & B2 & K2).
      apply (coord_ext _ _ d); [apply length_vsub; auto|rewrite length_vscal; apply length_vsub; auto|]. intros i _. rewrite coord_vscal, !coord_vsub by congruence.
      destruct (H3 _ _ _ _ i Q1 Q2 B2) as [T _]. rewrite T. ring.
  Qed.
End Away.

(** ** the default post-processing: the run reaches the clipping bound *)
Lemma pp_fixed_bound : forall t x i, 0 <= t -> pp_point t false (floats x) = floats x -> Rabs (coord i x) <= t.
Proof.
  intros t x i Ht H. unfold pp_point, floats in H. rewrite map_map in H. revert i. induction x as [|a x IH]; intros i.
  - unfold coord. destruct i; cbn; rewrite Rabs_R0; auto.
  - cbn [map] in H. injection H as H1 H2. destruct i as [|i]; [|apply (IH H2)].
    unfold pp_default, nan_to_num in H1. rewrite np_clip_fin in H1 by auto. injection H1 as H1. unfold coord. cbn [nth].
    assert (B := Rmax_l (- t) (Rmin t a)). assert (C : Rmax (- t) (Rmin t a) <= t) by (apply Rmax_lub; [lra|apply Rmin_l]). rewrite H1 in B, C. apply Rabs_le. lra.
Qed.

Theorem pso_clips : forall f k t b partial cat ks save ms m d X e x1 x2, let c := cbo_cfg f k (pp_point t false) NoCorr b partial cat ks save in
  mem_constructed c ms -> ensemble_at (m_s ms) m d X -> finite_obj d f -> b = s_N (m_s ms) -> 0 <= t -> 0 < e -> In x1 X -> In x2 X -> x1 <> x2 ->
  exists n0, forall n ms', mem_steps Pso (pso_quiet e 0) (untouched m) c d ms n ms' -> (n <= n0)%nat.
Proof.
  intros f k t b partial cat ks save ms m d X e x1 x2 c HC HX HF Hb Ht He H1 H2 Hneq.
  assert (L1 : length x1 = d) by (apply HX; auto). assert (L2 : length x2 = d) by (apply HX; auto).
  assert (Hi : exists i, coord i x1 - coord i x2 <> 0).
  { destruct (Classical_Prop.classic (exists i, coord i x1 - coord i x2 <> 0)) as [Q|Q]; auto. exfalso. apply Hneq. apply (coord_ext _ _ d); auto.
    intros i _. destruct (Req_dec (coord i x1 - coord i x2) 0) as [Z|Z]; [lra|]. exfalso. apply Q. eauto. }
  destruct Hi as (i & Hi). set (D := Rabs (coord i x1 - coord i x2)). assert (HD : 0 < D) by (apply Rabs_pos_lt; auto).
  destruct (Pow_x_infinity (1 + e)) with (b := (2 * t + 1) / D) as (n0 & Hn0). { rewrite Rabs_right; lra. }
  exists n0. intros n ms' HS. destruct (Nat.le_gt_cases n n0) as [Q|Q]; auto. exfalso.
  destruct (pso_spreads f k (pp_point t false) b partial cat ks save ms m d X e n ms' HC HX HF Hb (Rlt_le _ _ He) HS) as (X' & s & E1 & EN & E2 & E3 & E4).
  specialize (E4 ltac:(lia)). apply In_nth_error in H1, H2. destruct H1 as [n1 H1]. destruct H2 as [n2 H2].
  destruct (nth_error_lt_Some _ X' n1) as [y1 Y1]; [rewrite EN; apply nth_error_Some; congruence|]. destruct (nth_error_lt_Some _ X' n2) as [y2 Y2]; [rewrite EN; apply nth_error_Some; congruence|].
  assert (B1 := pp_fixed_bound t y1 i Ht (E4 _ (nth_error_In _ _ Y1))). assert (B2 := pp_fixed_bound t y2 i Ht (E4 _ (nth_error_In _ _ Y2))).
  assert (Z := f_equal (coord i) (E3 _ _ _ _ _ _ H1 H2 Y1 Y2)).
  destruct (ens_lt _ _ _ _ _ (proj2 E1) Y1) as [_ K1]. destruct (ens_lt _ _ _ _ _ (proj2 E1) Y2) as [_ K2].
  rewrite coord_vscal, !coord_vsub in Z by congruence.
  assert (Z2 : Rabs (coord i y1 - coord i y2) = s * D). { rewrite Z, Rabs_mult. f_equal. assert (P := pow_ge_1 e n (Rlt_le _ _ He)). apply Rabs_right. lra. }
  assert (Z3 : Rabs (coord i y1 - coord i y2) <= 2 * t). { apply Rle_trans with (1 := Rabs_triang (coord i y1) (- coord i y2)). rewrite Rabs_Ropp. lra. }
  specialize (Hn0 n ltac:(lia)). assert (P := pow_ge_1 e n (Rlt_le _ _ He)). rewrite Rabs_right in Hn0 by lra.
  assert (Z4 : 2 * t + 1 <= s * D). { replace (2 * t + 1) with ((2 * t + 1) / D * D) by (field; lra). apply Rmult_le_compat_r; lra. } lra.
Qed.
