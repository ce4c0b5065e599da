(** * Convexity and noise-free CBO *)
From Coq Require Import List Arith Bool Reals Lia Lra.
From Verif Require Import Scalar Np NpFacts RFacts State Pdyn PdynFacts PdynStep PdynRun PdynOk Exec RunFacts MoveFacts RVec RVecFacts Consensus ConsSpec ConsFacts PostProc Cbo CboSpec CboFacts AbsorbFacts
  ProxSpec ProxFacts ConvSpec.
Import ListNotations.
Open Scope R_scope.

Definition bary (d : nat) (ps : list (R * list R)) : list R :=
  map (fun i => Rsum (map (fun q => fst q * coord i (snd q)) ps) / Rsum (map fst ps)) (seq 0 d).
Lemma bary_length : forall d ps, length (bary d ps) = d.
Proof. intros. unfold bary. rewrite map_length, seq_length. auto. Qed.
Lemma bary_coord : forall d ps i, (i < d)%nat -> coord i (bary d ps) = Rsum (map (fun q => fst q * coord i (snd q)) ps) / Rsum (map fst ps).
Proof. intros. unfold bary, coord. rewrite nth_map_seq by auto. auto. Qed.
Lemma mix_length : forall t p q d, length p = d -> length q = d -> length (mix t p q) = d.
Proof. intros. unfold mix. apply length_vadd; rewrite length_vscal; auto. Qed.
Lemma mix_coord : forall t p q d i, length p = d -> length q = d -> coord i (mix t p q) = (1 - t) * coord i p + t * coord i q.
Proof. intros. unfold mix. rewrite coord_vadd by (rewrite !length_vscal; congruence). rewrite !coord_vscal. auto. Qed.

Lemma convex_bary : forall d C, convex_set d C -> forall ps, (forall q, In q ps -> 0 <= fst q /\ (0 < fst q -> C (snd q)) /\ length (snd q) = d) ->
  0 < Rsum (map fst ps) -> C (bary d ps).
Proof.
  intros d C HC ps. induction ps as [|(w, p) ps IH]; intros H HS. cbn in HS. lra.
  assert (H1 : forall q, In q ps -> 0 <= fst q /\ (0 < fst q -> C (snd q)) /\ length (snd q) = d) by (intros; apply H; cbn; auto).
  destruct (H (w, p)) as (Hw & Cp & Lp); [cbn; auto|]. cbn [fst snd] in *.
  set (S := Rsum (map fst ps)). cbn [map fst] in HS. rewrite Rsum_cons in HS. fold S in HS.
  assert (S0 : 0 <= S) by (apply Rsum_map_nonneg; intros q Hq; apply H1; auto).
  destruct (Req_dec S 0) as [HS0|HS0].
  - assert (Z : forall q, In q ps -> fst q = 0).
    { intros q Hq. destruct (Rle_lt_or_eq_dec 0 (fst q)) as [Q|Q]; auto. apply H1; auto. exfalso.
      assert (0 < S); [|lra]. apply (Rsum_map_pos _ fst ps q); auto. intros; apply H1; auto. }
    replace (bary d ((w, p) :: ps)) with p. apply Cp; lra.
    apply (coord_ext _ _ d); auto. apply bary_length. intros i Hi. rewrite bary_coord by auto. cbn [map fst snd]. rewrite !Rsum_cons. fold S. rewrite HS0.
    rewrite (Rsum_map_0 _ (fun q => fst q * coord i (snd q))) by (intros q Hq; rewrite (Z q Hq); ring). field. lra.
  - assert (SP : 0 < S) by lra. specialize (IH H1 SP). destruct (Rle_lt_or_eq_dec 0 w Hw) as [W|W].
    + assert (HT : 0 <= S / (w + S) <= 1).
      { split. apply Rmult_le_pos; [lra|left; apply Rinv_0_lt_compat; lra]. apply (Rmult_le_reg_r (w + S)); [lra|]. unfold Rdiv. rewrite Rmult_assoc, Rinv_l; lra. }
      replace (bary d ((w, p) :: ps)) with (mix (S / (w + S)) p (bary d ps)). { apply HC; auto. apply bary_length. }
      apply (coord_ext _ _ d). apply mix_length; auto. apply bary_length. apply bary_length.
      intros i Hi. rewrite (mix_coord _ _ _ d) by (auto; apply bary_length). rewrite !bary_coord by auto. cbn [map fst snd]. rewrite !Rsum_cons. fold S. field. lra.
    + replace (bary d ((w, p) :: ps)) with (bary d ps); auto. unfold bary. cbn [map fst snd]. rewrite Rsum_cons. apply map_ext. intros i. rewrite Rsum_cons, <- W. f_equal; [ring|f_equal; fold S; ring].
Qed.

Lemma gibbs_bary : forall a E d X, length X = length E -> gibbs_point a E d X = bary d (combine (map (gibbs a) E) X).
Proof.
  intros a E d X HL. unfold gibbs_point, bary. apply map_ext. intros i. unfold gibbs_mean. f_equal.
  - f_equal. clear - HL. revert X HL. induction E as [|e E IH]; intros [|x X] HL; try discriminate; auto. cbn. f_equal. apply IH. auto.
  - f_equal. f_equal. clear - HL. revert X HL. induction E as [|e E IH]; intros [|x X] HL; try discriminate; auto. cbn. f_equal. apply IH. auto.
Qed.
Lemma gibbs_nonneg : forall a e, 0 <= gibbs a e.
Proof. intros a []; cbn; try lra. left. apply exp_pos. Qed.

(** the consensus is in every convex set that holds the particles of finite energy *)
Theorem gibbs_convex : forall a E d X C, admissible a E -> ensemble (length E) d X -> convex_set d C ->
  (forall n e p, nth_error E n = Some (Fin e) -> nth_error X n = Some p -> C p) -> C (gibbs_point a E d X).
Proof.
  intros a E d X C HA [HL HX] HC H. rewrite gibbs_bary by auto. apply convex_bary; auto.
  - intros (w, p) Hq. apply In_nth_error in Hq. destruct Hq as (n & Hn).
    assert (HN : exists e, nth_error E n = Some e /\ w = gibbs a e /\ nth_error X n = Some p).
    { clear - Hn. revert E X Hn. induction n as [|n IH]; intros [|e E] [|x X] Hn; try discriminate; cbn in *. injection Hn as <- <-. eauto. apply IH in Hn. exact Hn. }
    destruct HN as (e & H1 & -> & H2). cbn [fst snd]. split; [apply gibbs_nonneg|]. split; [|apply HX; eapply nth_error_In; eauto].
    intros Hw. destruct e as [x| | |]; cbn in Hw; try lra. eauto.
  - replace (map fst (combine (map (gibbs a) E) X)) with (map (gibbs a) E). apply gsum_pos; auto.
    clear - HL. revert X HL. induction E as [|e E IH]; intros [|x X] HL; try discriminate; auto. cbn. f_equal. apply IH. auto.
Qed.

Lemma quasi_level : forall d g r, quasiconvex d g -> convex_set d (fun p => g p <= r).
Proof. intros d g r H p q t Lp Lq Hp Hq Ht. eapply Rle_trans; [apply H; auto|]. apply Rmax_lub; auto. Qed.
Lemma convex_quasi : forall d g, convex_fun d g -> quasiconvex d g.
Proof.
  intros d g H p q t Lp Lq Ht. eapply Rle_trans; [apply H; auto|]. pose proof (Rmax_l (g p) (g q)). pose proof (Rmax_r (g p) (g q)). nra.
Qed.

(** the Gibbs mean of the energies does not grow with alpha *)
Lemma cross_sum : forall (w : R -> R) k l, Rsum (map (fun e => Rsum (map (fun h => w e * k h) l)) l) = Rsum (map w l) * Rsum (map k l).
Proof. intros. rewrite (Rsum_map_ext _ _ (fun e => Rsum (map k l) * w e)). rewrite Rsum_map_scal. ring. intros e _. rewrite Rsum_map_scal. ring. Qed.
Theorem gibbs_energy_mono : forall a b E, E <> [] -> a <= b -> gibbs_energy b E <= gibbs_energy a E.
Proof.
  intros a b E HE Hab. unfold gibbs_energy.
  assert (P : forall a, 0 < Rsum (map (fun e => exp (- a * e)) E)).
  { intros c. destruct E as [|e E]; [congruence|]. apply (Rsum_map_pos _ (fun e => exp (- c * e)) (e :: E) e). intros; left; apply exp_pos. cbn; auto. apply exp_pos. }
  pose proof (P a) as Pa. pose proof (P b) as Pb.
  set (A0 := Rsum (map (fun e => exp (- a * e)) E)) in *. set (B0 := Rsum (map (fun e => exp (- b * e)) E)) in *.
  set (A1 := Rsum (map (fun e => exp (- a * e) * e) E)). set (B1 := Rsum (map (fun e => exp (- b * e) * e) E)).
  assert (K : 0 <= A1 * B0 - A0 * B1).
  { assert (K2 : 0 <= Rsum (map (fun e => Rsum (map (fun h => exp (- a * e) * exp (- a * h) * ((e - h) * (exp (- (b - a) * h) - exp (- (b - a) * e)))) E)) E)).
    { apply Rsum_map_nonneg. intros e _. apply Rsum_map_nonneg. intros h _. apply Rmult_le_pos. left. apply Rmult_lt_0_compat; apply exp_pos.
      destruct (Rle_dec h e) as [L|L].
      - apply Rmult_le_pos; [lra|]. assert (- (b - a) * e <= - (b - a) * h) by nra. assert (exp (- (b - a) * e) <= exp (- (b - a) * h)); [|lra].
        destruct H as [H|H]; [left; apply exp_increasing; auto|rewrite H; lra].
      - assert (- (b - a) * h <= - (b - a) * e) by nra. assert (exp (- (b - a) * h) <= exp (- (b - a) * e)).
        { destruct H as [H|H]; [left; apply exp_increasing; auto|rewrite H; lra]. } nra. }
    assert (X : forall h, exp (- a * h) * exp (- (b - a) * h) = exp (- b * h)) by (intros h; rewrite <- exp_plus; f_equal; ring).
    rewrite (Rsum_map_ext _ _ (fun e => Rsum (map (fun h => (exp (- a * e) * e) * exp (- b * h)) E) - Rsum (map (fun h => exp (- a * e) * (exp (- b * h) * h)) E)
        - Rsum (map (fun h => (exp (- b * e) * e) * exp (- a * h)) E) + Rsum (map (fun h => exp (- b * e) * (exp (- a * h) * h)) E))) in K2.
    2:{ intros e _. rewrite <- !Rsum_map_minus, <- Rsum_map_plus. apply Rsum_map_ext. intros h _. rewrite <- !X. ring. }
    rewrite Rsum_map_plus, !Rsum_map_minus in K2.
    rewrite (cross_sum (fun e => exp (- a * e) * e) (fun h => exp (- b * h))) in K2.
    rewrite (cross_sum (fun e => exp (- a * e)) (fun h => exp (- b * h) * h)) in K2.
    rewrite (cross_sum (fun e => exp (- b * e) * e) (fun h => exp (- a * h))) in K2.
    rewrite (cross_sum (fun e => exp (- b * e)) (fun h => exp (- a * h) * h)) in K2. fold A0 A1 B0 B1 in K2. lra. }
  apply (Rmult_le_reg_r (A0 * B0)); [apply Rmult_lt_0_compat; auto|].
  replace (B1 / B0 * (A0 * B0)) with (A0 * B1) by (field; lra). replace (A1 / A0 * (A0 * B0)) with (A1 * B0) by (field; lra). lra.
Qed.

(** Jensen *)
Theorem gibbs_jensen : forall a d X g, X <> [] -> (forall p, In p X -> length p = d) -> convex_fun d g ->
  g (gibbs_point a (map (fun p => Fin (g p)) X) d X) <= gibbs_energy a (map g X).
Proof.
  intros a d X g HX HL HG.
  (* the epigraph in dimension d + 1 *)
  set (epi := fun u : list R => g (firstn d u) <= coord d u).
  assert (HE : convex_set (d + 1) epi).
  { intros p q t Lp Lq Hp Hq Ht. unfold epi in *. rewrite (mix_coord _ _ _ (d + 1)) by auto.
    replace (firstn d (mix t p q)) with (mix t (firstn d p) (firstn d q)).
    - eapply Rle_trans; [apply HG; auto; rewrite firstn_length; lia|]. nra.
    - assert (Lpf : length (firstn d p) = d) by (rewrite firstn_length; lia). assert (Lqf : length (firstn d q) = d) by (rewrite firstn_length; lia).
      apply (coord_ext _ _ d). apply mix_length; auto. rewrite firstn_length, (mix_length t p q (d + 1)) by auto. lia.
      intros i Hi. rewrite (mix_coord _ _ _ d) by auto.
      assert (FN : forall u : list R, coord i (firstn d u) = coord i u).
      { intros u. unfold coord. clear - Hi. revert d u Hi. induction i as [|i IH]; intros [|d] [|x u] Hi; try lia; auto. cbn. apply IH. lia. }
      rewrite !FN. rewrite (mix_coord _ _ _ (d + 1)) by auto. auto. }
  set (ps := map (fun p => (exp (- a * g p), p ++ [g p])) X).
  assert (HB : epi (bary (d + 1) ps)).
  { apply convex_bary; auto.
    - intros q Hq. apply in_map_iff in Hq. destruct Hq as (p & <- & Hp). cbn [fst snd]. split; [left; apply exp_pos|]. split; [|rewrite app_length, (HL p Hp); auto].
      intros _. unfold epi. rewrite firstn_app, (HL p Hp), Nat.sub_diag. cbn [firstn]. rewrite app_nil_r. rewrite <- (HL p Hp), firstn_all.
      unfold coord. rewrite app_nth2, Nat.sub_diag by lia. cbn. lra.
    - destruct X as [|x X']; [congruence|]. apply (Rsum_map_pos _ fst ps (exp (- a * g x), x ++ [g x])). { intros q Hq. apply in_map_iff in Hq. destruct Hq as (p & <- & _). left. apply exp_pos. } cbn; auto. apply exp_pos. }
  unfold epi in HB. rewrite bary_coord in HB by lia.
  assert (S0 : Rsum (map fst ps) = Rsum (map (fun e => exp (- a * e)) (map g X))) by (unfold ps; rewrite !map_map; auto).
  replace (gibbs_energy a (map g X)) with (Rsum (map (fun q => fst q * coord d (snd q)) ps) / Rsum (map fst ps)).
  - replace (gibbs_point a (map (fun p => Fin (g p)) X) d X) with (firstn d (bary (d + 1) ps)); auto.
    rewrite gibbs_bary by (rewrite map_length; auto). unfold bary at 1. rewrite firstn_map.
    replace (firstn d (seq 0 (d + 1))) with (seq 0 d). 2:{ rewrite seq_app, firstn_app, seq_length, Nat.sub_diag. cbn [firstn]. rewrite app_nil_r. symmetry. rewrite <- (seq_length d 0) at 1. apply firstn_all. }
    unfold bary. apply map_ext_in. intros i Hi. apply in_seq in Hi. f_equal.
    + f_equal. rewrite (map_map (fun p => Fin (g p))). unfold ps. rewrite map_map. clear - HL Hi. induction X as [|x X IH]; auto. cbn [map combine fst snd]. f_equal; [|apply IH; intros; apply HL; cbn; auto].
      f_equal. unfold coord. apply app_nth1. rewrite HL by (cbn; auto). lia.
    + f_equal. rewrite (map_map (fun p => Fin (g p))). unfold ps. rewrite map_map. clear. induction X as [|x X IH]; auto. cbn [map combine fst]. f_equal. apply IH.
  - unfold gibbs_energy. rewrite S0. f_equal. f_equal. unfold ps. rewrite !map_map. apply map_ext_in. intros p Hp. cbn [fst snd]. unfold coord. rewrite app_nth2, (HL p Hp), Nat.sub_diag by (rewrite (HL p Hp); lia). auto.
Qed.

Lemma quiet_move : forall k la dt cp x z d, length cp = d -> length x = d -> length z = d -> rmove k la dt 0 cp x z = mix (la * dt) x cp.
Proof.
  intros k la dt cp x z d Hc Hx Hz. apply (coord_ext _ _ d). apply length_rmove; auto. apply mix_length; auto.
  intros i Hi. rewrite (coord_rmove _ _ _ _ _ _ _ _ d), (mix_coord _ _ _ d) by auto. ring.
Qed.

Section Run.
  Variables (f : vec -> fl R) (k : noise_model) (pp : vec -> vec) (b : nat) (partial cat : bool) (ks : list (crit R vec)) (save : bool).
  Let c := cbo_cfg f k pp NoCorr b partial cat ks save.
  Variables (C : list R -> Prop) (d : nat).
  Hypotheses (HC : convex_set d C) (Hpp : keeps_in C d pp) (HF : finite_obj d f).

  Lemma convex_step : forall s log o s' m, exec c s log -> perms_valid o s -> finite_draws d o -> finite_alpha s -> quiet s ->
    step c o s = Ok s' -> run_in C s m d -> run_in C s' m d.
  Proof.
    intros s log o s' m E P HD HA (la & dt & HP & Hl) HS (X & [HX1 HX2] & HXC).
    pose proof (exec_wf _ _ _ E) as W. destruct (step_keeps _ _ _ _ _ _ _ _ s log o s' E P HS) as (K1 & K2 & _).
    assert (Hlt : (m < s_M s)%nat). { rewrite <- (proj1 (w_x _ _ W)). eapply nth_error_lt; eauto. }
    assert (Q : exists xr', nth_error (s_x s') m = Some xr' /\ length xr' = length X /\ forall u, In u xr' -> exists q, u = floats q /\ (length q = d /\ C q)).
    { destruct (in_dec Nat.eq_dec m (s_active s)) as [Hm|Hm].
      - destruct (In_nth_error _ _ Hm) as (kk & Hkk). destruct (HA m Hlt) as (a & Ha).
        destruct (step_positions c s log o s' kk m _ (Fin a) E P (cbo_one_point _ _ _ _ _ _ _ _) eq_refl HS Hkk HX1 Ha)
          as (xb & cp & xr' & HB & HN & HI & HC' & Hx' & HL & HU & _).
        destruct (choose_points (fun q => In q X) xb) as (Xb & -> & HXb).
        { intros u Hu. apply HI in Hu. apply in_map_iff in Hu. destruct Hu as (q & <- & Hq). eauto. }
        assert (HL2 : (1 <= length Xb)%nat) by (destruct Xb; [exfalso; apply HN; reflexivity|cbn; lia]).
        assert (Hd : forall q, In q Xb -> length q = d) by (intros q Hq; apply HX2; auto).
        rewrite (ccrow_finite f k pp b partial cat ks save d) in HC' by auto. injection HC' as <-.
        set (cp := gibbs_point a (map f (map floats Xb)) d Xb) in *.
        assert (Lc : length cp = d) by apply gibbs_point_length.
        assert (Cc : C cp).
        { apply gibbs_convex; auto. eapply finite_admissible; eauto. split; [rewrite !map_length; auto|auto].
          intros n e p _ Hn. apply HXC, HXb. eapply nth_error_In; eauto. }
        exists xr'. split; auto. split; [rewrite HL, map_length; auto|]. intros u Hu. apply In_nth_error in Hu. destruct Hu as (n & Hn).
        destruct (nth_error X n) as [x|] eqn:En.
        2:{ apply nth_error_None in En. apply nth_error_lt in Hn. rewrite HL, map_length in Hn. lia. }
        assert (Hx : nth_error (map floats X) n = Some (floats x)) by (rewrite nth_error_map, En; auto).
        destruct (HU n (floats x) Hx) as (v' & Hv' & Hor). rewrite Hn in Hv'. injection Hv' as ->.
        apply nth_error_In in En. assert (Lx : length x = d) by (apply HX2; auto).
        destruct Hor as [->|(i & ->)].
        + cbn [c cbo_cfg c_pp]. destruct (Hpp x Lx) as (q & -> & H1 & H2); eauto.
        + destruct (HD kk i) as (z & -> & Lz). rewrite (moved_floats f k pp b partial cat ks save s la dt 0) by auto. cbn [c cbo_cfg c_pp].
          rewrite (quiet_move _ _ _ _ _ _ d) by auto.
          destruct (Hpp (mix (la * dt) x cp)) as (q & -> & H1 & H2); [apply mix_length; auto|apply HC; auto|eauto].
      - exists (map pp (map floats X)). split; [exact (step_positions_inactive c s log o s' m _ E P (cbo_plain _ _ _ _ _ _ _ _ _) HS Hm HX1)|].
        split; [rewrite !map_length; auto|]. intros u Hu. rewrite map_map in Hu. apply in_map_iff in Hu. destruct Hu as (x & <- & Hx).
        destruct (Hpp x) as (q & -> & H1 & H2); auto; [apply HX2; auto|]. eauto. }
    destruct Q as (xr' & Q1 & Q2 & Q3). destruct (choose_points _ xr' Q3) as (Y & -> & HY). exists Y. split.
    - split; auto. split; [rewrite map_length in Q2; rewrite K2, Q2; apply HX2|]. intros q Hq. apply HY; auto.
    - intros q Hq. apply HY; auto.
  Qed.

  Lemma quietly_keep : forall s log s', exec c s log -> finite_alpha s -> quiet s -> quietly c d s s' ->
    (exists log', exec c s' log') /\ finite_alpha s' /\ quiet s'.
  Proof.
    intros s log s' E HA HP H. induction H as [|s1 o s2 H IH P HD HS|s1 b' s2 H IH HT|s1 s2 H IH HCh A2 P2|s1 H IH].
    - eauto.
    - destruct IH as ((l & E1) & A1 & (la & dt & P1 & L1)). destruct (step_keeps _ _ _ _ _ _ _ _ s1 l o s2 E1 P HS) as (K1 & K2 & K3 & K4 & K5 & K6 & K7).
      split; [eexists; eapply ex_step; eauto|]. split; [intros i Hi; rewrite K3; apply A1; congruence|].
      exists la, dt. split; auto. unfold parameters in *; rewrite K4, K5, K6; auto.
    - destruct IH as ((l & E1) & A1 & (la & dt & P1 & L1)). destruct (term_keeps _ _ _ _ _ _ _ _ s1 b' s2 HT) as (K0 & K1 & K2 & K3 & K4 & K5 & K6).
      split; [eexists; eapply ex_term; eauto|]. split; [intros i Hi; rewrite K3; apply A1; congruence|].
      exists la, dt. split; auto. unfold parameters in *; rewrite K4, K5, K6; auto.
    - destruct IH as ((l & E1) & _ & _). split; [eexists; eapply ex_params; eauto|]. auto.
    - destruct IH as ((l & E1) & A1 & (la & dt & P1 & L1)). destruct (reset_keeps s1) as (K0 & K1 & K2 & K3 & K4 & K5 & K6).
      split; [eexists; eapply ex_reset; eauto|]. split; [intros i Hi; rewrite K3; apply A1; congruence|].
      exists la, dt. auto.
  Qed.

  Theorem convex_invariant : forall s log s' m, exec c s log -> finite_alpha s -> quiet s -> run_in C s m d -> quietly c d s s' -> run_in C s' m d.
  Proof.
    intros s log s' m E HA HP H HL. induction HL as [|s1 o s2 HL IH P HD HS|s1 b' s2 HL IH HT|s1 s2 HL IH HCh A2 P2|s1 HL IH]; auto.
    - destruct (quietly_keep s log s1 E HA HP HL) as ((l & E1) & A1 & P1). eapply convex_step; eauto.
    - destruct (term_keeps _ _ _ _ _ _ _ _ s1 b' s2 HT) as (K0 & K1 & K2 & _). eapply run_in_x; eauto.
    - destruct (params_keep _ _ HCh) as (K0 & K1 & K2). eapply run_in_x; eauto.
  Qed.
End Run.

(** the largest energy of a run does not grow *)
Theorem worst_energy : forall f k pp b partial cat ks save g d,
  let c := cbo_cfg f k pp NoCorr b partial cat ks save in
  quasiconvex d g -> objective_is d f g -> (forall q, length q = d -> exists p, pp (floats q) = floats p /\ length p = d /\ g p <= g q) ->
  forall s log s' m X r, exec c s log -> finite_alpha s -> quiet s -> ensemble_at s m d X -> (forall p, In p X -> g p <= r) -> quietly c d s s' ->
  exists Y, ensemble_at s' m d Y /\ forall p, In p Y -> g p <= r.
Proof.
  intros f k pp b partial cat ks save g d c HG HF Hpp s log s' m X r E HA HP HX Hr HQ.
  apply (convex_invariant f k pp b partial cat ks save (fun p => g p <= r) d) with (s := s) (log := log); auto.
  - apply quasi_level; auto.
  - intros q Lq Hq. destruct (Hpp q Lq) as (p & H1 & H2 & H3). exists p. repeat split; auto. lra.
  - intros p Lp. rewrite HF by auto. eauto.
  - exists X. auto.
Qed.

(** ** value of the objective at the consensus *)
Lemma objective_map : forall d f g X, objective_is d f g -> (forall p, In p X -> length p = d) -> map f (map floats X) = map (fun p => Fin (g p)) X.
Proof. intros d f g X HF HX. rewrite map_map. apply map_ext_in. intros p Hp. apply HF. auto. Qed.
Theorem consensus_jensen : forall d f g X a, objective_is d f g -> convex_fun d g -> X <> [] -> (forall p, In p X -> length p = d) ->
  exists p, length p = d /\ cc_default (map f (map floats X)) (map floats X) (Fin a) = [floats p] /\ g p <= gibbs_energy a (map g X).
Proof.
  intros d f g X a HF HG HN HX. rewrite (objective_map d f g) by auto. exists (gibbs_point a (map (fun p => Fin (g p)) X) d X).
  split; [apply gibbs_point_length|]. split; [|apply gibbs_jensen; auto].
  apply consensus_gibbs. 2:{ split; auto. rewrite map_length. auto. }
  split. intros e He. apply in_map_iff in He. destruct He as (p & <- & _). eauto.
  destruct X as [|x X]; [congruence|]. cbn. eauto.
Qed.
Lemma gibbs_energy_0 : forall E, gibbs_energy 0 E = Rsum E / INR (length E).
Proof.
  intros E. unfold gibbs_energy. f_equal.
  - f_equal. rewrite <- (map_id E) at 2. apply map_ext. intros e. replace (- 0 * e) with 0 by ring. rewrite exp_0. ring.
  - induction E as [|e E IH]; auto. cbn [map length]. rewrite Rsum_cons, S_INR, IH. replace (- 0 * e) with 0 by ring. rewrite exp_0. ring.
Qed.
Theorem consensus_average : forall d f g X a, objective_is d f g -> convex_fun d g -> X <> [] -> (forall p, In p X -> length p = d) -> 0 <= a ->
  exists p, length p = d /\ cc_default (map f (map floats X)) (map floats X) (Fin a) = [floats p] /\ g p <= Rsum (map g X) / INR (length X).
Proof.
  intros d f g X a HF HG HN HX Ha. destruct (consensus_jensen d f g X a HF HG HN HX) as (p & H1 & H2 & H3). exists p. split; auto. split; auto.
  eapply Rle_trans; [exact H3|]. eapply Rle_trans; [apply (gibbs_energy_mono 0 a); auto; destruct X; [congruence|discriminate]|].
  rewrite gibbs_energy_0, map_length. lra.
Qed.
Theorem consensus_quasi : forall d f g X a r, objective_is d f g -> quasiconvex d g -> X <> [] -> (forall p, In p X -> length p = d /\ g p <= r) ->
  exists p, length p = d /\ cc_default (map f (map floats X)) (map floats X) (Fin a) = [floats p] /\ g p <= r.
Proof.
  intros d f g X a r HF HG HN HX. rewrite (objective_map d f g); auto; [|intros; apply HX; auto]. exists (gibbs_point a (map (fun p => Fin (g p)) X) d X).
  split; [apply gibbs_point_length|].
  assert (AD : admissible a (map (fun p => Fin (g p)) X)).
  { split. intros e He. apply in_map_iff in He. destruct He as (p & <- & _). eauto. destruct X as [|x X]; [congruence|]. cbn. eauto. }
  assert (EN : ensemble (length (map (fun p => Fin (g p)) X)) d X) by (split; [rewrite map_length; auto|apply HX]).
  split; [apply consensus_gibbs; auto|].
  apply (gibbs_convex a _ d X (fun p => g p <= r)); auto. apply quasi_level; auto.
  intros n e p _ Hn. apply HX. eapply nth_error_In; eauto.
Qed.
Theorem consensus_in : forall a E d X C, admissible a E -> ensemble (length E) d X -> convex_set d C ->
  (forall n e p, nth_error E n = Some (Fin e) -> nth_error X n = Some p -> C p) ->
  exists p, length p = d /\ cc_default E (map floats X) (Fin a) = [floats p] /\ C p.
Proof.
  intros a E d X C HA HX HC H. exists (gibbs_point a E d X). split; [apply gibbs_point_length|]. split; [apply consensus_gibbs; auto|]. apply gibbs_convex; auto.
Qed.
