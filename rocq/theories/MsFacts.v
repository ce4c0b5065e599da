(** * The spread of an ensemble decays in mean square *)
From Coq Require Import List Arith Bool Reals Lia Lra.
From Verif Require Import Scalar Np NpFacts State Pdyn PdynRun PdynOk Exec RunFacts RVec RVecFacts Consensus ConsSpec ConsFacts PostProc Cbo CboSpec CboFacts MoveFacts AbsorbFacts
  PostFacts MomentSpec MomentFacts MsSpec.
Import ListNotations.
Open Scope R_scope.

Section Pairs.
  Context {Om : Type} (A : average Om).
  Lemma mean_lin6 : forall a0 a1 a2 a3 a4 a5 g1 g2 g3 g4 g5 r1 r2 r3 r4 r5,
    mean_is A g1 r1 -> mean_is A g2 r2 -> mean_is A g3 r3 -> mean_is A g4 r4 -> mean_is A g5 r5 ->
    mean_is A (fun w => a0 + (a1 * g1 w + (a2 * g2 w + (a3 * g3 w + (a4 * g4 w + a5 * g5 w))))) (a0 + (a1 * r1 + (a2 * r2 + (a3 * r3 + (a4 * r4 + a5 * r5))))).
  Proof. intros. repeat (first [apply (avg_const _ A)|apply (avg_scal _ A); assumption|apply (avg_add _ A)]). Qed.

  Variables (k : noise_model) (la dt sg : R) (d N : nat) (v : R) (cp : list R) (X : list (list R)) (xi : nat -> Om -> list R).
  Hypothesis (Hcp : length cp = d) (HX : ensemble N d X) (Hdt : 0 <= dt) (HW : white_family A N d v xi).
  Let x i := nth i X [].
  Let Y i w := rmove k la dt sg cp (x i) (xi i w).
  Let T i := total_spread k (vsub (x i) cp).
  Lemma Lx : forall i, (i < N)%nat -> length (x i) = d.
  Proof. intros i Hi. apply HX. apply nth_In. rewrite (proj1 HX). auto. Qed.
  Lemma LY : forall i w, (i < N)%nat -> length (Y i w) = d.
  Proof. intros i w Hi. apply length_rmove; auto using Lx. apply HW. auto. Qed.

  Lemma pair_mean : forall i j, (i < N)%nat -> (j < N)%nat -> i <> j ->
    mean_is A (fun w => sqnorm (vsub (Y i w) (Y j w))) ((1 - la * dt) ^ 2 * sqnorm (vsub (x i) (x j)) + sg ^ 2 * dt * v * (T i + T j)).
  Proof.
    intros i j Hi Hj Hij. destruct HW as (W1 & W2). destruct (W1 i Hi) as (Li & Mi & Vi). destruct (W1 j Hj) as (Lj & Mj & Vj).
    pose proof (Lx i Hi) as Xi. pose proof (Lx j Hj) as Xj.
    set (g := fun i l => match k with NConst => 1 | NIso => vnorm (vsub (x i) cp) | NAniso => coord l (vsub (x i) cp) end).
    assert (HQ : sqrt dt * sqrt dt = dt) by (apply sqrt_def; auto).
    assert (HG : forall i l, g i l * g i l = spread k (vsub (x i) cp) l) by (intros; apply spread_sq).
    assert (HY : forall q l w, (q < N)%nat -> coord l (Y q w) = (coord l (x q) - la * dt * (coord l (x q) - coord l cp)) + sg * sqrt dt * g q l * coord l (xi q w)).
    { intros q l w Hq. unfold Y. pose proof (Lx q Hq). destruct (W1 q Hq) as (Lq & _). rewrite (coord_rmove _ _ _ _ _ _ _ _ d) by auto. rewrite (noise_coord _ _ _ _ _ d) by (auto; apply length_vsub; auto).
      unfold g. ring. }
    eapply mean_eq.
    - apply (mean_sum A (fun l w => let D := (1 - la * dt) * (coord l (x i) - coord l (x j)) in
         D * D + (2 * D * (sg * sqrt dt * g i l) * coord l (xi i w) + (- (2 * D * (sg * sqrt dt * g j l)) * coord l (xi j w)
           + (sg ^ 2 * dt * spread k (vsub (x i) cp) l * (coord l (xi i w) * coord l (xi i w)) + (sg ^ 2 * dt * spread k (vsub (x j) cp) l * (coord l (xi j w) * coord l (xi j w))
             + - (2 * sg ^ 2 * dt * g i l * g j l) * (coord l (xi i w) * coord l (xi j w)))))))
         (fun l => (1 - la * dt) ^ 2 * (coord l (vsub (x i) (x j)) * coord l (vsub (x i) (x j))) + sg ^ 2 * dt * v * (spread k (vsub (x i) cp) l + spread k (vsub (x j) cp) l)) (seq 0 d)).
      intros l Hl. apply in_seq in Hl. assert (Hl' : (l < d)%nat) by lia.
      pose proof (Vi l l Hl' Hl') as V1. pose proof (Vj l l Hl' Hl') as V2. rewrite Nat.eqb_refl in V1, V2.
      eapply mean_eq. apply mean_lin6; [apply (Mi l Hl')|apply (Mj l Hl')|apply V1|apply V2|apply (W2 i j l l); auto].
      intros w. cbv zeta. reflexivity. rewrite coord_vsub by congruence. ring.
    - intros w. rewrite (sqnorm_coords _ d). 2:{ apply length_vsub; apply LY; auto. }
      f_equal. apply map_ext. intros l. cbv zeta. rewrite coord_vsub by (rewrite !LY; auto). rewrite !HY by auto. rewrite <- !HG.
      set (zi := coord l (xi i w)). set (zj := coord l (xi j w)). set (a := coord l (x i)). set (b := coord l (x j)). set (e := coord l cp). set (gi := g i l). set (gj := g j l).
      replace (sg ^ 2 * dt * (gi * gi)) with (sg ^ 2 * (sqrt dt * sqrt dt) * (gi * gi)) by (rewrite HQ; ring).
      replace (sg ^ 2 * dt * (gj * gj)) with (sg ^ 2 * (sqrt dt * sqrt dt) * (gj * gj)) by (rewrite HQ; ring).
      replace (2 * sg ^ 2 * dt * gi * gj) with (2 * sg ^ 2 * (sqrt dt * sqrt dt) * gi * gj) by (rewrite HQ; ring). ring.
    - rewrite Rsum_lin. rewrite <- sqnorm_coords by (apply length_vsub; auto). f_equal. f_equal.
      rewrite Rsum_map_plus. unfold T. rewrite !(total_spread_sum k _ d) by (apply length_vsub; auto). auto.
  Qed.

  Lemma pair_spread_idx : forall (Z : list (list R)) n, length Z = n ->
    pair_spread Z = Rsum (map (fun i => Rsum (map (fun j => sqnorm (vsub (nth i Z []) (nth j Z []))) (seq 0 n))) (seq 0 n)).
  Proof.
    intros Z n Hn. assert (HS : forall g : list R -> R, Rsum (map g Z) = Rsum (map (fun i => g (nth i Z [])) (seq 0 n))).
    { intros g. rewrite <- (map_nth_seq_n _ [] Z n Hn) at 1. rewrite map_map. auto. }
    unfold pair_spread. rewrite HS. apply Rsum_map_ext. intros i _. apply HS.
  Qed.

  Lemma off_diag : forall (g : nat -> R) i n s, (s <= i < s + n)%nat -> Rsum (map (fun j => if (i =? j)%nat then 0 else g j) (seq s n)) = Rsum (map g (seq s n)) - g i.
  Proof.
    intros g i n. induction n as [|n IH]; intros s Hi; [lia|]. cbn [seq map]. rewrite !Rsum_cons. destruct (Nat.eqb_spec i s) as [->|Ne].
    - rewrite (Rsum_map_ext _ _ g). ring. intros j Hj. apply in_seq in Hj. destruct (Nat.eqb_spec s j); auto. lia.
    - rewrite IH by lia. ring.
  Qed.

  (** mean of the spread after the move *)
  Lemma spread_mean : mean_is A (fun w => pair_spread (map (fun i => Y i w) (seq 0 N)))
    ((1 - la * dt) ^ 2 * pair_spread X + sg ^ 2 * dt * v * (2 * (INR N - 1) * Rsum (map T (seq 0 N)))).
  Proof.
    eapply mean_eq.
    - apply (mean_sum A (fun i w => Rsum (map (fun j => sqnorm (vsub (Y i w) (Y j w))) (seq 0 N)))
        (fun i => Rsum (map (fun j => (1 - la * dt) ^ 2 * sqnorm (vsub (x i) (x j)) + sg ^ 2 * dt * v * (if (i =? j)%nat then 0 else T i + T j)) (seq 0 N))) (seq 0 N)).
      intros i Hi. apply in_seq in Hi.
      apply (mean_sum A (fun j w => sqnorm (vsub (Y i w) (Y j w))) (fun j => (1 - la * dt) ^ 2 * sqnorm (vsub (x i) (x j)) + sg ^ 2 * dt * v * (if (i =? j)%nat then 0 else T i + T j)) (seq 0 N)).
      intros j Hj. apply in_seq in Hj. destruct (Nat.eqb_spec i j) as [<-|Ne]; [|apply pair_mean; lia].
      assert (Hz : forall u, sqnorm (vsub u u) = 0). { intros u. unfold sqnorm, dot, vsub. rewrite map2_same, map2_same, map_map. apply Rsum_map_0. intros; ring. }
      eapply mean_eq. apply (avg_const _ A 0). intros w. rewrite Hz. auto. rewrite Hz. ring.
    - intros w. rewrite (pair_spread_idx _ N) by (rewrite map_length, seq_length; auto). apply Rsum_map_ext. intros i Hi. apply Rsum_map_ext. intros j Hj.
      apply in_seq in Hi. apply in_seq in Hj. rewrite !nth_map_seq by lia. auto.
    - rewrite (pair_spread_idx X N) by apply HX. fold x. rewrite <- Rsum_map_scal.
      replace (sg ^ 2 * dt * v * (2 * (INR N - 1) * Rsum (map T (seq 0 N)))) with
        (Rsum (map (fun i => sg ^ 2 * dt * v * ((INR N - 1) * T i + (Rsum (map T (seq 0 N)) - T i))) (seq 0 N))).
      + rewrite <- Rsum_map_plus. apply Rsum_map_ext. intros i Hi. apply in_seq in Hi. rewrite Rsum_map_plus, !Rsum_map_scal. f_equal. f_equal.
        rewrite (off_diag (fun j => T i + T j) i N 0) by lia. rewrite Rsum_map_plus, Rsum_map_const, seq_length. ring.
      + rewrite Rsum_map_scal, Rsum_map_plus, Rsum_map_minus, Rsum_map_scal, Rsum_map_const, seq_length. ring.
  Qed.
End Pairs.

Lemma sum_sq_le : forall u, (forall a, In a u -> 0 <= a) -> sqnorm u <= Rsum u * Rsum u.
Proof.
  induction u as [|a u IH]; intros H. unfold sqnorm, dot; cbn; lra. rewrite sqnorm_cons, Rsum_cons.
  assert (0 <= a) by (apply H; cbn; auto). assert (H1 : forall b, In b u -> 0 <= b) by (intros; apply H; cbn; auto).
  pose proof (IH H1). pose proof (Rsum_nonneg u H1). nra.
Qed.
Lemma weighted_sq : forall T (g h : T -> R) l, (forall t, In t l -> 0 <= g t) ->
  Rsum (map (fun t => g t * h t) l) ^ 2 <= Rsum (map g l) ^ 2 * Rsum (map (fun t => h t * h t) l).
Proof.
  intros T g h l H. pose proof (dot_cs (map g l) (map h l)) as Q. rewrite !map_length in Q. specialize (Q eq_refl).
  unfold dot in Q at 1 2. rewrite map2_map_same in Q.
  assert (E : sqnorm (map h l) = Rsum (map (fun t => h t * h t) l)) by (unfold sqnorm, dot; rewrite map2_map_same; auto). rewrite E in Q.
  assert (S1 : sqnorm (map g l) <= Rsum (map g l) * Rsum (map g l)).
  { apply sum_sq_le. intros b Hb. apply in_map_iff in Hb. destruct Hb as (t & <- & Ht). auto. }
  assert (0 <= Rsum (map (fun t => h t * h t) l)) by (apply Rsum_map_nonneg; intros; nra). nra.
Qed.

Lemma gibbs_close : forall a E d X x, admissible a E -> ensemble (length E) d X -> length x = d ->
  sqnorm (vsub x (gibbs_point a E d X)) <= Rsum (map (fun q => sqnorm (vsub x q)) X).
Proof.
  intros a E d X x HA [HL HX] Hx. assert (Lg : length (gibbs_point a E d X) = d) by apply gibbs_point_length.
  rewrite (sqnorm_coords _ d) by (apply length_vsub; auto).
  rewrite (Rsum_map_ext _ (fun q => sqnorm (vsub x q)) (fun q => Rsum (map (fun l => coord l (vsub x q) * coord l (vsub x q)) (seq 0 d)))).
  2:{ intros q Hq. apply sqnorm_coords. apply length_vsub; auto. }
  rewrite Rsum_swap. apply Rsum_map_le. intros l Hl. apply in_seq in Hl. rewrite coord_vsub by congruence.
  rewrite (Rsum_map_ext _ (fun q => coord l (vsub x q) * coord l (vsub x q)) (fun q => (coord l x - coord l q) * (coord l x - coord l q))).
  2:{ intros q Hq. rewrite coord_vsub by (rewrite (HX q Hq); auto). auto. }
  assert (Gc : coord l (gibbs_point a E d X) = gibbs_mean a E X l) by (unfold gibbs_point, coord; rewrite nth_map_seq by lia; auto).
  rewrite Gc. unfold gibbs_mean.
  assert (G0 : Rsum (map (gibbs a) E) = Rsum (map (fun q => gibbs a (fst q)) (combine E X))).
  { clear - HL. revert X HL. induction E as [|e E IH]; intros [|p X] HL; try discriminate; auto. cbn [combine map]. rewrite !Rsum_cons. rewrite <- IH; auto. }
  assert (G1 : Rsum (map (fun q => (coord l x - coord l q) * (coord l x - coord l q)) X) = Rsum (map (fun q => (coord l x - coord l (snd q)) * (coord l x - coord l (snd q))) (combine E X))).
  { clear - HL. revert X HL. induction E as [|e E IH]; intros [|p X] HL; try discriminate; auto. cbn [combine map]. rewrite !Rsum_cons. rewrite <- IH; auto. }
  assert (GP : 0 < Rsum (map (gibbs a) E)).
  { destruct HA as (_ & y & Hy). apply (Rsum_map_pos _ _ _ (Fin y)); auto. intros e _. destruct e; cbn; try lra. left. apply exp_pos. cbn. apply exp_pos. }
  rewrite G1. rewrite G0 in *. set (P := combine E X) in *. set (G := Rsum (map (fun q => gibbs a (fst q)) P)) in *.
  pose proof (weighted_sq _ (fun q : fl R * list R => gibbs a (fst q)) (fun q => coord l x - coord l (snd q)) P) as Q. cbv beta in Q. fold G in Q.
  assert (Q1 : forall t : fl R * list R, In t P -> 0 <= gibbs a (fst t)). { intros [e p] _. cbn. destruct e; cbn; try lra. left. apply exp_pos. }
  specialize (Q Q1).
  rewrite (Rsum_map_ext _ (fun t => gibbs a (fst t) * (coord l x - coord l (snd t))) (fun t => coord l x * gibbs a (fst t) - gibbs a (fst t) * coord l (snd t))) in Q by (intros; ring).
  rewrite Rsum_map_minus, Rsum_map_scal in Q. fold G in Q. set (S1 := Rsum (map (fun q => gibbs a (fst q) * coord l (snd q)) P)) in *.
  set (S2 := Rsum (map (fun q => (coord l x - coord l (snd q)) * (coord l x - coord l (snd q))) P)) in *.
  replace ((coord l x - S1 / G) * (coord l x - S1 / G)) with ((coord l x * G - S1) ^ 2 / (G ^ 2)) by (field; lra).
  apply (Rmult_le_reg_r (G ^ 2)); [apply pow_lt; auto|]. unfold Rdiv. rewrite Rmult_assoc, Rinv_l, Rmult_1_r by (apply pow_nonzero; lra). lra.
Qed.

Section Decay.
  Variables (f : vec -> fl R) (k : noise_model) (pp : vec -> vec) (b : nat) (partial cat : bool) (ks : list (crit R vec)) (save : bool).
  Let c := cbo_cfg f k pp NoCorr b partial cat ks save.

  Lemma between_keeps : forall s log s1 m d X la dt sg, exec c s log -> between c s s1 -> finite_alpha s -> parameters la dt sg s -> ensemble_at s m d X ->
    (exists log1, exec c s1 log1) /\ finite_alpha s1 /\ parameters la dt sg s1 /\ ensemble_at s1 m d X /\ s_N s1 = s_N s.
  Proof.
    intros s log s1 m d X la dt sg E H HA HP HX.
    assert (TT : forall b0 s2, terminate c s = Ok (b0, s2) -> (exists log1, exec c s2 log1) /\ finite_alpha s2 /\ parameters la dt sg s2 /\ ensemble_at s2 m d X /\ s_N s2 = s_N s).
    { intros b0 s2 HT. destruct (term_keeps _ _ _ _ _ _ _ _ _ _ _ HT) as (K0 & K1 & K2 & K3 & K4 & K5 & K6).
      split; [eexists; eapply ex_term; eauto|]. split; [intros i Hi; rewrite K3; apply HA; congruence|].
      split; [unfold parameters in *; rewrite K4, K5, K6; auto|]. split; [unfold ensemble_at; rewrite K0, K2; auto|auto]. }
    assert (AA : forall s1 log1 s2, exec c s1 log1 -> alpha_changed s1 s2 -> parameters la dt sg s1 -> ensemble_at s1 m d X ->
      (exists log1, exec c s2 log1) /\ finite_alpha s2 /\ parameters la dt sg s2 /\ ensemble_at s2 m d X /\ s_N s2 = s_N s1).
    { intros s0 log0 s2 E0 HC HP0 HX0. split; [eexists; eapply alpha_changed_exec; eauto|]. destruct HC as (al & -> & H1 & H2). split; auto. }
    destruct H as [|b0 s' HT|s' HC|b0 s0 s' HT HC].
    - eauto 10.
    - eauto.
    - eapply AA; eauto.
    - destruct (TT _ _ HT) as ((l & E1) & A1 & P1 & X1 & N1). rewrite <- N1. eapply AA; eauto.
  Qed.

  (** the ensemble after an unbatched step *)
  Lemma whole_step : forall s log o s' m d X la dt sg a kk g (z : nat -> list R), exec c s log -> perms_valid o s -> finite_obj d f ->
    parameters la dt sg s -> b = s_N s -> nth_error (s_active s) kk = Some m -> ensemble_at s m d X -> nth_error (s_alpha s) m = Some [Fin a] ->
    (forall p, length p = d -> pp (floats p) = floats (g p) /\ length (g p) = d) ->
    (forall n, (n < s_N s)%nat -> o_z o kk n = floats (z n) /\ length (z n) = d) -> step c o s = Ok s' ->
    ensemble_at s' m d (map (fun i => g (rmove k la dt sg (gibbs_point a (map f (map floats X)) d X) (nth i X []) (z i))) (seq 0 (s_N s))).
  Proof.
    intros s log o s' m d X la dt sg a kk g z E P HF HP HB Hk (Hx & HX) Ha Hg Hz HS.
    pose proof (exec_wf _ _ _ E) as W. destruct (step_keeps _ _ _ _ _ _ _ _ s log o s' E P HS) as (_ & K2 & _).
    destruct (step_positions c s log o s' kk m _ (Fin a) E P (cbo_one_point _ _ _ _ _ _ _ _) eq_refl HS Hk Hx Ha)
      as (xb & cp & xr' & _ & _ & _ & HC & Hx' & _ & _ & HU).
    destruct (HU HB) as [-> ->]. clear HU. unfold c in HC.
    rewrite (ccrow_finite f k pp b partial cat ks save d _ a HF) in HC; [|rewrite (proj1 HX); apply W|apply HX]. injection HC as <-.
    set (cp := gibbs_point a (map f (map floats X)) d X) in *. assert (Lc : length cp = d) by apply gibbs_point_length.
    assert (LM : forall i, (i < s_N s)%nat -> length (rmove k la dt sg cp (nth i X []) (z i)) = d).
    { intros i Hi. apply length_rmove; auto. apply HX. apply nth_In. rewrite (proj1 HX). auto. apply Hz; auto. }
    split.
    - rewrite Hx'. f_equal. apply nth_error_ext.
      intros i. rewrite mapi_nth, nth_error_map, map_map, nth_error_map.
      destruct (Nat.lt_ge_cases i (s_N s)) as [Hi|Hi].
      + rewrite (nth_error_nth' X []) by (rewrite (proj1 HX); auto). rewrite (nth_error_nth' (seq 0 (s_N s)) 0%nat) by (rewrite seq_length; auto).
        rewrite seq_nth by auto. cbn [option_map]. f_equal. cbn [c cbo_cfg c_pp]. rewrite (proj1 (Hz i Hi)).
        rewrite (moved_floats f k pp b partial cat ks save s la dt sg) by auto. apply Hg. apply LM; auto.
      + rewrite (proj2 (nth_error_None X i)) by (rewrite (proj1 HX); auto). rewrite (proj2 (nth_error_None (seq 0 (s_N s)) i)) by (rewrite seq_length; auto). auto.
    - rewrite K2. split; [rewrite map_length, seq_length; auto|]. intros p Hp. apply in_map_iff in Hp. destruct Hp as (i & <- & Hi). apply in_seq in Hi.
      apply Hg. apply LM. lia.
  Qed.

  Lemma mean_after_mono : forall Om (A : average Om) m d v Phi n s r r', mean_after A c m d v Phi n s r -> r <= r' -> mean_after A c m d v Phi n s r'.
  Proof.
    intros Om A m d v Phi [|n] s r r' H Hr.
    - destruct H as (X & HX & H). exists X. split; auto. lra.
    - intros s1 o Hb Ha Ho. destruct (H s1 o Hb Ha Ho) as (B & HB & h & q & H1 & H2 & H3). exists B. split; auto. exists h, q. split; auto. split; auto. lra.
  Qed.
  Lemma mean_after_le : forall Om (A : average Om) m d v Phi Psi e n s r, 0 <= e -> (forall X, Psi X <= e * Phi X) ->
    mean_after A c m d v Phi n s r -> mean_after A c m d v Psi n s (e * r).
  Proof.
    intros Om A m d v Phi Psi e n. induction n as [|n IH]; intros s r He HP H.
    - destruct H as (X & HX & H). exists X. split; auto. pose proof (HP X). nra.
    - intros s1 o Hb Ha Ho. destruct (H s1 o Hb Ha Ho) as (B & HB & h & q & H1 & H2 & H3). exists (fun w => e * B w). split.
      + intros w. destruct (HB w) as (s2 & HS & H4). exists s2. split; auto.
      + exists (fun w => e * h w), (e * q). split; [intros w; specialize (H1 w); nra|]. split; [apply (avg_scal _ A); auto|nra].
  Qed.

  Lemma pair_spread_nonneg : forall X, 0 <= pair_spread X.
  Proof. intros X. apply Rsum_map_nonneg. intros p _. apply Rsum_map_nonneg. intros q _. apply sqnorm_nonneg. Qed.

  Theorem spread_decay : forall Om (A : average Om) m d v la dt sg, finite_obj d f -> k <> NConst -> nonexpansive d pp -> 0 <= v ->
    forall n s log X, exec c s log -> finite_alpha s -> parameters la dt sg s -> b = s_N s -> ensemble_at s m d X ->
    mean_after A c m d v pair_spread n s (((1 - la * dt) ^ 2 + 2 * (INR (s_N s) - 1) * sg ^ 2 * dt * v * noise_dim k d) ^ n * pair_spread X).
  Proof.
    intros Om A m d v la dt sg HF Hk (g & Hg1 & Hg2) Hv. induction n as [|n IH]; intros s log X E HA HP HB HX.
    - exists X. split; auto. cbn. lra.
    - intros s1 o Hb Hm (kk & xi & Hkk & HW & Ho).
      destruct (between_keeps s log s1 m d X la dt sg E Hb HA HP HX) as ((l1 & E1) & A1 & P1 & X1 & N1). rewrite N1 in *.
      pose proof (exec_wf _ _ _ E1) as W1. assert (HN : (1 <= s_N s)%nat) by (rewrite <- N1; apply W1).
      destruct (A1 m) as (a & Ha). { apply W1; auto. }
      set (q := (1 - la * dt) ^ 2 + 2 * (INR (s_N s) - 1) * sg ^ 2 * dt * v * noise_dim k d) in *.
      set (cp := gibbs_point a (map f (map floats X)) d X).
      set (Y := fun (i : nat) w => rmove k la dt sg cp (nth i X []) (xi i w)).
      assert (Lc : length cp = d) by apply gibbs_point_length.
      assert (Hdt : 0 <= dt) by apply HP.
      assert (HX' : ensemble (s_N s) d X) by apply HX.
      assert (HI : 1 <= INR (s_N s)) by (change 1 with (INR 1); apply le_INR; auto).
      assert (HD : 0 <= noise_dim k d) by (unfold noise_dim; destruct k; try lra; apply pos_INR).
      assert (Hq : 0 <= q). { unfold q. assert (0 <= 2 * (INR (s_N s) - 1) * sg ^ 2 * dt * v * noise_dim k d). { pose proof (pow2_ge_0 sg) as H2. repeat (apply Rmult_le_pos; [|auto; fail]); try lra. } pose proof (pow2_ge_0 (1 - la * dt)). lra. }
      exists (fun w => q ^ n * pair_spread (map (fun i => g (Y i w)) (seq 0 (s_N s)))). split.
      + intros w. destruct (Ho w) as (Pw & Hz). destruct (exec_step_good c s1 l1 (o w) E1 (cbo_plain _ _ _ _ _ _ _ _ _) Pw) as (s2 & HS). exists s2. split; auto.
        destruct (step_keeps _ _ _ _ _ _ _ _ s1 l1 (o w) s2 E1 Pw HS) as (K1 & K2 & K3 & K4 & K5 & K6 & _).
        replace q with ((1 - la * dt) ^ 2 + 2 * (INR (s_N s2) - 1) * sg ^ 2 * dt * v * noise_dim k d) by (unfold q; rewrite K2, N1; auto).
        eapply IH.
        * eapply ex_step; eauto.
        * intros i Hi. rewrite K3. apply A1. congruence.
        * unfold parameters in *. rewrite K4, K5, K6. auto.
        * congruence.
        * unfold Y, cp. rewrite <- N1. eapply whole_step; eauto; rewrite N1; auto. intros i Hi. split; [apply Hz; auto|apply HW; auto].
      + exists (fun w => q ^ n * pair_spread (map (fun i => Y i w) (seq 0 (s_N s)))).
        eexists. split; [|split].
        * intros w. apply Rmult_le_compat_l; [apply pow_le; auto|].
          rewrite !(pair_spread_idx _ (s_N s)) by (rewrite map_length, seq_length; auto). apply Rsum_map_le. intros i Hi. apply Rsum_map_le. intros j Hj.
          apply in_seq in Hi. apply in_seq in Hj. rewrite !nth_map_seq by lia. apply Hg2; apply (LY A k la dt sg d (s_N s) v cp X xi); auto; lia.
        * apply (avg_scal _ A). apply (spread_mean A k la dt sg d (s_N s) v cp X xi); auto.
        * cbn [pow]. replace (q * q ^ n * pair_spread X) with (q ^ n * (q * pair_spread X)) by ring. apply Rmult_le_compat_l; [apply pow_le; auto|].
          assert (HT : Rsum (map (fun i => total_spread k (vsub (nth i X []) cp)) (seq 0 (s_N s))) <= noise_dim k d * pair_spread X).
          { rewrite (pair_spread_idx X (s_N s)) by apply HX'. rewrite <- Rsum_map_scal. apply Rsum_map_le. intros i Hi. apply in_seq in Hi.
            assert (Lx : length (nth i X []) = d) by (apply HX'; apply nth_In; rewrite (proj1 HX'); lia).
            assert (HG : sqnorm (vsub (nth i X []) cp) <= Rsum (map (fun j => sqnorm (vsub (nth i X []) (nth j X []))) (seq 0 (s_N s)))).
            { rewrite <- (map_map (fun j => nth j X []) (fun p => sqnorm (vsub (nth i X []) p))). rewrite (map_nth_seq_n _ [] X) by apply HX'. apply gibbs_close; auto.
              - eapply finite_admissible; eauto. rewrite (proj1 HX'). auto. apply HX'.
              - rewrite !map_length, (proj1 HX'). auto. }
            assert (HE : total_spread k (vsub (nth i X []) cp) = noise_dim k d * sqnorm (vsub (nth i X []) cp)).
            { unfold total_spread, noise_dim. destruct k; [congruence| |ring]. rewrite (length_vsub _ _ d); auto. }
            rewrite HE. apply Rmult_le_compat_l; auto. }
          unfold q. assert (HC : 0 <= sg ^ 2 * dt * v * (2 * (INR (s_N s) - 1))). { pose proof (pow2_ge_0 sg) as H2. apply Rmult_le_pos; [|lra]. repeat (apply Rmult_le_pos; [|auto; fail]); auto. }
          pose proof (Rmult_le_compat_l _ _ _ HC HT). lra.
  Qed.

  (** Markov: the probability that the spread is at least e *)
  Theorem spread_tail : forall Om (A : average Om) m d v la dt sg e, finite_obj d f -> k <> NConst -> nonexpansive d pp -> 0 <= v -> 0 < e ->
    forall n s log X, exec c s log -> finite_alpha s -> parameters la dt sg s -> b = s_N s -> ensemble_at s m d X ->
    mean_after A c m d v (spread_at_least e) n s (((1 - la * dt) ^ 2 + 2 * (INR (s_N s) - 1) * sg ^ 2 * dt * v * noise_dim k d) ^ n * pair_spread X / e).
  Proof.
    intros Om A m d v la dt sg e HF Hk Hpp Hv He n s log X E HA HP HB HX. unfold Rdiv. rewrite Rmult_comm.
    eapply (mean_after_le Om A m d v pair_spread). left; apply Rinv_0_lt_compat; auto.
    - intros Z. unfold spread_at_least. pose proof (pair_spread_nonneg Z). assert (0 < / e) by (apply Rinv_0_lt_compat; auto). destruct (Rle_dec e (pair_spread Z)) as [H1|H1].
      + rewrite <- (Rinv_l e) by lra. apply Rmult_le_compat_l; lra.
      + apply Rmult_le_pos; lra.
    - eapply spread_decay; eauto.
  Qed.
End Decay.

(** the factor is below 1 *)
Theorem decay_factor : forall k d N la dt sg v, 0 < dt ->
  ((1 - la * dt) ^ 2 + 2 * (INR N - 1) * sg ^ 2 * dt * v * noise_dim k d < 1 <-> 2 * (INR N - 1) * noise_dim k d * sg ^ 2 * v < 2 * la - la ^ 2 * dt).
Proof.
  intros k d N la dt sg v Hdt. set (g := 2 * (INR N - 1) * noise_dim k d * sg ^ 2 * v).
  replace ((1 - la * dt) ^ 2 + 2 * (INR N - 1) * sg ^ 2 * dt * v * noise_dim k d) with (1 + dt * (g - (2 * la - la ^ 2 * dt))) by (unfold g; ring).
  split; intros H; nra.
Qed.

(** post-processings that do not increase distances *)
Lemma identity_nonexpansive : forall d, nonexpansive d (fun p => p).
Proof. intros d. exists (fun p => p). split; auto. intros; lra. Qed.
Lemma clip_nonexpansive : forall d t, 0 <= t <= float_max -> nonexpansive d (pp_point t false).
Proof.
  intros d t Ht. set (h := fun x => Rmax (- t) (Rmin t x)). exists (map h). split.
  - intros p Hp. split; [|rewrite map_length; auto]. unfold pp_point, floats. rewrite !map_map. apply map_ext. intros x. unfold pp_default, nan_to_num. apply np_clip_fin. lra.
  - intros p q Hp Hq. assert (L : length (vsub (map h p) (map h q)) = d) by (apply length_vsub; rewrite map_length; auto).
    rewrite (sqnorm_coords _ d L), (sqnorm_coords _ d (length_vsub _ _ _ Hp Hq)). apply Rsum_map_le. intros i Hi. apply in_seq in Hi.
    rewrite !coord_vsub by (rewrite ?map_length; congruence). unfold coord. rewrite !(nth_map _ _ h _ _ 0) by lia.
    set (a := nth i p 0). set (e := nth i q 0). assert (Rabs (h a - h e) <= Rabs (a - e)).
    { unfold h, Rmax, Rmin. repeat destruct (Rle_dec _ _); unfold Rabs; repeat destruct (Rcase_abs _); lra. }
    apply Rsqr_le_abs_1 in H. unfold Rsqr in H. exact H.
Qed.
