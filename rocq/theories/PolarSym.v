(** * Proofs on PolarCBO runs: the plain CBO limit and symmetries *)
From Coq Require Import String List Arith Bool Reals Permutation Lia Lra.
From Verif Require Import Scalar Np NpFacts State Pdyn PdynFacts PdynStep PdynRun PdynOk Exec RunFacts MoveFacts TermSpec TermFacts TwinSpec TwinFacts
  RVec RVecFacts Consensus ConsSpec ConsFacts PostProc Cbo CboSpec CboFacts AbsorbFacts SymFacts Polar PolarSpec PolarFacts PolarRun PolarRunSpec TwinRow.
Import ListNotations.
Open Scope R_scope.

(** ** kernels on finite points *)
Lemma fdist_floats : forall x y, fdist (floats x) (floats y) = Fin (dist x y).
Proof. intros. unfold fdist. rewrite floats_sub, fnorm_floats. reflexivity. Qed.
Lemma fsqdist_floats : forall x y, fsqdist (floats x) (floats y) = Fin (sqdist x y).
Proof.
  intros. unfold fsqdist, sqdist. rewrite floats_sub. generalize (vsub x y). intros u. unfold floats. rewrite map_map. cbn [fmul kmul KOps_R].
  rewrite <- (map_map (fun r => r * r) Fin), fsum_fin. f_equal. unfold sqnorm, dot. rewrite map2_same. reflexivity.
Qed.
Lemma fneg_log_floats : forall k kappa x y, fneg_log k kappa (floats x) (floats y) = kneg_log k kappa x y.
Proof.
  intros k kappa x y. destruct k; cbn [fneg_log kneg_log]; rewrite ?fdist_floats, ?fsqdist_floats; reflexivity.
Qed.

(** weights of particle i *)
Definition pws (k : kname) (kappa : fl R) (a kf : R) (E : list (fl R)) (X : list (list R)) (xi : list R) : list R :=
  polar_ws a kf (map (fun xj => kneg_log k kappa xj xi) X) E.

Definition kf_of (md : kmode) (a : R) : R := match md with MConst => 1 | MAlpha => a end.
Lemma kfactor_fin : forall md a, kfactor md (Fin a) = Fin (kf_of md a).
Proof. destruct md; reflexivity. Qed.
Lemma kf_pos : forall md a, (md = MAlpha -> 0 < a) -> 0 < kf_of md a.
Proof. destruct md; cbn; intros; auto. lra. Qed.

Lemma polar_row_finite : forall k kappa md a E d X, kappa_ok kappa -> (md = MAlpha -> 0 < a) ->
  (forall e, In e E -> exists y, e = Fin y) -> ensemble (length E) d X ->
  polar_row k kappa md E (map floats X) (Fin a) = map (fun xi => floats (combination (pws k kappa a (kf_of md a) E X xi) d X)) X /\
  forall xi, In xi X -> convex (pws k kappa a (kf_of md a) E X xi) /\ length (pws k kappa a (kf_of md a) E X xi) = length X.
Proof.
  intros k kappa md a E d X HK Hkf HE HX.
  assert (ENL : map (fun xi => map (fun xj => fneg_log k kappa xj xi) (map floats X)) (map floats X) = nl_eval (kneg_log k kappa) X).
  { unfold nl_eval. rewrite map_map. apply map_ext. intros xi. rewrite map_map. apply map_ext. intros. apply fneg_log_floats. }
  assert (HP : forall i xi, nth_error X i = Some xi -> polar_ok a (kf_of md a) (map (fun xj => kneg_log k kappa xj xi) X) E).
  { intros i xi Hi. apply (polar_ok_kernel k kappa a (kf_of md a) E X i); auto.
    - apply kf_pos; auto.
    - apply HX.
    - unfold nl_eval. rewrite nth_error_map, Hi. reflexivity.
    - destruct (nth_error_lt_Some _ E i) as (e & He). { rewrite <- (proj1 HX). eapply nth_error_lt; eauto. }
      destruct (HE e) as (y & ->); eauto. eapply nth_error_In; eauto. }
  split.
  - unfold polar_row. rewrite ENL, kfactor_fin. unfold cc_polar, nl_eval. rewrite map_map. apply map_ext_in. intros xi Hxi.
    apply In_nth_error in Hxi. destruct Hxi as (i & Hi). apply (polar_point a (kf_of md a) _ E d X (HP i xi Hi) HX).
  - intros xi Hxi. apply In_nth_error in Hxi. destruct Hxi as (i & Hi). destruct (polar_point a (kf_of md a) _ E d X (HP i xi Hi) HX) as (_ & H2 & H3).
    split; auto. unfold pws. rewrite H3. symmetry. apply HX.
Qed.

Lemma polar_per_particle : forall kn kappa md f k pp b partial cat ks save, consensus_per_particle (polar_cfg kn kappa md f k pp b partial cat ks save).
Proof. intros kn kappa md f k pp b partial cat ks save e x a. cbn. unfold polar_row, cc_polar. rewrite !map_length. auto. Qed.
Lemma polar_shape : forall kn kappa md f k pp b partial cat ks save s, batches_fit b partial s ->
  cc_shape (polar_cfg kn kappa md f k pp b partial cat ks save) (s_N s).
Proof. intros. right. split; [apply polar_per_particle|exact H]. Qed.
Lemma polar_plain : forall kn kappa md f k pp b partial cat ks save s, batches_fit b partial s ->
  plain (polar_cfg kn kappa md f k pp b partial cat ks save) (s_N s).
Proof. intros. split; [right; split; [apply polar_per_particle|exact H]|reflexivity]. Qed.

(** energies shifted by a constant leave the weights *)
Lemma pweight_shift : forall a kf h n e, (exists y, e = Fin y) -> pweight a kf n (add_energy h e) = exp (- (a * h)) * pweight a kf n e.
Proof.
  intros a kf h n e (y & ->). unfold add_energy. cbn. destruct n; cbn; try lra.
  replace (- (a * (y + h))) with (- (a * y) + - (a * h)) by ring. rewrite exp_plus. ring.
Qed.
Lemma polar_ws_shift : forall a kf h nl E, (forall e, In e E -> exists y, e = Fin y) -> polar_ws a kf nl (map (add_energy h) E) = polar_ws a kf nl E.
Proof.
  intros a kf h nl E HE. unfold polar_ws. rewrite combine_map_r, !map_map. cbn [fst snd].
  assert (S1 : forall q, In q (combine nl E) -> pweight a kf (fst q) (add_energy h (snd q)) = exp (- (a * h)) * pweight a kf (fst q) (snd q)).
  { intros [n e] Hq. apply pweight_shift. apply HE. eapply in_combine_r; eauto. }
  rewrite (Rsum_map_ext _ _ (fun q => exp (- (a * h)) * pweight a kf (fst q) (snd q))) by auto. rewrite Rsum_map_scal.
  apply map_ext_in. intros q Hq. rewrite S1 by auto. assert (P := exp_pos (- (a * h))).
  set (T := Rsum (map (fun q0 => pweight a kf (fst q0) (snd q0)) (combine nl E))). unfold Rdiv.
  destruct (Req_dec T 0) as [->|HT]; [|field; split; lra].
  rewrite Rmult_0_r, Rinv_0. ring.
Qed.

Lemma kneg_log_dist : forall k kappa x y x' y', sqdist x y = sqdist x' y' -> kneg_log k kappa x y = kneg_log k kappa x' y'.
Proof.
  intros k kappa x y x' y' H. assert (H2 : dist x y = dist x' y').
  { unfold dist, vnorm. fold (sqdist x y) (sqdist x' y'). rewrite H. auto. }
  destruct k; cbn; unfold gauss_neg_log, laplace_neg_log, const_neg_log, invquad_neg_log, invquad_call; rewrite ?H, ?H2; auto.
Qed.

Lemma spread_id : forall V (L : list V) n, length L = n -> spread n L = L.
Proof. intros V [|v [|w L]] n H; cbn in *; subst; auto. Qed.

Section Transport.
  Variables (kn : kname) (kappa : fl R) (md : kmode) (f f' : vec -> fl R) (k : noise_model) (pp pp' : vec -> vec) (b : nat) (partial cat : bool)
    (ks : list (crit R vec)) (save : bool) (d : nat) (h : R) (phi chi : vec -> vec) (g : list R -> list R).
  Let ks' := map (image_crit (add_energy h)) ks.
  Let c := polar_cfg kn kappa md f k pp b partial cat ks save.
  Let c' := polar_cfg kn kappa md f' k pp' b partial cat ks' save.
  Let PV : vec -> Prop := fun v => exists p, v = floats p /\ length p = d.
  Let Q : st R vec -> Prop := fun s => finite_alpha s /\ finite_parameters s /\ batches_fit b partial s /\
    ((match md with MAlpha => true | MConst => false end) = true -> forall m a, nth_error (s_alpha s) m = Some [Fin a] -> (0 < a)%R).
  Hypothesis HK : kappa_ok kappa.
  Hypothesis Hf : finite_obj d f.
  Hypothesis Hphi : forall p, length p = d -> phi (floats p) = floats (g p).
  Hypothesis Lg : forall p, length p = d -> length (g p) = d.
  Hypothesis Hdist : forall x y, length x = d -> length y = d -> sqdist (g x) (g y) = sqdist x y.
  Hypothesis Hcomb : forall ws X, convex ws -> length ws = length X -> (forall p, In p X -> length p = d) ->
    combination ws d (map g X) = g (combination ws d X).
  Hypothesis EQ0 : equivariant phi chi (add_energy h) (cbo_cfg f k pp NoCorr b partial cat ks save) (cbo_cfg f' k pp' NoCorr b partial cat ks' save)
    PV (finite_draws d) (fun s => finite_alpha s /\ finite_parameters s).

  Lemma polar_equivariant : row_equivariant phi chi (add_energy h) c c' PV (finite_draws d) Q.
  Proof.
    constructor.
    - split; [|split]; reflexivity.
    - intros s (_ & _ & HB & _). split; apply polar_shape; auto.
    - split; reflexivity.
    - exact (q_crit _ _ _ _ _ _ _ _ EQ0).
    - apply add_energy_lt.
    - apply add_energy_nan.
    - reflexivity.
    - exact (q_f _ _ _ _ _ _ _ _ EQ0).
    - intros s m a X n (HA & _ & HB & HPos) Hm Ha HX HP Hn. destruct (HA m Hm) as (a' & Ha'). rewrite Ha in Ha'. injection Ha' as ->.
      destruct (choose_points (fun q => length q = d) X HP) as (Y & -> & HY).
      assert (Hn' : n = length (map floats Y)). { destruct Hn as [Hn|[N1 N2]]; auto. destruct HB as [HB|HB]; cbn in *; congruence. }
      clear Hn. assert (Hpos : md = MAlpha -> 0 < a') by (intros ->; eapply HPos; eauto).
      assert (HE : forall e, In e (map f (map floats Y)) -> exists y, e = Fin y).
      { intros e He. rewrite map_map in He. apply in_map_iff in He. destruct He as (p & <- & Hp). apply Hf; auto. }
      assert (EN : ensemble (length (map f (map floats Y))) d Y) by (split; auto; rewrite !map_length; auto).
      destruct (polar_row_finite kn kappa md a' _ d Y HK Hpos HE EN) as (R1 & R2).
      cbn [c c' polar_cfg cbo_cfg c_f c_ccrow]. set (E := map f (map floats Y)) in *.
      assert (EG : map phi (map floats Y) = map floats (map g Y)).
      { rewrite !map_map. apply map_ext_in. intros q Hq. apply Hphi. auto. }
      assert (HE' : forall e, In e (map (add_energy h) E) -> exists y, e = Fin y).
      { intros e He. apply in_map_iff in He. destruct He as (e' & <- & He'). destruct (HE e' He') as (y & ->). cbn. eauto. }
      assert (EN' : ensemble (length (map (add_energy h) E)) d (map g Y)).
      { split; [rewrite !map_length; rewrite (proj1 EN); auto|]. intros q Hq. apply in_map_iff in Hq. destruct Hq as (q' & <- & Hq'). auto. }
      destruct (polar_row_finite kn kappa md a' _ d (map g Y) HK Hpos HE' EN') as (R1' & _). rewrite EG.
      rewrite R1, R1', !spread_id by (rewrite ?map_length; rewrite Hn', ?map_length; auto).
      split; [|split].
      + rewrite !map_map. apply map_ext_in. intros xi Hxi. destruct (R2 xi Hxi) as (W1 & W2).
        rewrite Hphi by apply combination_length. f_equal. rewrite <- Hcomb by auto. f_equal. unfold pws. rewrite polar_ws_shift by auto. f_equal.
        rewrite map_map. apply map_ext_in. intros xj Hxj. apply kneg_log_dist. apply Hdist; auto.
      + rewrite !map_length in *. auto.
      + intros v Hv. apply in_map_iff in Hv. destruct Hv as (xi & <- & _). eexists. split; [reflexivity|apply combination_length].
    - intros s s' o kk n cp v (H1 & H2 & _) HO P1 P2 P3 Hc Hv. exact (q_moved _ _ _ _ _ _ _ _ EQ0 s s' o kk n cp v (conj H1 H2) HO P1 P2 P3 Hc Hv).
    - exact (q_pp _ _ _ _ _ _ _ _ EQ0).
    - exact (q_norm _ _ _ _ _ _ _ _ EQ0).
    - intros s s' HN H1 H2 H3 H4 H5 (HA & (la & dt & sg & Q1 & Q2 & Q3 & Q4) & HB & HPos). split; [|split; [|split]].
      + intros m Hm. rewrite H1. apply HA. congruence.
      + exists la, dt, sg. repeat split; congruence.
      + unfold batches_fit in *. rewrite HN. auto.
      + rewrite H1. exact HPos.
  Qed.

  Theorem polar_image : forall s s', paired phi c c' chi (polar_state d (match md with MAlpha => true | MConst => false end) b partial) (finite_draws d) s s' ->
    same_run phi (add_energy h) b s s'.
  Proof. intros s s' H. exact (proj2 (proj2 (proj2 (paired_same _ _ _ _ _ _ _ _ polar_equivariant s s' H)))). Qed.
End Transport.

Section Instances.
  Variables (kn : kname) (kappa : fl R) (md : kmode) (k : noise_model) (b : nat) (partial cat : bool) (ks : list (crit R vec)) (save : bool) (d : nat).

  Lemma same_run_0 : forall phi n (s s' : st R vec), same_run phi (add_energy 0) n s s' -> same_run phi (fun e => e) n s s'.
  Proof.
    intros phi n s s' []. constructor; auto.
    - rewrite sr_energy. apply map_ext. intros r. apply map_ext. intros; apply add_energy_0.
    - rewrite sr_be. apply map_ext. intros; apply add_energy_0.
    - rewrite sr_fmin. apply map_ext. intros; apply add_energy_0.
  Qed.
  Lemma crit_0 : map (image_crit (add_energy 0)) ks = ks.
  Proof. transitivity (map (fun q : crit R vec => q) ks); [|apply map_id]. apply map_ext. intros [tol| | | | |]; auto. cbn. rewrite add_energy_0. auto. Qed.

  (** adding a constant to the objective *)
  Theorem polar_shift : forall (f : vec -> fl R) (pp : vec -> vec) h s s', Forall builtin ks -> kappa_ok kappa -> finite_obj d f ->
    (forall p, length p = d -> exists q, pp (floats p) = floats q /\ length q = d) ->
    paired (fun v => v) (polar_cfg kn kappa md f k pp b partial cat ks save)
      (polar_cfg kn kappa md (fun v => add_energy h (f v)) k pp b partial cat (map (image_crit (add_energy h)) ks) save)
      (fun z => z) (polar_state d (positive_mode md) b partial) (finite_draws d) s s' ->
    same_run (fun v => v) (add_energy h) b s s'.
  Proof.
    intros f pp h s s' Hks HK Hf Hpp H.
    apply (polar_image kn kappa md f (fun v => add_energy h (f v)) k pp pp b partial cat ks save d h (fun v => v) (fun z => z) (fun p => p)); auto.
    - intros. rewrite map_id. auto.
    - apply (sym_equivariant f (fun v => add_energy h (f v)) k pp pp b partial cat ks save d h (fun v => v) (fun z => z) (fun p => p) (fun p => p) (fun p => p)); auto.
      + intros. rewrite map_id. auto.
      + intros p Hp. destruct (Hpp p Hp) as (q & H1 & H2). eauto.
  Qed.

  (** translating the objective and the ensemble *)
  Lemma coord_combination : forall ws X i, (i < d)%nat -> coord i (combination ws d X) = Rsum (map (fun q => fst q * coord i (snd q)) (combine ws X)).
  Proof. intros ws X i Hi. unfold combination. unfold coord at 1. rewrite nth_map_seq by auto. auto. Qed.

  Theorem polar_translation : forall (f f' : vec -> fl R) t s s', Forall builtin ks -> kappa_ok kappa -> finite_obj d f -> length t = d ->
    (forall p, length p = d -> f' (floats (vadd p t)) = f (floats p)) ->
    paired (translate t) (polar_cfg kn kappa md f k (fun v => v) b partial cat ks save) (polar_cfg kn kappa md f' k (fun v => v) b partial cat ks save)
      (fun z => z) (polar_state d (positive_mode md) b partial) (finite_draws d) s s' ->
    same_run (translate t) (fun e => e) b s s'.
  Proof.
    intros f f' t s s' Hks HK Hf Ht Hff H. apply same_run_0.
    assert (Vs : forall x y, length x = d -> length y = d -> vsub (vadd x t) (vadd y t) = vsub x y).
    { intros x y Hx Hy. apply (coord_ext _ _ d).
      - apply length_vsub; apply length_vadd; auto.
      - apply length_vsub; auto.
      - intros i Hi. rewrite !coord_vsub, !coord_vadd by (rewrite ?(length_vadd x t d), ?(length_vadd y t d); congruence). ring. }
    apply (polar_image kn kappa md f f' k (fun v => v) (fun v => v) b partial cat ks save d 0 (translate t) (fun z => z) (fun p => vadd p t)); auto.
    - intros p Hp. unfold translate. apply floats_add.
    - intros p Hp. apply length_vadd; auto.
    - intros x y Hx Hy. unfold sqdist. rewrite Vs; auto.
    - intros ws X [W1 W2] HW HX. apply (coord_ext _ _ d); [apply combination_length|apply length_vadd; auto; apply combination_length|].
      intros i Hi. rewrite coord_vadd by (rewrite combination_length; auto). rewrite !coord_combination by auto. rewrite combine_map_r, map_map. cbn [fst snd].
      rewrite (Rsum_map_ext _ _ (fun q => fst q * coord i (snd q) + coord i t * fst q)).
      2:{ intros [e p] Hq. cbn [fst snd]. rewrite coord_vadd; [ring|]. apply in_combine_r in Hq. rewrite (HX p Hq). auto. }
      rewrite Rsum_map_plus, Rsum_map_scal, combine_map_fst, W2 by auto. ring.
    - apply (sym_equivariant f f' k (fun v => v) (fun v => v) b partial cat ks save d 0 (translate t) (fun z => z) (fun p => vadd p t) (fun p => p) (fun p => p)); auto.
      + intros p Hp. unfold translate. apply floats_add.
      + intros p Hp. apply length_vadd; auto.
      + intros p Hp. rewrite add_energy_0. auto.
      + intros a E X HA HX. apply (coord_ext _ _ d); [apply gibbs_point_length|apply length_vadd; auto; apply gibbs_point_length|].
        intros i Hi. rewrite coord_vadd by (rewrite gibbs_point_length; auto). unfold gibbs_point, coord. rewrite !nth_map_seq by auto.
        unfold gibbs_mean. rewrite combine_map_r, map_map. cbn [fst snd]. assert (HS := gsum_pos _ _ HA).
        rewrite (Rsum_map_ext _ _ (fun q => gibbs a (fst q) * coord i (snd q) + nth i t 0 * gibbs a (fst q))).
        2:{ intros [e p] Hq. cbn [fst snd]. rewrite coord_vadd; [unfold coord; ring|]. apply in_combine_r in Hq. rewrite (proj2 HX p Hq). auto. }
        rewrite Rsum_map_plus, Rsum_map_scal. rewrite <- (map_map fst (gibbs a)), combine_map_fst by (symmetry; apply HX). field. lra.
      + intros x u Hx Hu. apply (coord_ext _ _ d); [apply length_vadd; auto; apply length_vadd; auto|apply length_vadd; auto; apply length_vadd; auto|].
        intros i Hi. rewrite !coord_vadd by (rewrite ?(length_vadd x t d), ?(length_vadd x u d); congruence). ring.
      + intros p Hp. exists p. auto.
    - rewrite crit_0. exact H.
  Qed.

  (** isometries: isotropic (or constant) noise with the draws mapped too *)
  Theorem polar_rotation : forall (f f' : vec -> fl R) A s s', Forall builtin ks -> kappa_ok kappa -> finite_obj d f -> isometry d A -> k <> NAniso ->
    (forall p, length p = d -> f' (floats (map (fun r => dot r p) A)) = f (floats p)) ->
    paired (rotate A) (polar_cfg kn kappa md f k (fun v => v) b partial cat ks save) (polar_cfg kn kappa md f' k (fun v => v) b partial cat ks save)
      (rotate A) (polar_state d (positive_mode md) b partial) (finite_draws d) s s' ->
    same_run (rotate A) (fun e => e) b s s'.
  Proof.
    intros f f' A s s' Hks HK Hf (HA1 & HA2 & HA3) Hk Hff H. apply same_run_0.
    assert (LL : forall u, length (lin A u) = d) by (intros; unfold lin; rewrite map_length; auto).
    assert (FR : forall p : list R, length p = d -> rotate A (floats p) = floats (lin A p)).
    { intros p _. unfold rotate, lin, floats. rewrite map_map. apply map_ext. intros r. apply fdot_floats. }
    apply (polar_image kn kappa md f f' k (fun v => v) (fun v => v) b partial cat ks save d 0 (rotate A) (rotate A) (lin A)); auto.
    - intros x y Hx Hy. unfold sqdist. rewrite <- lin_sub by congruence. apply (HA3 (vsub x y)). apply length_vsub; auto.
    - intros ws X [W1 W2] HW HX. apply (coord_ext _ _ d); [apply combination_length|auto|]. intros i Hi. rewrite coord_lin by lia.
      assert (HR : length (nth i A []) = d) by (apply HA2; apply nth_In; lia).
      rewrite coord_combination by auto. rewrite combine_map_r, map_map. cbn [fst snd].
      rewrite (dot_sum (nth i A []) _ d) by (auto; apply combination_length).
      rewrite (Rsum_map_ext _ (fun a => nth a (nth i A []) 0 * coord a (combination ws d X)) (fun a => Rsum (map (fun q => fst q * (nth a (nth i A []) 0 * coord a (snd q))) (combine ws X)))).
      2:{ intros j Hj. apply in_seq in Hj. rewrite coord_combination by lia. rewrite <- Rsum_map_scal. apply Rsum_map_ext. intros; ring. }
      rewrite (Rsum_swap _ _ (fun a q => fst q * (nth a (nth i A []) 0 * coord a (snd q)))). apply Rsum_map_ext. intros [w p] Hq. cbn [fst snd].
      rewrite Rsum_map_scal. f_equal. rewrite coord_lin by lia. apply dot_sum; auto. apply HX. eapply in_combine_r; eauto.
    - apply (sym_equivariant f f' k (fun v => v) (fun v => v) b partial cat ks save d 0 (rotate A) (rotate A) (lin A) (lin A) (lin A)); auto.
      + intros p Hp. rewrite add_energy_0. unfold lin. auto.
      + intros a E X HA HX. apply (coord_ext _ _ d); [apply gibbs_point_length|auto|]. intros i Hi. rewrite coord_lin by lia.
        assert (HR : length (nth i A []) = d) by (apply HA2; apply nth_In; lia).
        pose proof (dot_gibbs_point a E d X (nth i A []) HA HX HR) as DG. assert (HS := gsum_pos _ _ HA).
        unfold gibbs_point at 1. unfold coord. rewrite nth_map_seq by auto. unfold gibbs_mean. rewrite combine_map_r, map_map. cbn [fst snd].
        rewrite (Rsum_map_ext _ _ (fun q => gibbs a (fst q) * dot (nth i A []) (snd q))) by (intros q _; rewrite coord_lin by lia; auto).
        rewrite <- DG. field. lra.
      + intros x y Hx Hy. symmetry. apply lin_sub. congruence.
      + intros u v Hu Hv. apply lin_add. congruence.
      + intros a u _. apply lin_scal.
      + intros x u Hx Hu. symmetry. apply lin_add. congruence.
      + intros dt u z Hu Hz. unfold rnoise. destruct k; [rewrite lin_scal; auto| |congruence].
        rewrite !lin_scal. unfold vnorm. rewrite (HA3 u Hu : sqnorm (lin A u) = _). auto.
      + intros p Hp. exists p. auto.
    - rewrite crit_0. exact H.
  Qed.

  (** infinite kappa: CBO *)
  Lemma plain_equivariant : forall (f : vec -> fl R) (pp : vec -> vec), Forall builtin ks -> finite_obj d f ->
    (forall p, length p = d -> exists q, pp (floats p) = floats q /\ length q = d) ->
    row_equivariant (fun v => v) (fun z => z) (fun e => e) (cbo_cfg f k pp NoCorr b partial cat ks save) (polar_cfg kn PInf md f k pp b partial cat ks save)
      (fun v => exists p, v = floats p /\ length p = d) (finite_draws d) (fun s => finite_alpha s /\ finite_parameters s /\ batches_fit b partial s).
  Proof.
    intros f pp Hks Hf Hpp. constructor.
    - split; [|split]; reflexivity.
    - intros s (_ & _ & HB). split; [left; intros e x a; reflexivity|apply polar_shape; auto].
    - split; reflexivity.
    - split; auto. cbn. transitivity (map (fun q : crit R vec => q) ks); [symmetry; apply map_id|]. apply map_ext. intros []; reflexivity.
    - auto.
    - auto.
    - auto.
    - auto.
    - intros s m a X n (HA & _ & HB) Hm Ha HX HP Hn. destruct (HA m Hm) as (a' & Ha'). rewrite Ha in Ha'. injection Ha' as ->.
      destruct (choose_points (fun q => length q = d) X HP) as (Y & -> & HY).
      assert (Hn' : n = length Y). { destruct Hn as [Hn|[N1 N2]]; [rewrite map_length in Hn; auto|]. destruct HB as [HB|HB]; cbn in *; congruence. }
      assert (LY : (1 <= length Y)%nat) by (destruct Y; [exfalso; apply HX; reflexivity|cbn; lia]).
      assert (AD : admissible a' (map f (map floats Y))) by (eapply finite_admissible; eauto).
      assert (EN : ensemble (length (map f (map floats Y))) d Y) by (split; auto; rewrite !map_length; auto).
      cbn [cbo_cfg polar_cfg c_f c_ccrow]. rewrite !map_id. unfold polar_row.
      assert (ENL : map (fun xi => map (fun xj => fneg_log kn PInf xj xi) (map floats Y)) (map floats Y) = nl_eval (kneg_log kn PInf) Y).
      { unfold nl_eval. rewrite map_map. apply map_ext. intros xi. rewrite map_map. apply map_ext. intros. apply fneg_log_floats. }
      rewrite ENL, kfactor_fin, (polar_constant kn a' (kf_of md a') _ d Y AD EN), (consensus_gibbs a' _ d Y AD EN). cbn [hd].
      rewrite spread_id by (rewrite map_length; auto). cbn [spread]. rewrite repeat_length. split; [|split; auto].
      + rewrite Hn', ?map_id. generalize (floats (gibbs_point a' (map f (map floats Y)) d Y)). clear. intros u. induction Y; cbn; auto. f_equal. auto.
      + intros v Hv. apply repeat_spec in Hv. subst v. eexists. split; [reflexivity|apply gibbs_point_length].
    - intros s s' o kk n cp v (_ & (la & dt & sg & HP) & _) HO P1 P2 P3 (cq & -> & Lc) (x & -> & Lx). destruct (HO kk n) as (z & -> & Lz).
      assert (HP' : parameters la dt sg s') by (destruct HP as (Q1 & Q2 & Q3 & Q4); repeat split; congruence).
      pose proof (moved_floats f k pp b partial cat ks save s la dt sg cq x z HP) as MF.
      pose proof (moved_floats f k pp b partial cat ks save s' la dt sg cq x z HP') as MF'.
      rewrite MF. change (moved (polar_cfg kn PInf md f k pp b partial cat ks save)) with (moved (cbo_cfg f k pp NoCorr b partial cat ks save)). rewrite MF'.
      split; auto. eexists. split; [reflexivity|apply length_rmove; auto].
    - intros v (p & -> & Lp). cbn. destruct (Hpp p Lp) as (q & -> & Lq). eauto.
    - intros l l' _ _. rewrite !map_id. reflexivity.
    - intros s s' HN H1 H2 H3 H4 H5 (HA & (la & dt & sg & Q1 & Q2 & Q3 & Q4) & HB). split; [|split].
      + intros m Hm. rewrite H1. apply HA. congruence.
      + exists la, dt, sg. repeat split; congruence.
      + unfold batches_fit in *. rewrite HN. auto.
  Qed.
  Theorem polar_is_cbo : forall (f : vec -> fl R) (pp : vec -> vec) s s', Forall builtin ks -> finite_obj d f ->
    (forall p, length p = d -> exists q, pp (floats p) = floats q /\ length q = d) ->
    paired (fun v => v) (cbo_cfg f k pp NoCorr b partial cat ks save) (polar_cfg kn PInf md f k pp b partial cat ks save)
      (fun z => z) (fun t => (finite_alpha t /\ finite_parameters t /\ batches_fit b partial t) /\ (forall row v, In row (s_x t) -> In v row -> exists p, v = floats p /\ length p = d))
      (finite_draws d) s s' -> same_run (fun v => v) (fun e => e) b s s'.
  Proof.
    intros f pp s s' Hks Hf Hpp H. exact (proj2 (proj2 (proj2 (paired_same _ _ _ _ _ _ _ _ (plain_equivariant f pp Hks Hf Hpp) s s' H)))).
  Qed.
End Instances.
