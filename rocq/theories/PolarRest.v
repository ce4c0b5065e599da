(** * Proofs on particles at rest and clusters in PolarCBO *)
From Coq Require Import String List Arith Bool Reals Permutation Lia Lra.
From Verif Require Import Scalar Np NpFacts State Pdyn PdynFacts PdynStep PdynRun PdynOk Exec RunFacts MoveFacts
  RVec RVecFacts Consensus ConsSpec ConsFacts PostProc Cbo CboSpec CboFacts AbsorbFacts Polar PolarSpec PolarFacts PolarRun PolarRunSpec TwinRow PolarSym PolarRestSpec.
From Verif Require RelabelFacts.
Import ListNotations.
Open Scope R_scope.

(** ** weights *)
Lemma vanish_iff : forall kn kappa x y, kappa_ok kappa -> (kcall kn kappa x y = Fin 0 <-> kneg_log kn kappa x y = PInf).
Proof.
  intros kn kappa x y HK. destruct (kernel_spec kn kappa x y HK) as (v & -> & _ & _ & [(n & -> & _ & ->)|(-> & ->)]); split; intros H; auto; try discriminate.
  injection H as H. pose proof (exp_pos (- n)). lra.
Qed.

Lemma nl_cases : forall kn kappa x y, kappa_ok kappa -> (exists n, kneg_log kn kappa x y = Fin n) \/ kneg_log kn kappa x y = PInf.
Proof. intros kn kappa x y HK. destruct (kernel_spec kn kappa x y HK) as (v & _ & _ & _ & [(n & H & _)|(H & _)]); eauto. Qed.

Section Weights.
  Variables (kn : kname) (kappa : fl R) (a kf : R) (E : list (fl R)) (X : list (list R)) (xi : list R).
  Hypothesis HK : kappa_ok kappa.
  Hypothesis HE : forall e, In e E -> exists y, e = Fin y.
  Hypothesis HL : length E = length X.
  Hypothesis Hxi : In xi X.

  Lemma pw_nonneg : forall n e, 0 <= pweight a kf n e.
  Proof. intros [] []; cbn; try lra. left. apply Rmult_lt_0_compat; apply exp_pos. Qed.

  Definition total : R := Rsum (map (fun q => pweight a kf (fst q) (snd q)) (combine (map (fun xj => kneg_log kn kappa xj xi) X) E)).
  Lemma total_pos : 0 < total.
  Proof.
    unfold total. apply In_nth_error in Hxi. destruct Hxi as (j & Hj).
    destruct (nth_error_lt_Some _ E j) as (e & He). { rewrite HL. eapply nth_error_lt; eauto. }
    destruct (HE e) as (y & ->). { eapply nth_error_In; eauto. }
    apply Rsum_map_pos with (y := (Fin 0, Fin y)).
    - intros [n e] _. apply pw_nonneg.
    - apply nth_error_In with j. assert (Hn : nth_error (map (fun xj => kneg_log kn kappa xj xi) X) j = Some (Fin 0)).
      { rewrite nth_error_map, Hj. cbn. f_equal. apply kernel_self; auto. }
      revert Hn He. generalize (map (fun xj => kneg_log kn kappa xj xi) X). clear. revert E. induction j as [|j IH]; intros [|e E] [|n l] H1 H2; cbn in *; try discriminate.
      + congruence.
      + apply IH; auto.
    - cbn. apply Rmult_lt_0_compat; apply exp_pos.
  Qed.

  Lemma pws_nth : forall j x, nth_error X j = Some x -> exists y w, nth_error E j = Some (Fin y) /\ nth_error (pws kn kappa a kf E X xi) j = Some w /\
    w = pweight a kf (kneg_log kn kappa x xi) (Fin y) / total /\ (0 < w \/ (w = 0 /\ kneg_log kn kappa x xi = PInf)).
  Proof.
    intros j x Hj. destruct (nth_error_lt_Some _ E j) as (e & He). { rewrite HL. eapply nth_error_lt; eauto. }
    destruct (HE e) as (y & ->). { eapply nth_error_In; eauto. }
    exists y, (pweight a kf (kneg_log kn kappa x xi) (Fin y) / total). split; auto. split; [|split; auto].
    - unfold pws, polar_ws. rewrite nth_error_map.
      assert (Hn : nth_error (map (fun xj => kneg_log kn kappa xj xi) X) j = Some (kneg_log kn kappa x xi)) by (rewrite nth_error_map, Hj; auto).
      assert (HC : nth_error (combine (map (fun xj => kneg_log kn kappa xj xi) X) E) j = Some (kneg_log kn kappa x xi, Fin y)).
      { revert Hn He. generalize (map (fun xj => kneg_log kn kappa xj xi) X) (kneg_log kn kappa x xi). clear. revert E.
        induction j as [|j IH]; intros [|e E] [|n l] u H1 H2; cbn in *; try discriminate; [congruence|apply IH; auto]. }
      rewrite HC. reflexivity.
    - assert (T := total_pos). destruct (nl_cases kn kappa x xi HK) as [(n & ->)| ->].
      + left. cbn. apply Rdiv_lt_0_compat; auto. apply Rmult_lt_0_compat; apply exp_pos.
      + right. split; auto. cbn. unfold Rdiv. ring.
  Qed.
End Weights.

(** ** convex combinations *)
Lemma Rsum_combine_ext : forall (ws : list R) (X : list (list R)) (g h : R * list R -> R),
  (forall j w x, nth_error ws j = Some w -> nth_error X j = Some x -> g (w, x) = h (w, x)) ->
  Rsum (map g (combine ws X)) = Rsum (map h (combine ws X)).
Proof.
  induction ws as [|w ws IH]; intros [|x X] g h H; cbn [combine map]; auto. rewrite !Rsum_cons. f_equal.
  - apply (H 0%nat); reflexivity.
  - apply IH. intros j w' x' H1 H2. apply (H (S j)); auto.
Qed.

Lemma combination_fixed : forall ws X d p, convex ws -> length ws = length X -> length p = d ->
  (forall j w x, nth_error ws j = Some w -> nth_error X j = Some x -> w = 0 \/ x = p) -> combination ws d X = p.
Proof.
  intros ws X d p [W1 W2] HL Hp H. apply (coord_ext _ _ d); auto; [apply combination_length|]. intros i Hi.
  rewrite coord_combination by auto. rewrite (Rsum_combine_ext ws X _ (fun q => coord i p * fst q)).
  - rewrite Rsum_map_scal, combine_map_fst, W2 by auto. ring.
  - intros j w x H1 H2. cbn [fst snd]. destruct (H j w x H1 H2) as [-> | ->]; ring.
Qed.

Lemma dot_combination : forall v ws X d, length v = d -> (forall x, In x X -> length x = d) ->
  dot v (combination ws d X) = Rsum (map (fun q => fst q * dot v (snd q)) (combine ws X)).
Proof.
  intros v ws X d Hv HX. rewrite (dot_sum v _ d) by (auto; apply combination_length).
  rewrite (Rsum_map_ext _ _ (fun i => Rsum (map (fun q => fst q * (nth i v 0 * coord i (snd q))) (combine ws X)))).
  2:{ intros i Hi. apply in_seq in Hi. fold (coord i (combination ws d X)). rewrite coord_combination by lia. rewrite <- Rsum_map_scal. apply Rsum_map_ext. intros; ring. }
  rewrite (Rsum_swap _ _ (fun i q => fst q * (nth i v 0 * coord i (snd q)))). apply Rsum_map_ext. intros [w x] Hq. cbn [fst snd].
  rewrite Rsum_map_scal. f_equal. symmetry. apply dot_sum; auto. apply HX. eapply in_combine_r; eauto.
Qed.

Lemma sqnorm_vsub : forall u v, length u = length v -> sqnorm (vsub u v) = sqnorm u - 2 * dot v u + sqnorm v.
Proof.
  intros u v H. unfold sqnorm. rewrite dot_vsub_r by auto. rewrite (dot_comm (vsub u v) u), (dot_comm (vsub u v) v), !dot_vsub_r by auto.
  rewrite (dot_comm u v). ring.
Qed.
Lemma sqdist_eq : forall x y, length x = length y -> sqnorm (vsub x y) = 0 -> x = y.
Proof.
  intros x y HL H. apply (coord_ext _ _ (length x)); auto. intros i _. pose proof (sqnorm_0 _ H i) as H0. fold (coord i (vsub x y)) in H0.
  rewrite coord_vsub in H0 by auto. lra.
Qed.

(** the mean of points of at most the norm of p is p only if all of them are p *)
Lemma combination_extreme : forall ws X d p, convex ws -> length ws = length X -> (forall x, In x X -> length x = d) -> length p = d ->
  combination ws d X = p -> (forall j w x, nth_error ws j = Some w -> nth_error X j = Some x -> 0 < w -> sqnorm x <= sqnorm p) ->
  forall j w x, nth_error ws j = Some w -> nth_error X j = Some x -> 0 < w -> x = p.
Proof.
  intros ws X d p [W1 W2] HL HX Hp HC HM j w x Hw Hx Hpos.
  assert (S1 : Rsum (map (fun q => fst q * sqnorm (vsub (snd q) p)) (combine ws X)) <= 0).
  { rewrite (Rsum_combine_ext ws X _ (fun q => fst q * sqnorm (snd q) + (-2 * (fst q * dot p (snd q)) + sqnorm p * fst q))).
    2:{ intros i u y H1 H2. cbn [fst snd]. rewrite sqnorm_vsub by (rewrite (HX y), Hp; auto; eapply nth_error_In; eauto). ring. }
    rewrite !Rsum_map_plus, !Rsum_map_scal, combine_map_fst, W2 by auto. rewrite <- dot_combination with (d := d) by auto. rewrite HC.
    change (dot p p) with (sqnorm p).
    assert (Rsum (map (fun q => fst q * sqnorm (snd q)) (combine ws X)) <= sqnorm p * 1); [|lra].
    apply Rle_trans with (sqnorm p * Rsum (map fst (combine ws X))); [|rewrite combine_map_fst, W2 by auto; lra]. rewrite <- Rsum_map_scal.
    assert (G : forall i u y, nth_error ws i = Some u -> nth_error X i = Some y -> u * sqnorm y <= sqnorm p * u).
    { intros i u y H1 H2. assert (0 <= u) by (apply W1; eapply nth_error_In; eauto). destruct (Req_dec u 0) as [->|]; [lra|].
      assert (sqnorm y <= sqnorm p) by (apply (HM i u y); auto; lra). nra. }
    clear - G. revert X G. induction ws as [|u ws IH]; intros [|y X] G; cbn [combine map]; rewrite ?Rsum_cons; cbn [fst snd]; try (cbn; lra).
    assert (G0 := G 0%nat u y eq_refl eq_refl). assert (G1 := IH X (fun i => G (S i))). lra. }
  assert (S2 : w * sqnorm (vsub x p) <= 0).
  { apply Rle_trans with (2 := S1). clear - W1 Hw Hx. revert X j Hw Hx. induction ws as [|u ws IH]; intros [|y X] [|j] Hw Hx; cbn in Hw, Hx; try discriminate; cbn [combine map]; rewrite Rsum_cons; cbn [fst snd].
    - injection Hw as ->. injection Hx as ->.
      assert (0 <= Rsum (map (fun q : R * list R => fst q * sqnorm (vsub (snd q) p)) (combine ws X))); [|lra].
      apply Rsum_map_nonneg. intros [u z] Hq. cbn. apply Rmult_le_pos; [|apply sqnorm_nonneg]. apply W1. right. eapply in_combine_l; eauto.
    - assert (0 <= u * sqnorm (vsub y p)). { apply Rmult_le_pos; [|apply sqnorm_nonneg]. apply W1. cbn. auto. }
      assert (w * sqnorm (vsub x p) <= Rsum (map (fun q : R * list R => fst q * sqnorm (vsub (snd q) p)) (combine ws X))); [|lra].
      eapply IH; eauto. intros v Hv. apply W1. cbn. auto. }
  assert (N := sqnorm_nonneg (vsub x p)). apply sqdist_eq; [rewrite Hp; apply HX; eapply nth_error_In; eauto|]. nra.
Qed.

(** ** the step *)
Section Step.
  Variables (kn : kname) (kappa : fl R) (md : kmode) (f : vec -> fl R) (k : noise_model) (pp : vec -> vec) (b : nat) (partial cat : bool)
    (ks : list (crit R vec)) (save : bool).
  Let c := polar_cfg kn kappa md f k pp b partial cat ks save.

  Lemma polar_positions : forall s log (o : orc vec) s' kk m xr a,
    exec c s log -> perms_valid o s -> batches_fit b partial s -> step c o s = Ok s' ->
    nth_error (s_active s) kk = Some m -> nth_error (s_x s) m = Some xr -> nth_error (s_alpha s) m = Some [a] ->
    exists xb xr', takeM xr (run_sel c o s m) = Ok xb /\ xb <> [] /\ (forall v, In v xb -> In v xr) /\
      nth_error (s_x s') m = Some xr' /\ length xr' = length xr /\
      (forall n v, nth_error xr n = Some v ->
        (exists i cp, nth_error (run_sel c o s m) i = Some n /\ nth_error xb i = Some v /\
           nth_error (polar_row kn kappa md (map f xb) xb a) i = Some cp /\ nth_error xr' n = Some (pp (moved c s cp v (o_z o kk i)))) \/
        nth_error xr' n = Some (pp v)) /\
      (b = s_N s -> xb = xr /\ forall n v, nth_error xr n = Some v -> exists cp,
           nth_error (polar_row kn kappa md (map f xr) xr a) n = Some cp /\ nth_error xr' n = Some (pp (moved c s cp v (o_z o kk n)))).
  Proof.
    intros s log o s' kk m xr a E P HF HS Hk Hx Ha.
    pose proof (exec_wf _ _ _ E) as W. pose proof (perms_valid_ok _ _ P) as P'.
    assert (CC : cc_shape c (s_N s)) by (apply polar_shape; auto).
    destruct (step_char c o s W P' CC eq_refl) as (s2 & HS2 & W' & _ & _ & _ & (cps & ds & _ & _ & _ & _ & HR) & _).
    rewrite HS in HS2. injection HS2 as <-.
    assert (Hm : (m < s_M s)%nat) by (apply W; eapply nth_error_In; eauto).
    destruct (row_at_Some c s m W Hm) as (r & Hr & _).
    destruct (HR kk m r Hk Hr) as (r1 & cpr & dr & r' & HM & _ & _ & HP & Hr').
    rewrite (run_selp_length c o s m W P' Hm HF) in HM.
    destruct (row_at_fields _ _ _ Hr) as (F1 & F2 & F3). destruct (row_at_fields _ _ _ Hr') as (G1 & _ & _).
    rewrite Hx in F1. injection F1 as F1. rewrite Ha in F2. injection F2 as F2.
    unfold run_move in HM. rewrite <- F2, <- F1 in HM.
    apply bind_ok in HM. destruct HM as (xb & HB & HM). apply bind_ok in HM. destruct HM as (er & _ & HM).
    apply bind_ok in HM. destruct HM as (xp & HXP & HM). cbv zeta in HM. apply bind_ok in HM. destruct HM as (xr1 & HPUT & HM).
    assert (EX : r_x r1 = xr1) by (inversion HM; reflexivity). clear HM.
    rewrite HB in HXP. injection HXP as <-.
    pose proof (run_post_x _ _ _ _ HP) as HX'. rewrite EX in HX'.
    change (c_ccrow c) with (polar_row kn kappa md) in HPUT. change (c_f c) with f in HPUT.
    set (L := polar_row kn kappa md (map f xb) xb a) in *.
    assert (LL : length L = length xb) by (subst L; unfold polar_row, cc_polar; rewrite !map_length; auto).
    rewrite rowop_spread, spread_id in HPUT by auto.
    match type of HPUT with put1 _ _ ?U = _ => set (U1 := U) in HPUT end.
    assert (EU : forall n, nth_error U1 n = match nth_error xb n, nth_error L n with Some v, Some cp => Some (moved c s cp v (o_z o kk n)) | _, _ => None end).
    { intros n. subst U1. rewrite map2_nth, mapi_nth, map2_nth. destruct (nth_error xb n); auto. destruct (nth_error L n); reflexivity. }
    pose proof (takeM_length _ _ _ _ HB) as LB.
    assert (LU : length U1 = length (run_sel c o s m)) by (subst U1; rewrite map2_length, mapi_length, map2_length; lia).
    assert (GG : forall n v, nth_error xr n = Some v ->
        (exists i cp, nth_error (run_sel c o s m) i = Some n /\ nth_error xb i = Some v /\
           nth_error L i = Some cp /\ nth_error (r_x r') n = Some (pp (moved c s cp v (o_z o kk i)))) \/
        (~ In n (run_sel c o s m) /\ nth_error (r_x r') n = Some (pp v))).
    { intros n v Hn. pose proof (put1_nth _ _ _ _ _ n LU HPUT) as PN. rewrite HX', nth_error_map, PN.
      destruct (last_index n (run_sel c o s m)) as [i|] eqn:EL.
      - left. apply last_index_Some in EL. pose proof (takeM_nth _ _ _ _ _ _ HB EL) as T. rewrite Hn in T.
        destruct (nth_error_lt_Some _ L i) as (cp & Hcp). { rewrite LL. eapply nth_error_lt; eauto. }
        exists i, cp. rewrite (proj2 (Nat.ltb_lt _ _) (nth_error_lt _ _ _ _ Hn)), EU, T, Hcp. auto.
      - right. rewrite Hn. apply last_index_None in EL. auto. }
    exists xb, (r_x r'). split; auto. split.
    { intros ->. rewrite (run_sel_length c o s m W P' Hm) in LB. cbn [length] in LB. destruct W. lia. }
    split. { intros v Hv. exact (takeM_In _ _ _ _ _ HB Hv). }
    split; auto. split. { rewrite HX', map_length. apply (put1_length _ _ _ _ _ HPUT). }
    split. { intros n v Hn. destruct (GG n v Hn) as [?|[_ ?]]; auto. }
    intros Hb. assert (ES : run_sel c o s m = seq 0 (s_N s)).
    { unfold run_sel. change (c_bsize c) with b. rewrite (proj2 (Nat.eqb_eq _ _) Hb). auto. }
    assert (LX : length xr = s_N s) by exact (proj2 (w_x _ _ W) _ _ Hx).
    assert (EB : xb = xr). { rewrite ES, (RelabelFacts.takeM_seq _ _ _ LX) in HB. injection HB as <-. auto. }
    split; auto. intros n v Hn. destruct (GG n v Hn) as [(i & cp & H1 & H2 & H3 & H4)|[H1 _]].
    - rewrite ES in H1. assert (i = n). { apply nth_error_nth with (d := 0%nat) in H1 as H1'. rewrite seq_nth in H1'; [lia|]. apply nth_error_lt in H1. rewrite seq_length in H1. auto. }
      subst i. exists cp. split; auto. rewrite <- EB. auto.
    - exfalso. apply H1. rewrite ES. apply in_seq. apply nth_error_lt in Hn. lia.
  Qed.

  Hypothesis HK : kappa_ok kappa.

  Lemma polar_step_keeps : forall s log o s', exec c s log -> perms_valid o s -> batches_fit b partial s -> step c o s = Ok s' ->
    s_M s' = s_M s /\ s_N s' = s_N s /\ s_alpha s' = s_alpha s /\ s_sigma s' = s_sigma s /\ s_lamda s' = s_lamda s /\ s_dt s' = s_dt s /\ s_active s' = s_active s.
  Proof.
    intros s log o s' E P HF HS. pose proof (exec_wf _ _ _ E) as W. pose proof (perms_valid_ok _ _ P) as P'.
    destruct (step_char c o s W P' (polar_shape _ _ _ _ _ _ _ _ _ _ _ _ HF) eq_refl) as (s2 & HS2 & _ & H & _).
    rewrite HS in HS2. injection HS2 as <-. tauto.
  Qed.
  Lemma polar_term_keeps : forall s b' s', terminate c s = Ok (b', s') ->
    s_x s' = s_x s /\ s_M s' = s_M s /\ s_N s' = s_N s /\ s_alpha s' = s_alpha s /\ s_sigma s' = s_sigma s /\ s_lamda s' = s_lamda s /\ s_dt s' = s_dt s.
  Proof.
    intros s b' s' H. unfold terminate in H. apply bind_ok in H. destruct H as (q & H & H2). inversion H2; subst.
    unfold select_active_runs in H. apply bind_ok in H. destruct H as (l & _ & H). inversion H. subst. destruct s; cbn; tauto.
  Qed.

  (** properties of the parameters are kept *)
  Definition par_inv (P : st R vec -> Prop) : Prop := forall s s' : st R vec, s_M s' = s_M s -> s_alpha s' = s_alpha s -> s_sigma s' = s_sigma s ->
    s_lamda s' = s_lamda s -> s_dt s' = s_dt s -> P s -> P s'.
  Lemma usable_inv : par_inv (usable md).
  Proof.
    intros s s' H1 H2 H3 H4 H5 (A & (la & dt & sg & B) & C). split; [|split].
    - intros i Hi. rewrite H2. apply A. congruence.
    - exists la, dt, sg. unfold parameters in *. rewrite H3, H4, H5. auto.
    - intros HM m a. rewrite H2. apply C. auto.
  Qed.
  Lemma free_inv : par_inv (fun s => usable md s /\ noise_free s).
  Proof.
    intros s s' H1 H2 H3 H4 H5 (A & (la & dt & B & C)). split; [eapply usable_inv; eauto|].
    exists la, dt. unfold parameters in *. rewrite H3, H4, H5. auto.
  Qed.

  Lemma later_if_keep : forall P s log d s', par_inv P -> exec c s log -> P s -> batches_fit b partial s -> later_if P c d s s' ->
    (exists log', exec c s' log') /\ P s' /\ batches_fit b partial s' /\ s_N s' = s_N s.
  Proof.
    intros P s log d s' HP E PS HF H. induction H as [|s1 o s2 H IH PV HD HS|s1 b' s2 H IH HT|s1 s2 H IH HC P2|s1 H IH].
    - eauto.
    - destruct IH as ((l & E1) & A1 & F1 & N1). destruct (polar_step_keeps s1 l o s2 E1 PV F1 HS) as (K1 & K2 & K3 & K4 & K5 & K6 & K7).
      split; [eexists; eapply ex_step; eauto|]. split; [eapply HP; eauto|]. split; [|congruence]. unfold batches_fit in *. rewrite K2. auto.
    - destruct IH as ((l & E1) & A1 & F1 & N1). destruct (polar_term_keeps s1 b' s2 HT) as (K0 & K1 & K2 & K3 & K4 & K5 & K6).
      split; [eexists; eapply ex_term; eauto|]. split; [eapply HP; eauto|]. split; [|congruence]. unfold batches_fit in *. rewrite K2. auto.
    - destruct IH as ((l & E1) & _ & F1 & N1). split; [eexists; eapply ex_params; eauto|]. destruct (params_keep _ _ HC) as (_ & _ & K2).
      split; auto. split; [|congruence]. unfold batches_fit in *. rewrite K2. auto.
    - destruct IH as ((l & E1) & A1 & F1 & N1). destruct (reset_keeps s1) as (K0 & K1 & K2 & K3 & K4 & K5 & K6).
      split; [eexists; eapply ex_reset; eauto|]. split; [eapply HP; eauto|]. split; [|congruence]. unfold batches_fit in *. rewrite K2. auto.
  Qed.

  (** the positions after a step over the reals: a finite ensemble at which f is finite *)
  Lemma polar_real : forall s log o s' m d X la dt sg, exec c s log -> perms_valid o s -> finite_draws d o -> usable md s -> parameters la dt sg s ->
    batches_fit b partial s -> step c o s = Ok s' -> ensemble_at s m d X -> (forall x, In x X -> exists y, f (floats x) = Fin y) ->
    exists xr' a, nth_error (s_x s') m = Some xr' /\ length xr' = length X /\ nth_error (s_alpha s) m = Some [Fin a] /\ (md = MAlpha -> 0 < a) /\
      forall n x, nth_error X n = Some x -> nth_error xr' n = Some (pp (floats x)) \/
        exists Y cp z, (forall y, In y Y -> In y X) /\ In x Y /\ length z = d /\
          cp = combination (pws kn kappa a (kf_of md a) (map f (map floats Y)) Y x) d Y /\
          convex (pws kn kappa a (kf_of md a) (map f (map floats Y)) Y x) /\
          length (pws kn kappa a (kf_of md a) (map f (map floats Y)) Y x) = length Y /\
          nth_error xr' n = Some (pp (floats (rmove k la dt sg cp x z))).
  Proof.
    intros s log o s' m d X la dt sg E P HD (HA & _ & HMA) HP HF HS [HX1 HX2] Hf.
    pose proof (exec_wf _ _ _ E) as W.
    assert (Hlt : (m < s_M s)%nat). { rewrite <- (proj1 (w_x _ _ W)). eapply nth_error_lt; eauto. }
    destruct (HA m Hlt) as (a & Ha). assert (Hpos : md = MAlpha -> 0 < a) by (intros ->; eapply HMA; eauto).
    destruct (in_dec Nat.eq_dec m (s_active s)) as [Hm|Hm].
    - destruct (In_nth_error _ _ Hm) as (kk & Hk).
      destruct (polar_positions s log o s' kk m _ _ E P HF HS Hk HX1 Ha) as (xb & xr' & HB & HN & HI & Hx' & HL & HU & _).
      exists xr', a. rewrite map_length in HL. split; auto. split; auto. split; auto. split; auto. intros n x Hn.
      destruct (HU n (floats x)) as [(i & cp & H1 & H2 & H3 & H4)|H1]; [rewrite nth_error_map, Hn; auto| |auto].
      right. destruct (choose_points (fun q => In q X) xb) as (Y & -> & HY).
      { intros v Hv. apply HI in Hv. apply in_map_iff in Hv. destruct Hv as (q & <- & Hq). eauto. }
      rewrite nth_error_map in H2. destruct (nth_error Y i) as [y|] eqn:Ey; [|discriminate]. cbn in H2. injection H2 as H2. apply floats_inj in H2. subst y.
      assert (HE : forall e, In e (map f (map floats Y)) -> exists y, e = Fin y).
      { intros e He. rewrite map_map in He. apply in_map_iff in He. destruct He as (q & <- & Hq). auto. }
      assert (EN : ensemble (length (map f (map floats Y))) d Y).
      { split; [rewrite !map_length; auto|]. intros q Hq. apply HX2. auto. }
      destruct (polar_row_finite kn kappa md a _ d Y HK Hpos HE EN) as (R1 & R2). rewrite R1, nth_error_map, Ey in H3. injection H3 as <-.
      destruct (R2 x (nth_error_In _ _ Ey)) as (R3 & R4). destruct (HD kk i) as (z & Hz & Lz).
      exists Y. eexists. exists z. split; auto. split; [eapply nth_error_In; eauto|]. split; auto. split; [reflexivity|]. split; auto. split; auto.
      rewrite H4, Hz. do 2 f_equal. apply (moved_floats f k pp b partial cat ks save); auto.
    - exists (map pp (map floats X)), a. rewrite !map_length. split.
      { apply (step_positions_inactive c s log o s' m _ E P (polar_plain _ _ _ _ _ _ _ _ _ _ _ _ HF) HS Hm HX1). }
      split; auto. split; auto. split; auto. intros n x Hn. left. rewrite map_map, nth_error_map, Hn. auto.
  Qed.

  Lemma apart_point : forall a kf E Y x d, kappa_ok kappa -> apart kn kappa Y -> In x Y -> (forall e, In e E -> exists y, e = Fin y) -> length E = length Y ->
    (forall y, In y Y -> length y = d) -> convex (pws kn kappa a kf E Y x) -> length (pws kn kappa a kf E Y x) = length Y ->
    combination (pws kn kappa a kf E Y x) d Y = x.
  Proof.
    intros a kf E Y x d _ HA Hx HE HL Hd C1 C2. apply combination_fixed; auto. intros j w y Hw Hy.
    destruct (pws_nth kn kappa a kf E Y x HK HE HL Hx j y Hy) as (e & w' & _ & Hw' & -> & _). rewrite Hw in Hw'. injection Hw' as ->.
    destruct (HA y x) as [->|H0]; auto. { eapply nth_error_In; eauto. }
    left. apply vanish_iff in H0; auto. rewrite H0. cbn. unfold Rdiv. ring.
  Qed.

  Theorem polar_absorb_step : forall s log o s' m d X, exec c s log -> perms_valid o s -> finite_draws d o -> usable md s -> batches_fit b partial s ->
    k <> NConst -> (forall x, In x X -> exists y, f (floats x) = Fin y) -> (forall x, In x X -> pp (floats x) = floats x) -> apart kn kappa X ->
    step c o s = Ok s' -> ensemble_at s m d X -> ensemble_at s' m d X.
  Proof.
    intros s log o s' m d X E P HD HU HF Hk Hf Hpp HA HS HX. destruct HU as (U1 & (la & dt & sg & HP) & U3).
    destruct (polar_real s log o s' m d X la dt sg E P HD (conj U1 (conj (ex_intro _ la (ex_intro _ dt (ex_intro _ sg HP))) U3)) HP HF HS HX Hf)
      as (xr' & a & H1 & H2 & H3 & H4 & H5).
    destruct (polar_step_keeps s log o s' E P HF HS) as (_ & K2 & _). destruct HX as [HX1 HX2].
    split; [|rewrite K2; auto]. rewrite H1. f_equal. apply nth_error_ext. intros n. rewrite nth_error_map.
    destruct (nth_error X n) as [x|] eqn:En; cbn [option_map].
    - assert (Hx := nth_error_In _ _ En). destruct (H5 n x En) as [-> | (Y & cp & z & Y1 & Y2 & Y3 & Y4 & Y5 & Y6 & ->)]; [rewrite Hpp; auto|].
      rewrite apart_point in Y4; auto.
      + subst cp. rewrite rmove_same, Hpp by (auto; rewrite (proj2 HX2 x Hx); auto). auto.
      + intros u v Hu Hv. apply HA; auto.
      + intros e He. rewrite map_map in He. apply in_map_iff in He. destruct He as (q & <- & Hq). auto.
      + rewrite !map_length. auto.
      + intros y Hy. apply HX2. auto.
    - apply nth_error_None in En. apply nth_error_None. apply Nat.le_trans with (2 := En). apply Nat.eq_le_incl. exact H2.
  Qed.

  Theorem polar_absorbing : forall s log s' m d X, exec c s log -> usable md s -> batches_fit b partial s ->
    k <> NConst -> (forall x, In x X -> exists y, f (floats x) = Fin y) -> (forall x, In x X -> pp (floats x) = floats x) -> apart kn kappa X ->
    ensemble_at s m d X -> later_if (usable md) c d s s' -> ensemble_at s' m d X.
  Proof.
    intros s log s' m d X E HU HF Hk Hf Hpp HA HX H. induction H as [|s1 o s2 H IH P HD HS|s1 b' s2 H IH HT|s1 s2 H IH HC P2|s1 H IH]; auto.
    - destruct (later_if_keep (usable md) s log d s1 usable_inv E HU HF H) as ((l & E1) & A1 & F1 & N1). eapply polar_absorb_step; eauto.
    - destruct (polar_term_keeps s1 b' s2 HT) as (K0 & K1 & K2 & _). unfold ensemble_at in *. rewrite K0, K2. auto.
    - destruct (params_keep _ _ HC) as (K0 & _ & K2). unfold ensemble_at in *. rewrite K0, K2. auto.
  Qed.

  (** *** the step with all particles *)
  Lemma polar_full : forall s log o s' m d X la dt sg, exec c s log -> perms_valid o s -> finite_draws d o -> usable md s -> parameters la dt sg s ->
    b = s_N s -> In m (s_active s) -> step c o s = Ok s' -> ensemble_at s m d X -> (forall x, In x X -> exists y, f (floats x) = Fin y) ->
    exists xr' a, nth_error (s_x s') m = Some xr' /\ length xr' = length X /\ nth_error (s_alpha s) m = Some [Fin a] /\
      forall n x, nth_error X n = Some x -> 
        convex (pws kn kappa a (kf_of md a) (map f (map floats X)) X x) /\ length (pws kn kappa a (kf_of md a) (map f (map floats X)) X x) = length X /\
        exists z, length z = d /\
          nth_error xr' n = Some (pp (floats (rmove k la dt sg (combination (pws kn kappa a (kf_of md a) (map f (map floats X)) X x) d X) x z))).
  Proof.
    intros s log o s' m d X la dt sg E P HD (HA & _ & HMA) HP HB Hm HS [HX1 HX2] Hf.
    pose proof (exec_wf _ _ _ E) as W. assert (HF : batches_fit b partial s) by (right; auto).
    assert (Hlt : (m < s_M s)%nat). { rewrite <- (proj1 (w_x _ _ W)). eapply nth_error_lt; eauto. }
    destruct (HA m Hlt) as (a & Ha). assert (Hpos : md = MAlpha -> 0 < a) by (intros ->; eapply HMA; eauto).
    destruct (In_nth_error _ _ Hm) as (kk & Hk).
    destruct (polar_positions s log o s' kk m _ _ E P HF HS Hk HX1 Ha) as (xb & xr' & _ & _ & _ & Hx' & HL & _ & HU).
    exists xr', a. rewrite map_length in HL. split; auto. split; auto. split; auto. intros n x Hn.
    destruct (HU HB) as (_ & HU'). destruct (HU' n (floats x)) as (cp & H1 & H2); [rewrite nth_error_map, Hn; auto|].
    assert (HE : forall e, In e (map f (map floats X)) -> exists y, e = Fin y).
    { intros e He. rewrite map_map in He. apply in_map_iff in He. destruct He as (q & <- & Hq). auto. }
    assert (EN : ensemble (length (map f (map floats X))) d X).
    { split; [rewrite !map_length; auto|]. intros q Hq. apply HX2. auto. }
    destruct (polar_row_finite kn kappa md a _ d X HK Hpos HE EN) as (R1 & R2). rewrite R1, nth_error_map, Hn in H1. injection H1 as <-.
    destruct (R2 x (nth_error_In _ _ Hn)) as (R3 & R4). destruct (HD kk n) as (z & Hz & Lz). split; auto. split; auto.
    exists z. split; auto. rewrite H2, Hz. do 2 f_equal. apply (moved_floats f k pp b partial cat ks save); auto.
  Qed.
End Step.

(** ** rest *)
Lemma coord_rmove0 : forall k la dt cp x z d i, length cp = d -> length x = d -> length z = d ->
  coord i (rmove k la dt 0 cp x z) = (1 - la * dt) * coord i x + la * dt * coord i cp.
Proof. intros. rewrite (coord_rmove _ _ _ _ _ _ _ _ d) by auto. ring. Qed.

Lemma list_max : forall (g : list R -> R) (l : list (list R)), l <> [] -> exists p, In p l /\ forall q, In q l -> g q <= g p.
Proof.
  induction l as [|x l IH]; intros H; [congruence|]. destruct l as [|y l].
  - exists x. split; [cbn; auto|]. intros q [<-|[]]. lra.
  - destruct IH as (p & Hp & IH); [discriminate|]. destruct (Rle_dec (g x) (g p)) as [L|L].
    + exists p. split; [right; auto|]. intros q [<-|Hq]; auto.
    + exists x. split; [left; auto|]. intros q [<-|Hq]; [lra|]. specialize (IH q Hq). lra.
Qed.

Lemma rest_apart : forall kn kappa a kf E X d, kappa_ok kappa -> (forall e, In e E -> exists y, e = Fin y) -> length E = length X ->
  (forall x, In x X -> length x = d) ->
  (forall x, In x X -> convex (pws kn kappa a kf E X x) /\ length (pws kn kappa a kf E X x) = length X /\ combination (pws kn kappa a kf E X x) d X = x) ->
  apart kn kappa X.
Proof.
  intros kn kappa a kf E X d HK HE HL HX H.
  set (sees := fun x y => match kneg_log kn kappa y x with Fin _ => true | _ => false end).
  assert (SY : forall x y, length x = d -> length y = d -> sees x y = sees y x).
  { intros x y Lx Ly. unfold sees. assert (L2 : length y = length x) by congruence. rewrite (proj2 (kernel_sym kn kappa y x L2)). auto. }
  set (other := fun x y => if list_eq_dec Req_EM_T x y then false else sees x y).
  set (rl := filter (fun x => existsb (other x) X) X).
  destruct rl as [|x0 l] eqn:ER.
  - intros x y Hx Hy. destruct (list_eq_dec Req_EM_T x y) as [->|NE]; auto. right. apply vanish_iff; auto.
    destruct (nl_cases kn kappa x y HK) as [(n & Hn)|]; auto. exfalso.
    assert (In y rl); [|rewrite ER in *; auto]. apply filter_In. split; auto. apply existsb_exists. exists x. split; auto.
    unfold other. destruct (list_eq_dec Req_EM_T y x) as [->|]; [congruence|]. unfold sees. rewrite Hn. auto.
  - exfalso. destruct (list_max sqnorm rl) as (p & Hp & HM); [rewrite ER; discriminate|].
    apply filter_In in Hp. destruct Hp as (Hp & HQ). apply existsb_exists in HQ. destruct HQ as (q & Hq & HO).
    unfold other in HO. destruct (list_eq_dec Req_EM_T p q) as [|NE]; [discriminate|].
    destruct (H p Hp) as (C1 & C2 & C3). destruct (In_nth_error _ _ Hq) as (j & Hj).
    destruct (pws_nth kn kappa a kf E X p HK HE HL Hp j q Hj) as (e & w & _ & Hw & _ & Hpos).
    apply NE. symmetry. apply (combination_extreme _ X d p C1 C2 HX (HX p Hp) C3) with (j := j) (w := w); auto.
    + intros i v y Hv Hy Hvp. destruct (list_eq_dec Req_EM_T y p) as [->|NE2]; [lra|]. assert (Hy2 := nth_error_In _ _ Hy).
      apply HM. apply filter_In. split; auto. apply existsb_exists. exists p. split; auto. unfold other.
      destruct (list_eq_dec Req_EM_T y p) as [->|_]; [congruence|]. rewrite SY by auto. unfold sees.
      destruct (pws_nth kn kappa a kf E X p HK HE HL Hp i y Hy) as (e' & w' & _ & Hw' & _ & Hpos'). rewrite Hv in Hw'. injection Hw' as <-.
      destruct Hpos' as [_|[Z _]]; [|lra]. destruct (nl_cases kn kappa y p HK) as [(n & ->)|HI]; auto.
      exfalso. destruct (pws_nth kn kappa a kf E X p HK HE HL Hp i y Hy) as (e2 & w2 & _ & Hw2 & E2 & _). rewrite Hv in Hw2. injection Hw2 as <-.
      rewrite HI in E2. cbn in E2. unfold Rdiv in E2. lra.
    + destruct Hpos as [|[_ HI]]; auto. exfalso. unfold sees in HO. rewrite HI in HO. discriminate.
Qed.

Theorem polar_rest : forall kn kappa md f k b partial cat ks save s log o s' m d X la dt, kappa_ok kappa -> finite_obj d f ->
  let c := polar_cfg kn kappa md f k (fun v => v) b partial cat ks save in
  exec c s log -> perms_valid o s -> finite_draws d o -> usable md s -> parameters la dt 0 s -> la * dt <> 0 ->
  b = s_N s -> In m (s_active s) -> step c o s = Ok s' -> ensemble_at s m d X ->
  (nth_error (s_x s') m = nth_error (s_x s) m <-> apart kn kappa X).
Proof.
  intros kn kappa md f k b partial cat ks save s log o s' m d X la dt HK HO c E P HD HU HP HT HB Hm HS HX.
  assert (Hf : forall x, In x X -> exists y, f (floats x) = Fin y) by (intros x Hx; apply HO, (proj2 (proj2 HX)); auto).
  destruct (polar_full kn kappa md f k (fun v => v) b partial cat ks save HK s log o s' m d X la dt 0 E P HD HU HP HB Hm HS HX Hf) as (xr' & a & H1 & H2 & H3 & H4).
  destruct HX as [HX1 HX2]. rewrite H1, HX1.
  assert (HE : forall e, In e (map f (map floats X)) -> exists y, e = Fin y).
  { intros e He. rewrite map_map in He. apply in_map_iff in He. destruct He as (q & <- & Hq). auto. }
  assert (HL : length (map f (map floats X)) = length X) by (rewrite !map_length; auto).
  split.
  - intros H0. injection H0 as ->. apply (rest_apart kn kappa a (kf_of md a) (map f (map floats X)) X d); auto; [apply HX2|].
    intros x Hx. destruct (In_nth_error _ _ Hx) as (n & Hn). destruct (H4 n x Hn) as (C1 & C2 & z & Lz & Hz). split; auto. split; auto.
    rewrite nth_error_map, Hn in Hz. cbn [option_map] in Hz. injection Hz as Hz. apply floats_inj in Hz.
    set (cp := combination (pws kn kappa a (kf_of md a) (map f (map floats X)) X x) d X) in *.
    assert (Lc : length cp = d) by apply combination_length. assert (Lx : length x = d) by (apply HX2; auto).
    apply (coord_ext _ _ d); auto. intros i Hi. pose proof (coord_rmove0 k la dt cp x z d i Lc Lx Lz) as HC. rewrite <- Hz in HC.
    assert (la * dt * (coord i cp - coord i x) = 0) by lra. apply Rmult_integral in H. destruct H; [contradiction|lra].
  - intros HA. f_equal. apply nth_error_ext. intros n. rewrite nth_error_map.
    destruct (nth_error X n) as [x|] eqn:En; cbn [option_map].
    + destruct (H4 n x En) as (C1 & C2 & z & Lz & ->). assert (Hx := nth_error_In _ _ En). assert (Lx : length x = d) by (apply HX2; auto).
      rewrite (apart_point kn kappa) by (auto; apply HX2). do 2 f_equal. apply (coord_ext _ _ d); auto; [apply length_rmove; auto|].
      intros i Hi. rewrite (coord_rmove0 _ _ _ _ _ _ d) by auto. ring.
    + apply nth_error_None in En. apply nth_error_None. apply Nat.le_trans with (2 := En). apply Nat.eq_le_incl. exact H2.
Qed.
