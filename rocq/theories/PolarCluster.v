(** * Proofs on clusters in noise-free PolarCBO runs *)
From Coq Require Import String List Arith Bool Reals Permutation Lia Lra.
From Verif Require Import Scalar Np NpFacts State Pdyn PdynFacts PdynStep PdynRun PdynOk Exec RunFacts MoveFacts
  RVec RVecFacts Consensus ConsSpec ConsFacts PostProc Cbo CboSpec CboFacts AbsorbFacts Polar PolarSpec PolarFacts PolarRun PolarRunSpec TwinRow PolarSym PolarRestSpec PolarRest.
Import ListNotations.
Open Scope R_scope.

(** which particles see each other *)
Lemma unseen : forall kn kappa x y, 0 < kappa -> (kcall kn (Fin kappa) x y = Fin 0 <-> kn = KConst /\ kappa < dist x y).
Proof.
  intros kn kappa x y HK. assert (HK' : kappa_ok (Fin kappa)) by exact HK. rewrite vanish_iff by auto.
  destruct kn; cbn [kneg_log].
  - unfold gauss_neg_log. destruct (gauss_factor (Fin kappa) HK') as (c & -> & Hc). cbn. split; [discriminate|intros [? _]; discriminate].
  - unfold laplace_neg_log. destruct (finv_kappa (Fin kappa) HK') as (c & -> & Hc). cbn. split; [discriminate|intros [? _]; discriminate].
  - unfold const_neg_log. assert (EQ : fdiv (Fin (dist x y)) (Fin kappa) = Fin (dist x y / kappa)).
    { cbn. unfold k_is0. cbn. replace (Rltb kappa 0) with false by (symmetry; apply Rltb_false; lra).
      replace (Rltb 0 kappa) with true by (symmetry; apply Rltb_true; lra). auto. }
    rewrite EQ. unfold pow_inf.
    assert (HL : dist x y / kappa * kappa = dist x y) by (field; lra). set (q := dist x y / kappa) in *.
    split.
    + intros H. split; auto. destruct (Rltb q 1); [discriminate|]. destruct (Rltb 1 q) eqn:E2; [|discriminate]. apply Rltb_true in E2. nra.
    + intros [_ H]. assert (1 < q) by nra.
      replace (Rltb q 1) with false by (symmetry; apply Rltb_false; lra). replace (Rltb 1 q) with true by (symmetry; apply Rltb_true; lra). auto.
  - split; [|intros [? _]; discriminate]. intros H. exfalso. unfold invquad_neg_log in H.
    assert (C : exists q, invquad_call (Fin kappa) x y = Fin (/ (1 + q * q))).
    { unfold invquad_call. destruct (finv_kappa (Fin kappa) HK') as (c & -> & Hc). cbn [fmul fadd kmul kadd KOps_R].
      exists (c * dist x y). change (fdiv (Fin 1) ?a) with (finv a). rewrite finv_fin; [auto|]. assert (Q := Rle_0_sqr (c * dist x y)). unfold Rsqr in Q. lra. }
    destruct C as (q & HC). rewrite HC in H. assert (0 < / (1 + q * q)). { apply Rinv_0_lt_compat. assert (Q := Rle_0_sqr q). unfold Rsqr in Q. lra. }
    unfold flog in H. replace (Rltb 0 (/ (1 + q * q))) with true in H by (symmetry; apply Rltb_true; auto). discriminate.
Qed.

(** ** noise-free moves *)
Definition glide (th : R) (cp x : list R) : list R := map2 (fun u v => (1 - th) * u + th * v) x cp.
Lemma rmove_glide : forall k la dt cp x z d, length cp = d -> length x = d -> length z = d -> rmove k la dt 0 cp x z = glide (la * dt) cp x.
Proof.
  intros k la dt cp x z d Hc Hx Hz. apply (coord_ext _ _ d); [apply length_rmove; auto|unfold glide; rewrite map2_length; lia|].
  intros i Hi. rewrite (coord_rmove0 _ _ _ _ _ _ d) by auto. unfold glide, coord. symmetry. apply nth_error_nth. rewrite map2_nth.
  rewrite (nth_error_nth' x 0), (nth_error_nth' cp 0) by lia. auto.
Qed.
Lemma glide_length : forall th cp x d, length cp = d -> length x = d -> length (glide th cp x) = d.
Proof. intros. unfold glide. rewrite map2_length. lia. Qed.
Lemma glide_combination : forall th cp x d, length cp = d -> length x = d -> glide th cp x = combination [1 - th; th] d [x; cp].
Proof.
  intros th cp x d Hc Hx. apply (coord_ext _ _ d); [apply glide_length; auto|apply combination_length|]. intros i Hi.
  rewrite coord_combination by auto. cbn [combine map fst snd]. rewrite !Rsum_cons. cbn [Rsum fold_right].
  unfold glide, coord. transitivity ((1 - th) * nth i x 0 + th * nth i cp 0); [|cbn; ring].
  apply nth_error_nth. rewrite map2_nth, (nth_error_nth' x 0), (nth_error_nth' cp 0) by lia. auto.
Qed.
Lemma glide_region : forall C th cp x d, convex_region d C -> 0 <= th <= 1 -> length cp = d -> length x = d -> C x -> C cp -> C (glide th cp x).
Proof.
  intros C th cp x d HC Hth Hc Hx C1 C2. rewrite (glide_combination th cp x d) by auto. apply HC; auto.
  - split; [intros w [<-|[<-|[]]]; lra|]. rewrite !Rsum_cons. cbn. ring.
  - intros y [<-|[<-|[]]]; auto.
Qed.

Lemma combination_region : forall C ws Y x d, convex_region d C -> convex ws -> length ws = length Y -> length x = d -> C x ->
  (forall n w y, nth_error ws n = Some w -> nth_error Y n = Some y -> w = 0 \/ (length y = d /\ C y)) -> C (combination ws d Y).
Proof.
  intros C ws Y x d HC W HL Hx Cx H. set (Y' := map2 (fun w y => if Req_EM_T w 0 then x else y) ws Y).
  assert (EY : combination ws d Y = combination ws d Y').
  { unfold combination. apply map_ext. intros i. subst Y'. clear. revert Y. induction ws as [|w ws IH]; intros [|y Y]; auto.
    cbn [map2 combine map]. rewrite !Rsum_cons, IH. f_equal. cbn [fst snd]. destruct (Req_EM_T w 0) as [->|]; auto. ring. }
  rewrite EY. apply HC; auto; [subst Y'; rewrite map2_length; lia|].
  intros q Hq. apply In_nth_error in Hq. destruct Hq as (n & Hn). subst Y'. rewrite map2_nth in Hn.
  destruct (nth_error ws n) as [w|] eqn:E1; [|discriminate]. destruct (nth_error Y n) as [y|] eqn:E2; [|discriminate]. injection Hn as <-.
  destruct (Req_EM_T w 0); auto. destruct (H n w y E1 E2); [contradiction|auto].
Qed.

(** ** particles stay in their regions *)
Section Regions.
  Variables (kn : kname) (kappa : fl R) (md : kmode) (f : vec -> fl R) (k : noise_model) (pp : vec -> vec) (b : nat) (partial cat : bool)
    (ks : list (crit R vec)) (save : bool) (d : nat) (C : nat -> list R -> Prop).
  Let c := polar_cfg kn kappa md f k pp b partial cat ks save.
  Hypothesis HK : kappa_ok kappa.
  Hypothesis HC : clusters kn kappa d C.
  Hypothesis Hf : forall j p, length p = d -> C j p -> exists y, f (floats p) = Fin y.
  Hypothesis Hpp : forall j p, length p = d -> C j p -> pp (floats p) = floats p.

  Lemma lab_of : forall lab X n x, clustered C lab X -> nth_error X n = Some x -> exists j, nth_error lab n = Some j /\ C j x.
  Proof.
    intros lab X n x [HL H] Hn. destruct (nth_error_lt_Some _ lab n) as (j & Hj). { rewrite HL. eapply nth_error_lt; eauto. } eauto.
  Qed.

  Lemma fin_on : forall lab X, clustered C lab X -> (forall x, In x X -> length x = d) -> forall x, In x X -> exists y, f (floats x) = Fin y.
  Proof. intros lab X HX HL x Hx. destruct (In_nth_error _ _ Hx) as (n & Hn). destruct (lab_of lab X n x HX Hn) as (j & _ & Hj). eapply Hf; eauto. Qed.

  Lemma region_point : forall a kf E lab X Y x j, clustered C lab X -> (forall y, In y X -> length y = d) -> (forall y, In y Y -> In y X) -> In x Y -> C j x ->
    (forall e, In e E -> exists y, e = Fin y) -> length E = length Y -> convex (pws kn kappa a kf E Y x) -> length (pws kn kappa a kf E Y x) = length Y ->
    C j (combination (pws kn kappa a kf E Y x) d Y).
  Proof.
    intros a kf E lab X Y x j HX HL HY Hx Hj HE HLE W1 W2. apply combination_region with (x := x); auto; [apply HC|].
    intros n w y Hw Hy. assert (Hy2 := nth_error_In _ _ Hy). destruct (In_nth_error _ _ (HY y Hy2)) as (n' & Hn').
    destruct (lab_of lab X n' y HX Hn') as (i & _ & Hi). destruct (Nat.eq_dec i j) as [->|NE]; [right; auto|]. left.
    destruct (pws_nth kn kappa a kf E Y x HK HE HLE Hx n y Hy) as (e & w' & _ & Hw' & -> & _). rewrite Hw in Hw'. injection Hw' as ->.
    assert (H0 := proj2 HC i j y x NE (HL y (HY y Hy2)) (HL x (HY x Hx)) Hi Hj). apply vanish_iff in H0; auto. rewrite H0. cbn. unfold Rdiv. ring.
  Qed.

  Lemma regions_step : forall s log o s' m lab X, exec c s log -> perms_valid o s -> finite_draws d o -> usable md s /\ noise_free s ->
    batches_fit b partial s -> step c o s = Ok s' -> ensemble_at s m d X -> clustered C lab X ->
    exists Y, ensemble_at s' m d Y /\ clustered C lab Y.
  Proof.
    intros s log o s' m lab X E P HD (HU & (la & dt & HP & Hth)) HF HS HX HCL.
    assert (HL : forall x, In x X -> length x = d) by apply HX.
    destruct (polar_real kn kappa md f k pp b partial cat ks save HK s log o s' m d X la dt 0 E P HD HU HP HF HS HX (fin_on lab X HCL HL))
      as (xr' & a & H1 & H2 & H3 & H4 & H5).
    destruct (polar_step_keeps kn kappa md f k pp b partial cat ks save s log o s' E P HF HS) as (_ & K2 & _).
    assert (G : forall n x, nth_error X n = Some x -> exists y, nth_error xr' n = Some (floats y) /\ length y = d /\ forall j, nth_error lab n = Some j -> C j y).
    { intros n x Hn. destruct (lab_of lab X n x HCL Hn) as (j & Hj & Cj). assert (Hx := nth_error_In _ _ Hn).
      destruct (H5 n x Hn) as [H6 | (Y & cp & z & Y1 & Y2 & Y3 & Y4 & Y5 & Y6 & H6)].
      - exists x. rewrite H6, (Hpp j) by auto. split; auto. split; auto. intros j' Hj'. congruence.
      - assert (Lc : length cp = d) by (rewrite Y4; apply combination_length).
        rewrite (rmove_glide k la dt cp x z d) in H6 by auto.
        assert (C j (glide (la * dt) cp x)).
        { apply glide_region with (d := d); auto; [apply HC|]. rewrite Y4. apply (region_point a (kf_of md a) _ lab X); auto.
          - intros e He. rewrite map_map in He. apply in_map_iff in He. destruct He as (q & <- & Hq). eapply fin_on; eauto.
          - rewrite !map_length. auto. }
        exists (glide (la * dt) cp x). assert (length (glide (la * dt) cp x) = d) by (apply glide_length; auto).
        rewrite H6, (Hpp j) by auto. split; auto. split; auto. intros j' Hj'. congruence. }
    destruct (choose_points (fun q => length q = d) xr') as (Y & EY & HY).
    { intros v Hv. destruct (In_nth_error _ _ Hv) as (n & Hn). destruct (nth_error_lt_Some _ X n) as (x & Hx). { rewrite <- H2. eapply nth_error_lt; eauto. }
      destruct (G n x Hx) as (y & Hy & Ly & _). exists y. split; auto. congruence. }
    subst xr'. rewrite map_length in H2. exists Y. split; [split; [auto|split; [rewrite K2, H2; apply HX|auto]]|].
    split; [rewrite H2; apply HCL|]. intros n j y Hj Hy. destruct (nth_error_lt_Some _ X n) as (x & Hx). { rewrite <- H2. eapply nth_error_lt; eauto. }
    destruct (G n x Hx) as (y' & Hy' & _ & HCy). rewrite nth_error_map, Hy in Hy'. cbn [option_map] in Hy'. injection Hy' as Hy'. apply floats_inj in Hy'. subst y'. auto.
  Qed.

  Theorem regions : forall s log s' m lab X, exec c s log -> usable md s -> noise_free s ->
    batches_fit b partial s -> ensemble_at s m d X -> clustered C lab X -> later_if (fun s => usable md s /\ noise_free s) c d s s' ->
    exists Y, ensemble_at s' m d Y /\ clustered C lab Y.
  Proof.
    intros s log s' m lab X E HU HN HF HX HCL H. induction H as [|s1 o s2 H IH P HD HS|s1 b' s2 H IH HT|s1 s2 H IH HCH P2|s1 H IH]; eauto.
    - destruct (later_if_keep kn kappa md f k pp b partial cat ks save _ s log d s1 (free_inv md) E (conj HU HN) HF H) as ((l & E1) & A1 & F1 & N1).
      destruct IH as (Y & Y1 & Y2). eapply regions_step; eauto.
    - destruct IH as (Y & Y1 & Y2). exists Y. destruct (polar_term_keeps kn kappa md f k pp b partial cat ks save s1 b' s2 HT) as (K0 & K1 & K2 & _).
      unfold ensemble_at in *. rewrite K0, K2. auto.
    - destruct IH as (Y & Y1 & Y2). exists Y. destruct (params_keep _ _ HCH) as (K0 & _ & K2). unfold ensemble_at in *. rewrite K0, K2. auto.
  Qed.

  (** the particles of one label move as if the others did not exist *)
  Definition pw (a : R) (x y : list R) : R := pweight a (kf_of md a) (kneg_log kn kappa y x) (f (floats y)).
  Definition cpoint (a : R) (X : list (list R)) (x : list R) : list R :=
    map (fun i => Rsum (map (fun y => pw a x y * coord i y) X) / Rsum (map (pw a x) X)) (seq 0 d).
  Lemma cpoint_spec : forall a X x, combination (pws kn kappa a (kf_of md a) (map f (map floats X)) X x) d X = cpoint a X x.
  Proof.
    intros a X x. unfold combination, cpoint. apply map_ext. intros i.
    assert (EP : pws kn kappa a (kf_of md a) (map f (map floats X)) X x = map (fun y => pw a x y / Rsum (map (pw a x) X)) X).
    { unfold pws, polar_ws. assert (EC : combine (map (fun xj => kneg_log kn kappa xj x) X) (map f (map floats X)) = map (fun y => (kneg_log kn kappa y x, f (floats y))) X).
      { clear. induction X; cbn; auto. rewrite IHX. auto. }
      rewrite EC, !map_map. reflexivity. }
    rewrite EP. set (T := Rsum (map (pw a x) X)). clearbody T. unfold Rdiv. clear EP. induction X as [|y X IH].
    - cbn. ring.
    - cbn [map combine]. rewrite !Rsum_cons, IH. cbn [fst snd]. ring.
  Qed.

  Lemma members_sum : forall (g : list R -> R) j lab X, length lab = length X -> (forall n i x, nth_error lab n = Some i -> nth_error X n = Some x -> i <> j -> g x = 0) ->
    Rsum (map g X) = Rsum (map g (members j lab X)).
  Proof.
    intros g j. unfold members. induction lab as [|i lab IH]; intros [|x X] HL H; cbn in HL; try lia; auto.
    cbn [combine filter]. cbn [fst]. rewrite (map_cons g x X), Rsum_cons, IH by (auto; intros n; apply (H (S n))).
    destruct (Nat.eqb_spec i j) as [->|NE].
    - cbn [map snd]. rewrite Rsum_cons. auto.
    - rewrite (H 0%nat i x) by auto. ring.
  Qed.

  Lemma members_In : forall j lab X x, In x (members j lab X) -> exists n, nth_error lab n = Some j /\ nth_error X n = Some x.
  Proof.
    intros j. unfold members. induction lab as [|i lab IH]; intros [|y X] x H; cbn [combine filter map] in H; try (destruct H; fail).
    cbn [fst] in H. destruct (Nat.eqb_spec i j) as [->|NE].
    - destruct H as [<-|H]; [exists 0%nat; auto|]. destruct (IH X x H) as (n & H1 & H2). exists (S n). auto.
    - destruct (IH X x H) as (n & H1 & H2). exists (S n). auto.
  Qed.

  Lemma members_map : forall (g : list R -> list R) j lab X, members j lab (map g X) = map g (members j lab X).
  Proof.
    intros g j. unfold members. induction lab as [|i lab IH]; intros [|y X]; auto. cbn [map combine filter fst]. destruct (i =? j)%nat; cbn [map snd]; rewrite IH; auto.
  Qed.

  Lemma cpoint_members : forall a j lab X x, clustered C lab X -> (forall y, In y X -> length y = d) -> length x = d -> C j x ->
    cpoint a X x = cpoint a (members j lab X) x.
  Proof.
    intros a j lab X x HX HL Lx Cx. unfold cpoint. apply map_ext. intros i.
    assert (Z : forall n l y, nth_error lab n = Some l -> nth_error X n = Some y -> l <> j -> pw a x y = 0).
    { intros n l y H1 H2 H3. assert (H0 := proj2 HC l j y x H3 (HL y (nth_error_In _ _ H2)) Lx (proj2 HX n l y H1 H2) Cx).
      apply vanish_iff in H0; auto. unfold pw. rewrite H0. auto. }
    rewrite (members_sum (fun y => pw a x y * coord i y) j lab X), (members_sum (pw a x) j lab X); auto; try apply HX.
    intros n l y H1 H2 H3. rewrite (Z n l y); auto. ring.
  Qed.

  Lemma cluster_step : forall s log o s' m lab X la dt, exec c s log -> perms_valid o s -> finite_draws d o -> usable md s -> parameters la dt 0 s -> 0 <= la * dt <= 1 ->
    b = s_N s -> In m (s_active s) -> step c o s = Ok s' -> ensemble_at s m d X -> clustered C lab X ->
    exists a Y, nth_error (s_alpha s) m = Some [Fin a] /\ ensemble_at s' m d Y /\ clustered C lab Y /\
      forall j, members j lab Y = map (fun x => glide (la * dt) (cpoint a (members j lab X) x) x) (members j lab X).
  Proof.
    intros s log o s' m lab X la dt E P HD HU HP Hth HB Hm HS HX HCL.
    assert (HL : forall x, In x X -> length x = d) by apply HX.
    destruct (polar_full kn kappa md f k pp b partial cat ks save HK s log o s' m d X la dt 0 E P HD HU HP HB Hm HS HX (fin_on lab X HCL HL))
      as (xr' & a & H1 & H2 & H3 & H4).
    destruct (regions_step s log o s' m lab X E P HD (conj HU (ex_intro _ la (ex_intro _ dt (conj HP Hth)))) (or_intror HB) HS HX HCL) as (Y & HY1 & HY2).
    exists a, Y. split; auto. split; auto. split; auto.
    assert (EY : Y = map (fun x => glide (la * dt) (cpoint a X x) x) X).
    { destruct HY1 as [HY1 HY3]. rewrite H1 in HY1. injection HY1 as ->. rewrite map_length in H2. apply nth_error_ext. intros n. rewrite nth_error_map.
      destruct (nth_error X n) as [x|] eqn:En; cbn [option_map]; [|apply nth_error_None in En; apply nth_error_None; lia].
      destruct (H4 n x En) as (C1 & C2 & z & Lz & Hz). destruct (lab_of lab X n x HCL En) as (j & Hj & Cj). assert (Hx := nth_error_In _ _ En).
      rewrite (rmove_glide k la dt _ x z d), cpoint_spec in Hz by (auto; apply combination_length).
      assert (Lc : length (cpoint a X x) = d) by (unfold cpoint; rewrite map_length, seq_length; auto).
      rewrite (Hpp j), nth_error_map in Hz.
      - destruct (nth_error Y n) as [y|]; [|discriminate]. cbn [option_map] in Hz. injection Hz as Hz. apply floats_inj in Hz. subst; auto.
      - apply glide_length; auto.
      - apply glide_region with (d := d); auto; [apply HC|]. rewrite <- cpoint_spec. apply (region_point a (kf_of md a) _ lab X); auto.
        + intros e He. rewrite map_map in He. apply in_map_iff in He. destruct He as (q & <- & Hq). apply (fin_on lab X); auto.
        + rewrite !map_length. auto. }
    intros j. rewrite EY, members_map. apply map_ext_in. intros x Hx. destruct (members_In j lab X x Hx) as (n & Hn1 & Hn2).
    assert (Lx : length x = d) by (eapply HL, nth_error_In; eauto). assert (Cx : C j x) by (eapply HCL; eauto). rewrite (cpoint_members a j lab X x) by auto. auto.
  Qed.
End Regions.

Theorem cluster_alone : forall kn kappa md d C j lab1 lab2 f1 f2 k1 k2 pp1 pp2 b1 b2 p1 p2 t1 t2 ks1 ks2 v1 v2 m1 m2 s1 s2 l1 l2 X1 X2 u1 u2,
  kappa_ok kappa -> clusters kn kappa d C ->
  (forall i p, length p = d -> C i p -> (exists y, f1 (floats p) = Fin y) /\ (exists y, f2 (floats p) = Fin y)) ->
  (forall p, length p = d -> C j p -> f1 (floats p) = f2 (floats p)) ->
  (forall i p, length p = d -> C i p -> pp1 (floats p) = floats p /\ pp2 (floats p) = floats p) ->
  let c1 := polar_cfg kn kappa md f1 k1 pp1 b1 p1 t1 ks1 v1 in let c2 := polar_cfg kn kappa md f2 k2 pp2 b2 p2 t2 ks2 v2 in
  let P := fun s => usable md s /\ noise_free s in
  exec c1 s1 l1 -> exec c2 s2 l2 -> P s1 -> P s2 -> same_parameters m1 m2 s1 s2 -> b1 = s_N s1 -> b2 = s_N s2 ->
  ensemble_at s1 m1 d X1 -> ensemble_at s2 m2 d X2 -> clustered C lab1 X1 -> clustered C lab2 X2 -> members j lab1 X1 = members j lab2 X2 ->
  lockstep P d c1 c2 m1 m2 s1 s2 u1 u2 ->
  exists Y1 Y2, ensemble_at u1 m1 d Y1 /\ ensemble_at u2 m2 d Y2 /\ clustered C lab1 Y1 /\ clustered C lab2 Y2 /\ members j lab1 Y1 = members j lab2 Y2.
Proof.
  intros kn kappa md d C j lab1 lab2 f1 f2 k1 k2 pp1 pp2 b1 b2 p1 p2 q1 q2 ks1 ks2 v1 v2 m1 m2 s1 s2 l1 l2 X1 X2 u1 u2 HK HC Hf Hff Hpp c1 c2 P E1 E2 PS1 PS2 SP B1 B2 X1a X2a CL1 CL2 MM H.
  assert (INV : (exists l, exec c1 u1 l) /\ (exists l, exec c2 u2 l) /\ P u1 /\ P u2 /\ same_parameters m1 m2 u1 u2 /\ b1 = s_N u1 /\ b2 = s_N u2 /\
    exists Y1 Y2, ensemble_at u1 m1 d Y1 /\ ensemble_at u2 m2 d Y2 /\ clustered C lab1 Y1 /\ clustered C lab2 Y2 /\ members j lab1 Y1 = members j lab2 Y2); [|tauto].
  induction H as [|t1 t2 o1 o2 u1 u2 H IH A1 A2 V1 V2 D1 D2 S1 S2|t1 t2 b u1 H IH HT|t1 t2 b u2 H IH HT|t1 t2 u1 u2 H IH CH1 CH2 PU1 PU2 SPU].
  - split; [eauto|]. split; [eauto|]. split; auto. split; auto. split; auto. split; auto. split; auto. exists X1, X2. auto.
  - destruct IH as ((r1 & G1) & (r2 & G2) & Pt1 & Pt2 & SPt & N1 & N2 & Y1 & Y2 & Q1 & Q2 & Q3 & Q4 & Q5).
    destruct (polar_step_keeps kn kappa md f1 k1 pp1 b1 p1 q1 ks1 v1 t1 r1 o1 u1 G1 V1 (or_intror N1) S1) as (K1 & K2 & K3 & K4 & K5 & K6 & K7).
    destruct (polar_step_keeps kn kappa md f2 k2 pp2 b2 p2 q2 ks2 v2 t2 r2 o2 u2 G2 V2 (or_intror N2) S2) as (J1 & J2 & J3 & J4 & J5 & J6 & J7).
    split; [eexists; eapply ex_step; eauto|]. split; [eexists; eapply ex_step; eauto|].
    split; [eapply free_inv; eauto|]. split; [eapply free_inv; eauto|].
    destruct SPt as (SA & SB & SC).
    split. { unfold same_parameters. rewrite K3, K5, K6, J3, J5, J6. auto. }
    split; [congruence|]. split; [congruence|].
    destruct Pt1 as (U1 & la & dt & HP1 & Hth). destruct Pt2 as (U2 & la2 & dt2 & HP2 & Hth2).
    assert (la2 = la /\ dt2 = dt) as [-> ->]. { destruct HP1 as (Z1 & Z2 & _), HP2 as (Z3 & Z4 & _). split; congruence. }
    destruct (cluster_step kn kappa md f1 k1 pp1 b1 p1 q1 ks1 v1 d C HK HC (fun i p L c => proj1 (Hf i p L c)) (fun i p L c => proj1 (Hpp i p L c))
      t1 r1 o1 u1 m1 lab1 Y1 la dt G1 V1 D1 U1 HP1 Hth N1 A1 S1 Q1 Q3) as (a1 & W1 & Ha1 & R1 & R2 & R3).
    destruct (cluster_step kn kappa md f2 k2 pp2 b2 p2 q2 ks2 v2 d C HK HC (fun i p L c => proj2 (Hf i p L c)) (fun i p L c => proj2 (Hpp i p L c))
      t2 r2 o2 u2 m2 lab2 Y2 la dt G2 V2 D2 U2 HP2 Hth2 N2 A2 S2 Q2 Q4) as (a2 & W2 & Ha2 & T1 & T2 & T3).
    assert (a2 = a1) as -> by congruence.
    exists W1, W2. split; auto. split; auto. split; auto. split; auto. rewrite R3, T3, <- Q5. apply map_ext_in. intros x Hx. f_equal.
    unfold cpoint.
    assert (EW : forall y, In y (members j lab1 Y1) -> pw kn kappa md f1 a1 x y = pw kn kappa md f2 a1 x y).
    { intros y Hy. unfold pw. f_equal. destruct (members_In j lab1 Y1 y Hy) as (n & Hn1 & Hn2). apply Hff; [|eapply Q3; eauto]. apply Q1. eapply nth_error_In; eauto. }
    apply map_ext. intros i. rewrite (Rsum_map_ext _ (pw kn kappa md f1 a1 x) (pw kn kappa md f2 a1 x)) by auto.
    rewrite (Rsum_map_ext _ (fun y => pw kn kappa md f1 a1 x y * coord i y) (fun y => pw kn kappa md f2 a1 x y * coord i y)); auto.
    intros y Hy. rewrite EW; auto.
  - destruct IH as ((r1 & G1) & G2 & Pt1 & Pt2 & SPt & N1 & N2 & Y1 & Y2 & Q1 & Q2 & Q3 & Q4 & Q5).
    destruct (polar_term_keeps kn kappa md f1 k1 pp1 b1 p1 q1 ks1 v1 t1 b u1 HT) as (K0 & K1 & K2 & K3 & K4 & K5 & K6).
    split; [eexists; eapply ex_term; eauto|]. split; auto. split; [eapply free_inv; eauto|]. split; auto.
    split. { unfold same_parameters in *. rewrite K3, K5, K6. auto. } split; [congruence|]. split; auto. exists Y1, Y2. unfold ensemble_at in *. rewrite K0, K2. auto.
  - destruct IH as (G1 & (r2 & G2) & Pt1 & Pt2 & SPt & N1 & N2 & Y1 & Y2 & Q1 & Q2 & Q3 & Q4 & Q5).
    destruct (polar_term_keeps kn kappa md f2 k2 pp2 b2 p2 q2 ks2 v2 t2 b u2 HT) as (K0 & K1 & K2 & K3 & K4 & K5 & K6).
    split; auto. split; [eexists; eapply ex_term; eauto|]. split; auto. split; [eapply free_inv; eauto|].
    split. { unfold same_parameters in *. rewrite K3, K5, K6. auto. } split; auto. split; [congruence|]. exists Y1, Y2. unfold ensemble_at in *. rewrite K0, K2. auto.
  - destruct IH as ((r1 & G1) & (r2 & G2) & Pt1 & Pt2 & SPt & N1 & N2 & Y1 & Y2 & Q1 & Q2 & Q3 & Q4 & Q5).
    destruct (params_keep _ _ CH1) as (K0 & _ & K2). destruct (params_keep _ _ CH2) as (J0 & _ & J2).
    split; [eexists; eapply ex_params; eauto|]. split; [eexists; eapply ex_params; eauto|]. split; auto. split; auto. split; auto. split; [congruence|]. split; [congruence|].
    exists Y1, Y2. unfold ensemble_at in *. rewrite K0, K2, J0, J2. auto.
Qed.
