(** * Symmetries of CBO runs over the reals *)
From Coq Require Import String List Arith Bool Reals Permutation Lia Lra.
From Verif Require Import Scalar Np NpFacts State Pdyn PdynFacts PdynStep PdynRun PdynOk Exec TermSpec RunFacts MoveFacts RVec RVecFacts
  Consensus ConsSpec ConsFacts PostProc Cbo CboSpec CboFacts AbsorbFacts TwinSpec TwinFacts.
Import ListNotations.
Open Scope R_scope.

Lemma add_energy_lt : forall h a b, fltb (add_energy h a) (add_energy h b) = fltb a b.
Proof.
  intros h [x| | |] [y| | |]; cbn; auto. unfold Rltb. destruct (Rlt_dec (x + h) (y + h)), (Rlt_dec x y); auto; lra.
Qed.
Lemma add_energy_nan : forall h a, is_nan (add_energy h a) = is_nan a.
Proof. intros h [x| | |]; auto. Qed.
Lemma add_energy_0 : forall a, add_energy 0 a = a.
Proof. intros [x| | |]; cbn; auto. f_equal. ring. Qed.

Lemma fnorm_concat : forall (l : list (list R)), fnorm (concat (map floats l)) = Fin (sqrt (Rsum (map sqnorm l))).
Proof.
  intros l. replace (concat (map floats l)) with (floats (concat l)) by (unfold floats; rewrite concat_map; auto).
  rewrite fnorm_floats. unfold vnorm. do 2 f_equal. induction l as [|u l IH]; auto.
  cbn [concat map]. rewrite Rsum_cons, <- IH. unfold sqnorm, dot. rewrite !map2_same, map_app, Rsum_app. auto.
Qed.

Lemma In_map2 : forall A B C (g : A -> B -> C) l l' y, In y (map2 g l l') -> exists a b, In a l /\ In b l' /\ y = g a b.
Proof. induction l as [|a l IH]; destruct l'; cbn; intros y H; try contradiction. destruct H as [<-|H]; [eauto 7|]. destruct (IH _ _ H) as (a1 & b1 & ? & ? & ?). eauto 7. Qed.

Section Sym.
  Variables (f f' : vec -> fl R) (k : noise_model) (pp pp' : vec -> vec) (b : nat) (partial cat : bool) (ks : list (crit R vec)) (save : bool).
  Variables (d : nat) (h : R) (phi chi : vec -> vec) (g hh L : list R -> list R).
  Let c := cbo_cfg f k pp NoCorr b partial cat ks save.
  Let c' := cbo_cfg f' k pp' NoCorr b partial cat (map (image_crit (add_energy h)) ks) save.
  Hypothesis Hks : Forall builtin ks.
  Hypothesis Hphi : forall p, length p = d -> phi (floats p) = floats (g p).
  Hypothesis Hchi : forall p, length p = d -> chi (floats p) = floats (hh p).
  Hypothesis Lg : forall p, length p = d -> length (g p) = d.
  Hypothesis Lh : forall p, length p = d -> length (hh p) = d.
  Hypothesis Hf : finite_obj d f.
  Hypothesis Hff : forall p, length p = d -> f' (floats (g p)) = add_energy h (f (floats p)).
  Hypothesis Hgibbs : forall a E X, admissible a E -> ensemble (length E) d X -> gibbs_point a E d (map g X) = g (gibbs_point a E d X).
  Hypothesis Hsub : forall x y, length x = d -> length y = d -> vsub (g x) (g y) = L (vsub x y).
  Hypothesis Ladd : forall u v, length u = d -> length v = d -> L (vadd u v) = vadd (L u) (L v).
  Hypothesis Lscal : forall a u, length u = d -> L (vscal a u) = vscal a (L u).
  Hypothesis Hadd : forall x u, length x = d -> length u = d -> vadd (g x) (L u) = g (vadd x u).
  Hypothesis Hnoise : forall dt u z, length u = d -> length z = d -> rnoise k dt (L u) (hh z) = L (rnoise k dt u z).
  Hypothesis Hnorm : forall u, length u = d -> sqnorm (L u) = sqnorm u.
  Hypothesis Hpp : forall p, length p = d -> exists q, pp (floats p) = floats q /\ length q = d /\ pp' (floats (g p)) = floats (g q).

  Lemma sym_equivariant : equivariant phi chi (add_energy h) c c' (fun v => exists p, v = floats p /\ length p = d) (finite_draws d)
    (fun s => finite_alpha s /\ finite_parameters s).
  Proof.
    constructor.
    - split; [|split]; reflexivity.
    - split; intros e x a; reflexivity.
    - split; reflexivity.
    - split; [reflexivity|exact Hks].
    - apply add_energy_lt.
    - apply add_energy_nan.
    - reflexivity.
    - intros v (p & -> & Lp). rewrite Hphi by auto. apply Hff; auto.
    - intros s m a X [HA _] Hm Ha HX HP. destruct (HA m Hm) as (a' & Ha'). rewrite Ha in Ha'. injection Ha' as ->.
      destruct (choose_points (fun q => length q = d) X HP) as (Y & -> & HY).
      assert (LY : (1 <= length Y)%nat) by (destruct Y; [exfalso; apply HX; reflexivity|cbn; lia]).
      assert (AD : admissible a' (map f (map floats Y))) by (eapply finite_admissible; eauto).
      assert (EN : ensemble (length (map f (map floats Y))) d Y) by (split; auto; rewrite !map_length; auto).
      exists (floats (gibbs_point a' (map f (map floats Y)) d Y)).
      split; [exact (ccrow_finite f k pp b partial cat ks save d Y a' Hf LY HY)|]. split; [eexists; split; [reflexivity|apply gibbs_point_length]|].
      assert (EG : map phi (map floats Y) = map floats (map g Y)).
      { rewrite !map_map. apply map_ext_in. intros q Hq. apply Hphi. auto. }
      rewrite EG, Hphi by apply gibbs_point_length. cbn [c c' cbo_cfg c_f c_ccrow]. unfold add_energy.
      assert (EN' : ensemble (length (map f (map floats Y))) d (map g Y)).
      { split; [rewrite !map_length; auto|]. intros q Hq. apply in_map_iff in Hq. destruct Hq as (q' & <- & Hq'). auto. }
      rewrite (shift_invariant a' _ h d) by auto. rewrite (consensus_gibbs a' _ d), Hgibbs by auto. auto.
    - intros s s' o kk n cp v [_ (la & dt & sg & HP)] HO P1 P2 P3 (cq & -> & Lc) (x & -> & Lx). destruct (HO kk n) as (z & -> & Lz).
      rewrite !Hphi, Hchi by auto.
      pose proof (moved_floats f k pp b partial cat ks save s la dt sg cq x z HP) as MF.
      pose proof (moved_floats f' k pp' b partial cat (map (image_crit (add_energy h)) ks) save s' la dt sg (g cq) (g x) (hh z)) as MF'.
      fold c in MF. fold c' in MF'. rewrite MF, MF'. 2:{ destruct HP as (Q1 & Q2 & Q3 & Q4). repeat split; congruence. }
      assert (Lr : length (rmove k la dt sg cq x z) = d) by (apply length_rmove; auto).
      split; [|eexists; split; [reflexivity|auto]]. rewrite Hphi by auto. f_equal. unfold rmove.
      assert (Lu : length (vsub x cq) = d) by (apply length_vsub; auto).
      assert (Ln : length (rnoise k dt (vsub x cq) z) = d) by (apply length_rnoise; auto).
      rewrite Hsub, Hnoise by auto. rewrite <- !Lscal by auto. rewrite <- Ladd by (rewrite length_vscal; auto). apply Hadd; auto.
      apply length_vadd; rewrite length_vscal; auto.
    - intros v (p & -> & Lp). cbn [c c' cbo_cfg c_pp]. rewrite Hphi by auto. destruct (Hpp p Lp) as (q & -> & Lq & ->). rewrite Hphi by auto. eauto.
    - intros l l' Hl Hl'. destruct (choose_points _ l Hl) as (X & -> & HX). destruct (choose_points _ l' Hl') as (X' & -> & HX').
      assert (EG : forall Y, (forall q, In q Y -> length q = d) -> map phi (map floats Y) = map floats (map g Y)).
      { intros Y HY. rewrite !map_map. apply map_ext_in. intros q Hq. apply Hphi. auto. }
      rewrite !EG by auto. cbn [c c' cbo_cfg c_norm c_vsub].
      assert (ES : forall Y Y', map2 (map2 fsub) (map floats Y) (map floats Y') = map floats (map2 vsub Y Y')).
      { induction Y as [|y Y IH]; destruct Y'; cbn; auto. rewrite IH. f_equal. apply floats_sub. }
      rewrite !ES, !fnorm_concat, !map_length, !map2_length, !map_length. do 4 f_equal.
      clear - HX HX' Hsub Hnorm. revert X' HX'. induction X as [|x X IH]; destruct X' as [|y X']; cbn; intros HX'; auto.
      rewrite IH; [|intros q Hq; apply HX; cbn; auto|intros q Hq; apply HX'; cbn; auto].
      f_equal. assert (Lx : length x = d) by (apply HX; cbn; auto). assert (Ly : length y = d) by (apply HX'; cbn; auto).
      rewrite Hsub by auto. apply Hnorm. apply length_vsub; auto.
    - intros s s' H1 H2 H3 H4 H5 [HA (la & dt & sg & Q1 & Q2 & Q3 & Q4)]. split.
      + intros m Hm. rewrite H1. apply HA. congruence.
      + exists la, dt, sg. repeat split; congruence.
  Qed.

  Theorem sym_image : forall s s', paired phi c c' chi (finite_state d) (finite_draws d) s s' -> image phi (add_energy h) s s'.
  Proof.
    intros s s' H. exact (proj2 (proj2 (proj2 (paired_gen _ _ _ _ _ _ _ _ sym_equivariant s s' H)))).
  Qed.
  Theorem sym_terminate : forall s s' b1 b2 s1 s1', paired phi c c' chi (finite_state d) (finite_draws d) s s' ->
    terminate c s = Ok (b1, s1) -> terminate c' s' = Ok (b2, s1') -> b1 = b2.
  Proof.
    intros s s' b1 b2 s1 s1' H H1 H2. destruct (paired_gen _ _ _ _ _ _ _ _ sym_equivariant s s' H) as ((l & l' & E & E') & _ & _ & IM).
    exact (proj2 (term_image _ _ _ _ _ _ _ _ sym_equivariant s s' b1 b2 s1 s1' (exec_wf _ _ _ E) (exec_wf _ _ _ E') IM H1 H2)).
  Qed.
End Sym.

(** ** instances *)
Section Instances.
  Variables (k : noise_model) (b : nat) (partial cat : bool) (ks : list (crit R vec)) (save : bool) (d : nat).

  (** adding a constant to the objective *)
  Theorem energy_shift : forall f pp h s s', Forall builtin ks -> finite_obj d f ->
    (forall p, length p = d -> exists q, pp (floats p) = floats q /\ length q = d) ->
    paired (fun v => v) (cbo_cfg f k pp NoCorr b partial cat ks save)
      (cbo_cfg (fun v => add_energy h (f v)) k pp NoCorr b partial cat (map (image_crit (add_energy h)) ks) save)
      (fun z => z) (finite_state d) (finite_draws d) s s' ->
    image (fun v => v) (add_energy h) s s'.
  Proof.
    intros f pp h s s' Hks Hf Hpp H.
    apply (sym_image f (fun v => add_energy h (f v)) k pp pp b partial cat ks save d h (fun v => v) (fun z => z) (fun p => p) (fun p => p) (fun p => p)); auto.
    - intros. rewrite map_id. auto.
    - intros p Hp. destruct (Hpp p Hp) as (q & H1 & H2). eauto.
  Qed.

  (** translating the objective and the ensemble *)
  Lemma coord_affine_id : forall a i p, length p = d -> length a = d -> coord i (vadd p a) = coord i p + coord i a.
  Proof. intros. apply coord_vadd. congruence. Qed.
  Theorem translation : forall f f' t s s', Forall builtin ks -> finite_obj d f -> length t = d ->
    (forall p, length p = d -> f' (floats (vadd p t)) = f (floats p)) ->
    paired (translate t) (cbo_cfg f k (fun v => v) NoCorr b partial cat ks save) (cbo_cfg f' k (fun v => v) NoCorr b partial cat ks save)
      (fun z => z) (finite_state d) (finite_draws d) s s' ->
    image (translate t) (fun e => e) s s'.
  Proof.
    intros f f' t s s' Hks Hf Ht Hff H.
    assert (EK : map (image_crit (add_energy 0)) ks = ks).
    { transitivity (map (fun q : crit R vec => q) ks); [|apply map_id]. apply map_ext. intros [tol| | | | |]; auto. cbn. rewrite add_energy_0. auto. }
    assert (IM : image (translate t) (add_energy 0) s s').
    { apply (sym_image f f' k (fun v => v) (fun v => v) b partial cat ks save d 0 (translate t) (fun z => z) (fun p => vadd p t) (fun p => p) (fun p => p)); auto.
      - intros p Hp. unfold translate. apply floats_add.
      - intros p Hp. apply length_vadd; auto.
      - intros p Hp. rewrite add_energy_0. auto.
      - intros a E X HA HX. apply (coord_ext _ _ d); [apply gibbs_point_length|apply length_vadd; auto; apply gibbs_point_length|].
        intros i Hi. rewrite coord_vadd by (rewrite gibbs_point_length; auto). unfold gibbs_point, coord. rewrite !nth_map_seq by auto.
        unfold gibbs_mean. rewrite combine_map_r, map_map. cbn [fst snd]. assert (HS := gsum_pos _ _ HA).
        rewrite (Rsum_map_ext _ _ (fun q => gibbs a (fst q) * coord i (snd q) + nth i t 0 * gibbs a (fst q))).
        2:{ intros [e p] Hq. cbn [fst snd]. rewrite coord_vadd; [unfold coord; ring|]. apply in_combine_r in Hq. rewrite (proj2 HX p Hq). auto. }
        rewrite Rsum_map_plus, Rsum_map_scal. rewrite <- (map_map fst (gibbs a)), combine_map_fst by (symmetry; apply HX). field. lra.
      - intros x y Hx Hy. apply (coord_ext _ _ d).
        + apply length_vsub; apply length_vadd; auto.
        + apply length_vsub; auto.
        + intros i Hi. rewrite !coord_vsub, !coord_vadd by (rewrite ?(length_vadd x t d), ?(length_vadd y t d); congruence). ring.
      - intros x u Hx Hu. apply (coord_ext _ _ d); [apply length_vadd; auto; apply length_vadd; auto|apply length_vadd; auto; apply length_vadd; auto|].
        intros i Hi. rewrite !coord_vadd by (rewrite ?(length_vadd x t d), ?(length_vadd x u d); congruence). ring.
      - intros p Hp. exists p. auto.
      - rewrite EK. exact H. }
    destruct IM. constructor; auto.
    - rewrite im_energy. apply map_ext. intros r. apply map_ext. intros; apply add_energy_0.
    - rewrite im_be. apply map_ext. intros; apply add_energy_0.
    - rewrite im_fmin. apply map_ext. intros; apply add_energy_0.
  Qed.

  (** isometries: isotropic (or constant) noise with the draws mapped too *)
  Definition lin (A : list (list R)) (u : list R) : list R := map (fun r => dot r u) A.
  Lemma coord_lin : forall A u i, (i < length A)%nat -> coord i (lin A u) = dot (nth i A []) u.
  Proof. intros. unfold coord, lin. rewrite nth_map with (da := []) by auto. auto. Qed.
  Lemma fdot_floats : forall r u, fdot r (floats u) = Fin (dot r u).
  Proof. intros. unfold fdot. rewrite floats_mul. unfold dot. unfold floats. induction (map2 Rmult r u); cbn; auto. rewrite IHl. auto. Qed.
  Lemma lin_add : forall A u v, length u = length v -> lin A (vadd u v) = vadd (lin A u) (lin A v).
  Proof. intros A u v H. unfold lin, vadd. rewrite map2_map_same. apply map_ext. intros r. apply dot_vadd_r. auto. Qed.
  Lemma lin_sub : forall A u v, length u = length v -> lin A (vsub u v) = vsub (lin A u) (lin A v).
  Proof. intros A u v H. unfold lin, vsub. rewrite map2_map_same. apply map_ext. intros r. apply dot_vsub_r. auto. Qed.
  Lemma lin_scal : forall A a u, lin A (vscal a u) = vscal a (lin A u).
  Proof. intros. unfold lin, vscal. rewrite map_map. apply map_ext. intros. apply dot_vscal_r. Qed.

  Theorem rotation : forall f f' A s s', Forall builtin ks -> finite_obj d f -> isometry d A -> k <> NAniso ->
    (forall p, length p = d -> f' (floats (map (fun r => dot r p) A)) = f (floats p)) ->
    paired (rotate A) (cbo_cfg f k (fun v => v) NoCorr b partial cat ks save) (cbo_cfg f' k (fun v => v) NoCorr b partial cat ks save)
      (rotate A) (finite_state d) (finite_draws d) s s' ->
    image (rotate A) (fun e => e) s s'.
  Proof.
    intros f f' A s s' Hks Hf (HA1 & HA2 & HA3) Hk Hff H.
    assert (EK : map (image_crit (add_energy 0)) ks = ks).
    { transitivity (map (fun q : crit R vec => q) ks); [|apply map_id]. apply map_ext. intros [tol| | | | |]; auto. cbn. rewrite add_energy_0. auto. }
    assert (LL : forall u, length (lin A u) = d) by (intros; unfold lin; rewrite map_length; auto).
    assert (FR : forall p : list R, length p = d -> rotate A (floats p) = floats (lin A p)).
    { intros p _. unfold rotate, lin, floats. rewrite map_map. apply map_ext. intros r. apply fdot_floats. }
    assert (IM : image (rotate A) (add_energy 0) s s').
    { apply (sym_image f f' k (fun v => v) (fun v => v) b partial cat ks save d 0 (rotate A) (rotate A) (lin A) (lin A) (lin A)); auto.
      - intros p Hp. rewrite add_energy_0. unfold lin. auto.
      - intros a E X HA HX. apply (coord_ext _ _ d); [apply gibbs_point_length|auto|]. intros i Hi. rewrite coord_lin by lia.
        assert (HR : length (nth i A []) = d) by (apply HA2; apply nth_In; lia).
        pose proof (dot_gibbs_point a E d X (nth i A []) HA HX HR) as DG. assert (HS := gsum_pos _ _ HA).
        unfold gibbs_point at 1. unfold coord. rewrite nth_map_seq by auto. unfold gibbs_mean. rewrite combine_map_r, map_map. cbn [fst snd].
        rewrite (Rsum_map_ext _ _ (fun q => gibbs a (fst q) * dot (nth i A []) (snd q))) by (intros q _; rewrite coord_lin by lia; auto).
        rewrite <- DG. field. lra.
      - intros x y Hx Hy. symmetry. apply lin_sub. congruence.
      - intros u v Hu Hv. apply lin_add. congruence.
      - intros a u _. apply lin_scal.
      - intros x u Hx Hu. symmetry. apply lin_add. congruence.
      - intros dt u z Hu Hz. unfold rnoise. destruct k; [rewrite lin_scal; auto| |congruence].
        rewrite !lin_scal. unfold vnorm. rewrite (HA3 u Hu : sqnorm (lin A u) = _). auto.
      - intros p Hp. exists p. auto.
      - rewrite EK. exact H. }
    destruct IM. constructor; auto.
    - rewrite im_energy. apply map_ext. intros r. apply map_ext. intros; apply add_energy_0.
    - rewrite im_be. apply map_ext. intros; apply add_energy_0.
    - rewrite im_fmin. apply map_ext. intros; apply add_energy_0.
  Qed.
End Instances.
