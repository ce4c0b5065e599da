(** * CBO in other units *)
From Coq Require Import String List Arith Bool Reals Permutation Lia Lra.
From Verif Require Import Scalar Np NpFacts State Pdyn PdynFacts PdynStep PdynRun PdynOk Exec TermSpec RunFacts MoveFacts RVec RVecFacts
  Consensus ConsSpec ConsFacts PostProc Cbo CboSpec CboFacts AbsorbFacts TwinSpec TwinFacts SymFacts PostFacts UnitsSpec UnitsFacts.
Import ListNotations.
Open Scope R_scope.

Section Scale.
  Variable a : R.
  Hypothesis Ha : 0 < a.
  Lemma inf_pos : forall b, inf_sign a b = if b then PInf else NInf.
  Proof. intros. unfold inf_sign. cbn. unfold Rltb. destruct (Rlt_dec 0 a); auto; lra. Qed.
  Lemma times_lt : forall x y, fltb (times_by a x) (times_by a y) = fltb x y.
  Proof.
    intros [x| | |] [y| | |]; unfold times_by; cbn [fmul]; rewrite ?inf_pos; cbn; auto.
    unfold Rltb. destruct (Rlt_dec (a * x) (a * y)), (Rlt_dec x y); auto; exfalso; nra.
  Qed.
  Lemma times_le : forall x y, fleb (times_by a x) (times_by a y) = fleb x y.
  Proof.
    intros [x| | |] [y| | |]; unfold times_by; cbn [fmul]; rewrite ?inf_pos; cbn; auto.
    unfold Rltb. destruct (Rlt_dec (a * y) (a * x)), (Rlt_dec y x); auto; exfalso; nra.
  Qed.
  Lemma times_nan : forall x, is_nan (times_by a x) = is_nan x.
  Proof. intros [x| | |]; unfold times_by; cbn [fmul]; rewrite ?inf_pos; auto. Qed.
  Lemma times_inf : times_by a PInf = PInf.
  Proof. unfold times_by. cbn [fmul]. apply inf_pos. Qed.
  Lemma times_add : forall x y, fadd (times_by a x) (times_by a y) = times_by a (fadd x y).
  Proof. intros [x| | |] [y| | |]; unfold times_by; cbn [fmul fadd]; rewrite ?inf_pos; cbn; rewrite ?inf_pos; auto. f_equal. ring. Qed.
  Lemma times_0 : times_by a (Fin 0) = Fin 0.
  Proof. unfold times_by. cbn. f_equal. ring. Qed.
  Lemma times_points : forall p, map (times_by a) (floats p) = floats (vscal a p).
  Proof. intros. apply floats_scal. Qed.
End Scale.

Lemma gibbs_times : forall en a e, 0 < en -> gibbs (/ en * a) (times_by en e) = gibbs a e.
Proof. intros en a [x| | |] H; unfold times_by; cbn [fmul]; rewrite ?inf_pos by auto; cbn; auto. f_equal. field. lra. Qed.
Lemma admissible_times : forall en a E, 0 < en -> admissible a E -> admissible (/ en * a) (map (times_by en) E).
Proof.
  intros en a E H [H1 (x & H2)]. split.
  - intros e He. apply in_map_iff in He. destruct He as (e' & <- & He'). destruct (H1 _ He') as [(y & ->)|[-> Ha]]; [left; eexists; reflexivity|].
    right. rewrite times_inf by auto. split; auto. apply Rmult_lt_0_compat; auto. apply Rinv_0_lt_compat. auto.
  - exists (en * x). apply in_map_iff. exists (Fin x). auto.
Qed.
Lemma gibbs_point_times : forall en len a E d X, 0 < en -> admissible a E -> ensemble (length E) d X ->
  gibbs_point (/ en * a) (map (times_by en) E) d (map (vscal len) X) = vscal len (gibbs_point a E d X).
Proof.
  intros en len a E d X H HA HX. apply (coord_ext _ _ d); [apply gibbs_point_length|rewrite length_vscal; apply gibbs_point_length|].
  intros i Hi. rewrite coord_vscal. unfold gibbs_point, coord. rewrite !nth_map_seq by auto. unfold gibbs_mean.
  rewrite combine_map_r, map_map. cbn [fst snd]. rewrite map_map. rewrite (map_ext _ (gibbs a)) by (intros; apply gibbs_times; auto).
  assert (HS := gsum_pos _ _ HA).
  replace (Rsum (map (fun x => gibbs (/ en * a) (fst x) * coord i (vscal len (snd x))) (combine (map (times_by en) E) X))) with (len * Rsum (map (fun q => gibbs a (fst q) * coord i (snd q)) (combine E X))).
  { field. lra. }
  rewrite <- Rsum_map_scal. clear - H. revert X. induction E as [|e E IH]; destruct X as [|x X]; cbn [combine map]; auto.
  rewrite !Rsum_cons, IH. cbn [fst snd]. rewrite coord_vscal, gibbs_times by auto. f_equal. ring.
Qed.

Section Units.
  Variables (f f' : vec -> fl R) (k : noise_model) (pp pp' : vec -> vec) (b : nat) (partial cat : bool) (ks : list (crit R vec)) (save : bool).
  Variables (d : nat) (len en ti : R).
  Let uu := cbo_units k len en ti.
  Let c := cbo_cfg f k pp NoCorr b partial cat ks save.
  Let c' := cbo_cfg f' k pp' NoCorr b partial cat (map (converted_crit uu) ks) save.
  Hypothesis Hlen : 0 < len.
  Hypothesis Hen : 0 < en.
  Hypothesis Hti : 0 < ti.
  Hypothesis Hks : Forall builtin ks.
  Hypothesis Hf : finite_obj d f.
  Hypothesis Hff : forall p, length p = d -> f' (floats (vscal len p)) = times_by en (f (floats p)).
  Hypothesis Hpp : forall p, length p = d -> exists q, pp (floats p) = floats q /\ length q = d /\ pp' (floats (vscal len p)) = floats (vscal len q).

  Lemma vsub_scal : forall x y, length x = length y -> vsub (vscal len x) (vscal len y) = vscal len (vsub x y).
  Proof.
    intros x y H. apply (coord_ext _ _ (length y)); [apply length_vsub; rewrite length_vscal; auto|rewrite length_vscal; apply length_vsub; auto|].
    intros i Hi. rewrite coord_vscal, !coord_vsub, !coord_vscal by (rewrite ?length_vscal; auto). ring.
  Qed.

  Lemma rmove_units : forall la dt sg cp x z, 0 <= dt -> length cp = d -> length x = d -> length z = d ->
    rmove k (/ ti * la) (ti * dt) (match k with NConst => len / sqrt ti | _ => / sqrt ti end * sg) (vscal len cp) (vscal len x) z = vscal len (rmove k la dt sg cp x z).
  Proof.
    intros la dt sg cp x z Hdt Lc Lx Lz. unfold rmove. rewrite vsub_scal by congruence. set (u := vsub x cp). assert (Lu : length u = d) by (apply length_vsub; auto).
    assert (S1 : sqrt (ti * dt) = sqrt ti * sqrt dt) by (apply sqrt_mult; lra). assert (S2 : 0 < sqrt ti) by (apply sqrt_lt_R0; auto).
    assert (N : vscal (match k with NConst => len / sqrt ti | _ => / sqrt ti end * sg) (rnoise k (ti * dt) (vscal len u) z) = vscal len (vscal sg (rnoise k dt u z))).
    { unfold rnoise. rewrite S1. apply (coord_ext _ _ d).
      - rewrite !length_vscal. destruct k; rewrite ?length_vscal; auto. rewrite map2_length, length_vscal. lia.
      - rewrite !length_vscal. destruct k; rewrite ?length_vscal; auto. rewrite map2_length. lia.
      - intros i Hi. rewrite !coord_vscal. destruct k.
        + field. lra.
        + rewrite !coord_vscal, vnorm_scal, Rabs_pos_eq by lra. field. lra.
        + assert (M2 : forall v, length v = d -> coord i (map2 Rmult z v) = coord i z * coord i v).
          { intros v Hv. unfold coord. clear - Hv Lz Hi. revert v d i Lz Hv Hi. induction z as [|z0 z1 IH]; intros [|v0 v1] [|n] [|i] Lz Hv Hi; cbn in *; auto; try lia. apply (IH v1 n i); lia. }
          rewrite !M2 by (rewrite ?length_vscal; auto). rewrite coord_vscal. field. lra. }
    rewrite N. replace (- (/ ti * la * (ti * dt))) with (- (la * dt)) by (field; lra).
    assert (Ln : length (rnoise k dt u z) = d) by (apply length_rnoise; auto).
    apply (coord_ext _ _ d); [apply length_vadd; rewrite ?length_vscal; auto; apply length_vadd; rewrite !length_vscal; auto|rewrite length_vscal; apply length_vadd; auto; apply length_vadd; rewrite length_vscal; auto|].
    intros i Hi. rewrite !coord_vscal, !coord_vadd, !coord_vscal; rewrite ?(length_vadd _ _ d); rewrite ?length_vscal; auto; try congruence. ring.
  Qed.

  Lemma units_equivariant : equivariant uu c c' (fun v => exists p, v = floats p /\ length p = d) (finite_draws d)
    (fun s => finite_alpha s /\ finite_parameters s).
  Proof.
    constructor.
    - split; [|split]; reflexivity.
    - split; intros e x a; reflexivity.
    - split; reflexivity.
    - split; [reflexivity|exact Hks].
    - intros. apply times_lt; auto.
    - intros. apply times_lt; auto.
    - intros. apply times_le; auto.
    - intros. apply times_add; auto.
    - apply times_0.
    - intros. apply times_nan; auto.
    - split; apply times_inf; auto.
    - intros v (p & -> & Lp). cbn [uu cbo_units u_x u_e]. rewrite times_points. apply Hff; auto.
    - intros s m a X [HA _] Hm Ha HX HP. destruct (HA m Hm) as (a' & Ha'). rewrite Ha in Ha'. injection Ha' as ->.
      destruct (choose_points (fun q => length q = d) X HP) as (Y & -> & HY).
      assert (LY : (1 <= length Y)%nat) by (destruct Y; [exfalso; apply HX; reflexivity|cbn; lia]).
      assert (AD : admissible a' (map f (map floats Y))) by (eapply finite_admissible; eauto).
      assert (EN : ensemble (length (map f (map floats Y))) d Y) by (split; auto; rewrite !map_length; auto).
      exists (floats (gibbs_point a' (map f (map floats Y)) d Y)).
      split; [exact (ccrow_finite f k pp b partial cat ks save d Y a' Hf LY HY)|]. split; [eexists; split; [reflexivity|apply gibbs_point_length]|].
      cbn [uu cbo_units u_x u_e u_alpha]. assert (EG : @map vec vec (map (times_by len)) (@map (list R) (list (fl R)) floats Y) = @map (list R) (list (fl R)) floats (map (vscal len) Y)).
      { rewrite !map_map. apply map_ext. intros q. apply times_points. }
      rewrite EG, times_points. cbn [c c' cbo_cfg c_f c_ccrow].
      change (times_by (/ en) (Fin a')) with (Fin (/ en * a')).
      rewrite (consensus_gibbs (/ en * a') _ d), gibbs_point_times; auto.
      + apply admissible_times; auto.
      + split; [rewrite !map_length; auto|]. intros q Hq. apply in_map_iff in Hq. destruct Hq as (q' & <- & Hq'). rewrite length_vscal. auto.
    - intros s s' o kk n cp v [_ (la & dt & sg & HP)] HO P1 P2 P3 (cq & -> & Lc) (x & -> & Lx). destruct (HO kk n) as (z & Ez & Lz).
      assert (HP' := HP). destruct HP' as (Q1 & Q2 & Q3 & Q4).
      pose proof (moved_floats f k pp b partial cat ks save s la dt sg cq x z HP) as MF.
      pose proof (moved_floats f' k pp' b partial cat (map (converted_crit uu) ks) save s' (/ ti * la) (ti * dt) (match k with NConst => len / sqrt ti | _ => / sqrt ti end * sg) (vscal len cq) (vscal len x) z) as MF'.
      fold c in MF. fold c' in MF'. cbn [uu cbo_units u_x u_z u_lamda u_sigma u_t] in *. rewrite Ez, !times_points, MF, MF'.
      2:{ rewrite Q1 in P1. rewrite Q2 in P2. rewrite Q3 in P3. split; [exact P1|]. split; [exact P2|]. split; [exact P3|]. nra. }
      assert (Lr : length (rmove k la dt sg cq x z) = d) by (apply length_rmove; auto).
      split; [|eexists; split; [reflexivity|auto]]. rewrite times_points, rmove_units; auto.
    - intros v (p & -> & Lp). cbn [c c' cbo_cfg c_pp uu cbo_units u_x]. rewrite times_points. destruct (Hpp p Lp) as (q & -> & Lq & ->). rewrite times_points. eauto.
    - intros l l' Hl Hl'. destruct (choose_points _ l Hl) as (X & -> & HX). destruct (choose_points _ l' Hl') as (X' & -> & HX').
      cbn [uu cbo_units u_x u_n].
      assert (EG : forall Y, @map vec vec (map (times_by len)) (@map (list R) (list (fl R)) floats Y) = @map (list R) (list (fl R)) floats (map (vscal len) Y)).
      { intros Y. rewrite !map_map. apply map_ext. intros q. apply times_points. }
      rewrite !EG by auto. cbn [c c' cbo_cfg c_norm c_vsub].
      assert (ES : forall Y Y', map2 (map2 fsub) (map floats Y) (map floats Y') = map floats (map2 vsub Y Y')).
      { induction Y as [|y Y IH]; destruct Y'; cbn; auto. rewrite IH. f_equal. apply floats_sub. }
      rewrite !ES, !fnorm_concat, !map_length, !map2_length, !map_length.
      assert (EQ : Rsum (map sqnorm (map2 vsub (map (vscal len) X) (map (vscal len) X'))) = len * len * Rsum (map sqnorm (map2 vsub X X'))).
      { clear - HX HX'. revert X' HX'. induction X as [|x X IH]; destruct X' as [|y X']; cbn [map map2]; intros HX'; rewrite ?Rsum_cons; try (cbn; ring).
        rewrite IH; [|intros q Hq; apply HX; cbn; auto|intros q Hq; apply HX'; cbn; auto].
        assert (Lx : length x = d) by (apply HX; cbn; auto). assert (Ly : length y = d) by (apply HX'; cbn; auto).
        rewrite vsub_scal by congruence. rewrite <- !vnorm_sq, vnorm_scal. rewrite Rmult_plus_distr_l. f_equal.
        replace (Rabs len * vnorm (vsub x y) * (Rabs len * vnorm (vsub x y))) with ((Rabs len * Rabs len) * (vnorm (vsub x y) * vnorm (vsub x y))) by ring.
        f_equal. rewrite <- Rabs_mult. apply Rabs_pos_eq. nra. }
      assert (S0 : 0 <= Rsum (map sqnorm (map2 vsub X X'))) by (apply Rsum_nonneg; intros q Hq; apply in_map_iff in Hq; destruct Hq as (w & <- & _); apply sqnorm_nonneg).
      rewrite EQ, sqrt_mult, sqrt_square by nra. set (r := sqrt _). set (nn := INR _).
      unfold times_by. cbn [fdiv]. destruct (k_is0 nn) eqn:E0; cbn [fmul]; [|unfold Rdiv; cbn; f_equal; unfold Rdiv; ring].
      change (kmul len r) with (len * r). destruct (Rle_lt_or_eq_dec 0 r (sqrt_pos _)) as [Hr|Hr].
      + rewrite !inf_pos by nra. rewrite ?inf_pos by lra. reflexivity.
      + rewrite <- Hr, Rmult_0_r. assert (Z : inf_sign 0 true = NaN) by (unfold inf_sign; cbn; unfold Rltb; destruct (Rlt_dec 0 0); [lra|auto]). rewrite Z. reflexivity.
    - intros s s' H1 H2 H3 H4 H5 [HA (la & dt & sg & Q1 & Q2 & Q3 & Q4)]. split.
      + intros m Hm. rewrite H1. apply HA. congruence.
      + exists la, dt, sg. repeat split; congruence.
  Qed.

  Theorem units_invariant : forall s s', both uu c c' (finite_state d) (finite_draws d) s s' -> converted uu s s'.
  Proof. intros s s' H. exact (proj2 (proj2 (proj2 (both_gen _ _ _ _ _ _ units_equivariant s s' H)))). Qed.
  Theorem units_terminate : forall s s' b1 b2 s1 s1', both uu c c' (finite_state d) (finite_draws d) s s' ->
    terminate c s = Ok (b1, s1) -> terminate c' s' = Ok (b2, s1') -> b1 = b2.
  Proof.
    intros s s' b1 b2 s1 s1' H H1 H2. destruct (both_gen _ _ _ _ _ _ units_equivariant s s' H) as ((l & l' & E & E') & _ & _ & IM).
    exact (proj2 (term_conv _ _ _ _ _ _ units_equivariant s s' b1 b2 s1 s1' (exec_wf _ _ _ E) (exec_wf _ _ _ E') IM H1 H2)).
  Qed.
End Units.

(** the default post-processing, with the threshold converted as a length *)
Lemma pp_units : forall len t d, 0 < len -> 0 <= t -> forall p, length p = d ->
  exists q, pp_point t false (floats p) = floats q /\ length q = d /\ pp_point (len * t) false (floats (vscal len p)) = floats (vscal len q).
Proof.
  intros len t d Hl Ht p Hp. exists (map (fun x => Rmax (- t) (Rmin t x)) p). split; [|split; [rewrite map_length; auto|]].
  - unfold pp_point, floats. rewrite !map_map. apply map_ext. intros x. unfold pp_default, nan_to_num. apply np_clip_fin. auto.
  - unfold pp_point, floats, vscal. rewrite !map_map. apply map_ext. intros x. unfold pp_default, nan_to_num. rewrite np_clip_fin by nra. f_equal.
    unfold Rmax, Rmin. repeat match goal with |- context [Rle_dec ?x ?y] => destruct (Rle_dec x y) | H : context [Rle_dec ?x ?y] |- _ => destruct (Rle_dec x y) end; repeat match goal with H : ~ _ |- _ => apply Rnot_le_lt in H end; try nra.
Qed.

(** with times in units of dt only lamda dt and sigma sqrt(dt) are left *)
Lemma time_step_one : forall k (la dt sg : R), 0 < dt -> let u := cbo_units k 1 1 (/ dt) in
  u_lamda u (Fin la) = Fin (la * dt) /\ u_sigma u (Fin sg) = Fin (sg * sqrt dt) /\ u_t u (Fin dt) = Fin 1 /\ u_alpha u (Fin la) = Fin la.
Proof.
  intros k la dt sg H u. assert (S : 0 < sqrt dt) by (apply sqrt_lt_R0; auto). unfold u, cbo_units, times_by. cbn. repeat split; f_equal.
  - field. lra.
  - rewrite sqrt_inv. destruct k; field; lra.
  - field. lra.
  - field.
Qed.
Lemma one_times : forall v, times_by 1 v = v.
Proof. intros [x| | |]; unfold times_by; cbn; unfold inf_sign; cbn; unfold Rltb; try (destruct (Rlt_dec 0 1); [|lra]); auto. f_equal. ring. Qed.
