(** * PSO over the reals: the drift *)
From Coq Require Import String List Arith Bool Lia Permutation Reals Lra.
From Verif Require Import Scalar ScalarFacts RFacts Np NpFacts State Pdyn PdynFacts PdynStep PdynRun Exec PdynOk RunFacts StepFrame BestFacts BcFacts HeaviFacts RVec RVecFacts Consensus ConsSpec ConsFacts Polar PolarSpec PolarFacts Cbo CboSpec CboFacts Memory MemSpec MemFacts MemFacts2 MemFacts3 MemRaise MemMove.
Import ListNotations.
Open Scope R_scope.

Section Real.
  Variables (f : vec -> fl R) (k : noise_model) (pp : vec -> vec) (b : nat) (partial cat : bool) (ks : list (crit R vec)) (save : bool).
  Let c := cbo_cfg f k pp NoCorr b partial cat ks save.

  Lemma pso_point_real : forall (s : st R vec) g x y v z z2 mm ga la dt d, parameters la dt 0 s -> mm + ga * dt <> 0 ->
    length g = d -> length x = d -> length y = d -> length v = d -> length z = d -> length z2 = d ->
    exists X, length X = d /\ pso_point c (mkmpar (Fin 0) (Fin 0) (Fin mm) (Fin ga)) s (floats g) (floats x) (floats y) (floats v) (floats z) (floats z2) = floats X /\
      (forall i, coord i X = coord i x + dt * (mm * dt * coord i v + la * dt * (coord i x - coord i g)) / (mm + ga * dt)).
  Proof.
    intros s g x y v z z2 mm ga la dt d (H1 & H2 & H3 & H4) Hq Lg Lx Ly Lv Lz Lz2. unfold pso_point, pso_vel.
    cbn [p_lm p_sm p_m p_gamma c cbo_cfg c_vadd c_vsub c_vscale c_noise].
    rewrite H1, H2, H3, !floats_sub, !noise_floats by auto. cbn [fmul fadd kmul kadd k1 KOps_R].
    assert (E : fdiv (Fin 1) (Fin (mm + ga * dt)) = Fin (1 / (mm + ga * dt))).
    { unfold fdiv. rewrite is0_false by auto. reflexivity. }
    rewrite E, !floats_scal, !floats_add, !floats_scal, !floats_add.
    eexists. split; [|split; [reflexivity|]].
    - repeat (apply length_vadd || rewrite length_vscal || apply length_vsub || apply length_rnoise); auto.
    - intros i. pose proof (length_rnoise k dt (vsub x g) z d (length_vsub _ _ _ Lx Lg) Lz) as Ln1.
      pose proof (length_rnoise k dt (vsub x y) z2 d (length_vsub _ _ _ Lx Ly) Lz2) as Ln2.
      pose proof (length_vsub x g d Lx Lg) as Lxg. pose proof (length_vsub x y d Lx Ly) as Lxy.
      repeat first [rewrite coord_vscal | rewrite coord_vsub by congruence | (rewrite coord_vadd by (repeat first [rewrite length_vscal | rewrite (length_vadd _ _ d) | rewrite (length_vsub _ _ d)]; rewrite ?length_vscal; auto; congruence))].
      field. auto.
  Qed.

  (** a particle at rest *)
  Theorem pso_repels : forall p (o : orc vec) z2 ms log ms' m n x y v d la dt mm ga, p = mkmpar (Fin 0) (Fin 0) (Fin mm) (Fin ga) ->
    mem_exec Pso c ms log -> perms_valid o (m_s ms) -> s_active (m_s ms) <> [] -> mem_step Pso c p o z2 ms = Ok ms' ->
    parameters la dt 0 (m_s ms) -> mm + ga * dt <> 0 ->
    (exists z, o_z o m n = floats z /\ length z = d) -> (exists z, z2 m n = floats z /\ length z = d) ->
    cell (s_x (m_s ms)) m n = Some (floats x) -> length x = d -> cell (m_y ms) m n = Some (floats y) -> length y = d ->
    cell (m_v ms) m n = Some (floats v) -> length v = d -> (forall i, coord i v = 0) ->
    forall cpt g, s_cons (m_s ms') = Some cpt -> cell cpt m 0 = Some (floats g) -> length g = d ->
    exists x', cell (s_x (m_s ms')) m n = Some (pp (floats x')) /\ length x' = d /\
      vsub x' g = vscal (1 + la * dt * dt / (mm + ga * dt)) (vsub x g).
  Proof.
    intros p o z2 ms log ms' m n x y v d la dt mm ga -> HE P Hne H HP Hq (z & Hz & Lz) (w & Hw & Lw) Hx Lx Hy Ly Hv Lv Hv0 cpt g Hc Hg Lg.
    destruct (pso_move c _ o z2 ms log ms' eq_refl (cbo_one_point _ _ _ _ _ _ _ _) HE P Hne H) as (cpt' & E1 & _ & _ & E2).
    rewrite Hc in E1. inversion E1; subst cpt'. specialize (E2 _ _ _ _ _ _ Hx Hy Hv Hg). apply proj1 in E2. rewrite Hz, Hw in E2.
    destruct (pso_point_real (m_s ms) g x y v z w mm ga la dt d HP Hq Lg Lx Ly Lv Lz Lw) as (X & LX & EX & HX).
    exists X. split. { etransitivity; [exact E2|]. exact (f_equal (fun q => Some (pp q)) EX). } split; auto.
    apply (coord_ext _ _ d); [apply length_vsub; auto|rewrite length_vscal; apply length_vsub; auto|].
    intros i _. rewrite coord_vscal, !coord_vsub by congruence. rewrite HX, Hv0. field. auto.
  Qed.

  Lemma constructed_start : forall ms, mem_constructed c ms ->
    s_active (m_s ms) = seq 0 (s_M (m_s ms)) /\ (1 <= s_N (m_s ms))%nat /\ m_y ms = s_x (m_s ms) /\ m_v ms = map (map (map (fmul (Fin 0)))) (s_x (m_s ms)) /\
    s_energy (m_s ms) = map (map f) (s_x (m_s ms)).
  Proof.
    intros ms H. pose proof (mem_constructed_wf _ _ H) as W. apply mem_constructed_char in H. destruct H as (s & Hs & E1 & E2 & E3 & E4).
    rewrite E1. split. 2:{ split; [pose proof (w_N _ _ (mw_s _ _ W)) as Q; rewrite E1 in Q; exact Q|]. rewrite E2, E3. sst. auto. }
    sst. clear - Hs. destruct Hs as (x0 & ch & al & sg & la & dt & perm0 & names & extra & sv & H1 & H2 & H3 & H4 & H5 & H).
    unfold init in H. apply bind_ok in H. destruct H as (bp & E & H). inversion H as [Hs].
    match goal with |- context [init_history ?a ?b ?c ?d] => destruct (init_history_char a b c d) as (ts & h & E' & _); rewrite E' end.
    reflexivity.
  Qed.

  Lemma zeros : forall (x : list R), exists v, map (fmul (Fin 0)) (floats x) = floats v /\ length v = length x /\ forall i, coord i v = 0.
  Proof.
    intros x. exists (vscal 0 x). rewrite floats_scal, length_vscal. split; auto. split; auto. intros. rewrite coord_vscal. ring.
  Qed.

  (** the first step after construction, without noise and memory drift *)
  Theorem pso_first_step_repels : forall (o : orc vec) z2 ms ms' m d X la dt mm ga,
    mem_constructed c ms -> perms_valid o (m_s ms) -> finite_draws d o -> (forall i j, exists z, z2 i j = floats z /\ length z = d) ->
    finite_obj d f -> finite_alpha (m_s ms) -> parameters la dt 0 (m_s ms) -> mm + ga * dt <> 0 -> b = s_N (m_s ms) ->
    (m < s_M (m_s ms))%nat -> ensemble_at (m_s ms) m d X ->
    mem_step Pso c (mkmpar (Fin 0) (Fin 0) (Fin mm) (Fin ga)) o z2 ms = Ok ms' ->
    exists a g cpt, g = gibbs_point a (map f (map floats X)) d X /\ s_cons (m_s ms') = Some cpt /\ cell cpt m 0 = Some (floats g) /\
      forall n x, nth_error X n = Some x -> exists x', cell (s_x (m_s ms')) m n = Some (pp (floats x')) /\ length x' = d /\
        vsub x' g = vscal (1 + la * dt * dt / (mm + ga * dt)) (vsub x g).
  Proof.
    intros o z2 ms ms' m d X la dt mm ga HC P HD HD2 HF HA HP Hq Hb Hm [HX1 HX2] H.
    assert (HE : mem_exec Pso c ms (mem_evaluated ms)) by (constructor; auto).
    destruct (constructed_start ms HC) as (E1 & E2 & E3 & E4 & E5).
    assert (Hne : s_active (m_s ms) <> []). { rewrite E1. destruct (s_M (m_s ms)); [lia|]. discriminate. }
    pose proof (mem_constructed_wf _ _ HC) as W. pose proof (mw_s _ _ W) as Ws.
    destruct (pso_move c _ o z2 ms _ ms' eq_refl (cbo_one_point _ _ _ _ _ _ _ _) HE P Hne H) as (cpt & C1 & C2 & C3 & _).
    specialize (C3 Hb). destruct (HA m Hm) as (a & Ha).
    assert (Hy : nth_error (m_y ms) m = Some (map floats X)) by (rewrite E3; auto).
    pose proof (w_x _ _ Ws) as Rx. pose proof (w_al _ _ Ws) as Ral.
    destruct (cc_call_rows c (s_energy (m_s ms)) (m_y ms) (s_alpha (m_s ms))) as (cp & F1 & F2 & F3).
    { rewrite E5, E3, map_length; auto. } { rewrite E3, (proj1 Rx), (proj1 Ral); auto. }
    { intros i er xr Q1 Q2. rewrite E5, nth_error_map, <- E3, Q2 in Q1. inversion Q1. apply map_length. }
    { intros i ar Q. apply (proj2 Ral _ _ Q). }
    rewrite C3 in F1. inversion F1; subst cp. clear F1.
    assert (He : nth_error (s_energy (m_s ms)) m = Some (map f (map floats X))).
    { rewrite E5, nth_error_map. rewrite HX1. reflexivity. }
    specialize (F3 _ _ _ _ He Hy Ha).
    assert (LX : (1 <= length X)%nat) by (rewrite (proj1 HX2); auto).
    assert (HR : c_ccrow c (map f (map floats X)) (map floats X) (Fin a) = [floats (gibbs_point a (map f (map floats X)) d X)]).
    { apply (ccrow_finite f k pp b partial cat ks save d X a HF LX). apply HX2. }
    rewrite HR in F3. clear HR.
    exists a, (gibbs_point a (map f (map floats X)) d X), cpt. split; auto. split; auto.
    assert (Hg : cell cpt m 0 = Some (floats (gibbs_point a (map f (map floats X)) d X))) by (unfold cell; rewrite F3; reflexivity).
    split; auto. intros n x Hx.
    assert (Lx : length x = d) by (apply HX2; eapply nth_error_In; eauto).
    destruct (zeros x) as (v & V1 & V2 & V3).
    assert (Hcx : cell (s_x (m_s ms)) m n = Some (floats x)). { unfold cell. rewrite HX1, nth_error_map, Hx. auto. }
    assert (Hcy : cell (m_y ms) m n = Some (floats x)) by (rewrite E3; exact Hcx).
    assert (Hcv : cell (m_v ms) m n = Some (floats v)).
    { rewrite E4. etransitivity; [apply (cell_map_some _ _ (map (fmul (Fin 0))) _ _ _ _ Hcx)|]. f_equal. exact V1. }
    apply (pso_repels _ o z2 ms _ ms' m n x x v d la dt mm ga eq_refl HE P Hne H HP Hq (HD m n) (HD2 m n) Hcx Lx Hcy Lx Hcv (eq_trans V2 Lx) V3 cpt); auto.
    apply gibbs_point_length.
  Qed.

  (** the distance to the consensus grows *)
  Lemma repulsion_gt_1 : forall la dt mm ga, 0 < la -> 0 < dt -> 0 < mm -> 0 <= ga -> 1 < 1 + la * dt * dt / (mm + ga * dt).
  Proof.
    intros. assert (0 < mm + ga * dt). { assert (0 <= ga * dt) by (apply Rmult_le_pos; lra). lra. }
    assert (0 < la * dt * dt / (mm + ga * dt)). { apply Rdiv_lt_0_compat; auto. repeat apply Rmult_lt_0_compat; auto. } lra.
  Qed.
  Lemma vnorm_vscal : forall a u, 0 <= a -> vnorm (vscal a u) = a * vnorm u.
  Proof.
    intros a u Ha. unfold vnorm. unfold sqnorm. rewrite dot_vscal_l, dot_vscal_r.
    replace (a * (a * dot u u)) with ((a * a) * dot u u) by ring. rewrite sqrt_mult; [|apply Rmult_le_pos; auto|apply sqnorm_nonneg].
    rewrite sqrt_square by auto. auto.
  Qed.
End Real.
