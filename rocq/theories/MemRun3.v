(** * CBOMemory stays in the hull *)
From Coq Require Import String List Arith Bool Lia Permutation Reals Lra.
From Verif Require Import Scalar ScalarFacts RFacts Np NpFacts State Pdyn PdynFacts PdynStep PdynRun Exec PdynOk RunFacts StepFrame BestFacts BcFacts HeaviFacts RVec RVecFacts Consensus ConsSpec ConsFacts Polar PolarSpec PolarFacts Cbo CboSpec CboFacts AbsorbFacts Memory MemSpec MemFacts MemFacts2 MemFacts3 MemRaise MemMove MemMove2 MemReal MemRunSpec PolarRestSpec PolarRest PolarCluster MemRun MemRun2.
Import ListNotations.
Open Scope R_scope.

(** the Gibbs point is a convex combination *)
Lemma gibbs_combination : forall a E d X, admissible a E -> exists ws, convex ws /\ length ws = length E /\ gibbs_point a E d X = combination ws d X.
Proof.
  intros a E d X HA. assert (HS := gsum_pos _ _ HA). exists (map (fun e => gibbs a e / Rsum (map (gibbs a) E)) E).
  split; [split|split; [apply map_length|]].
  - intros w Hw. apply in_map_iff in Hw. destruct Hw as (e & <- & _). apply Rmult_le_pos; [apply gibbs_nonneg|]. left. apply Rinv_0_lt_compat; auto.
  - rewrite Rsum_map_div. field. lra.
  - unfold gibbs_point, combination. apply map_ext. intros i. unfold gibbs_mean. rewrite <- Rsum_map_div.
    rewrite combine_map_l, map_map. f_equal. apply map_ext. intros q. cbn [fst snd]. unfold Rdiv. ring.
Qed.
Lemma gibbs_region : forall C a E d X, convex_region d C -> admissible a E -> ensemble (length E) d X -> (forall x, In x X -> C x) -> C (gibbs_point a E d X).
Proof.
  intros C a E d X HC HA [H1 H2] HX. destruct (gibbs_combination a E d X HA) as (ws & W1 & W2 & ->). apply HC; auto. congruence.
Qed.

Section Hull.
  Variables (f : vec -> fl R) (k : noise_model) (pp : vec -> vec) (b : nat) (partial cat : bool) (ks : list (crit R vec)) (save : bool).
  Let c := cbo_cfg f k pp NoCorr b partial cat ks save.

  Lemma mem_glide : forall (p : mpar R) (s : st R vec) g x y z z2 la dt lm d, p_lm p = Fin lm -> p_sm p = Fin 0 -> parameters la dt 0 s ->
    length g = d -> length x = d -> length y = d -> length z = d -> length z2 = d ->
    mem_point c p s (floats g) (floats x) (floats y) (floats z) (floats z2) = floats (glide (lm * dt) y (glide (la * dt) g x)).
  Proof.
    intros p s g x y z z2 la dt lm d Hl Hs (H1 & H2 & H3 & H4) Lg Lx Ly Lz Lz2. unfold mem_point. cbv zeta.
    assert (E : mem_half c s (floats g) (floats x) (floats z) = floats (glide (la * dt) g x)).
    { unfold mem_half, cbo_update. cbn [c cbo_cfg c_vadd c_vsub c_vscale c_noise]. rewrite H1, H2, H3, floats_sub, noise_floats by auto. cbn [fopp fmul kopp kmul KOps_R]. rewrite !floats_scal, !floats_add.
      f_equal. rewrite <- (rmove_glide k la dt g x z d) by auto. unfold rmove. do 3 f_equal. ring. }
    rewrite E. set (h := glide (la * dt) g x). assert (Lh : length h = d) by (apply glide_length; auto).
    unfold cbo_update. cbn [c cbo_cfg c_vadd c_vsub c_vscale c_noise]. rewrite Hl, Hs, H2, floats_sub, noise_floats by auto. cbn [fopp fmul kopp kmul KOps_R]. rewrite !floats_scal, !floats_add.
    f_equal. rewrite <- (rmove_glide k lm dt y h z2 d) by auto. unfold rmove. do 3 f_equal. ring.
  Qed.

  Lemma mem_step_v : forall p (o : orc vec) z2 ms ms', mem_step CBOMem c p o z2 ms = Ok ms' -> m_v ms' = m_v ms.
  Proof.
    intros p o z2 ms ms' H. unfold mem_step in H. apply bind_ok in H. destruct H as (s1 & _ & H). cbv zeta in H.
    apply bind_ok in H. destruct H as (ms2 & H1 & H). apply bind_ok in H. destruct H as (s3 & _ & H). inversion H. cbn [m_v].
    unfold mem_inner in H1. repeat (apply bind_ok in H1; destruct H1 as (? & _ & H1)). unfold eval_f in H1. cbn [m_v m_y] in H1. unfold memorize in H1.
    repeat (apply bind_ok in H1; destruct H1 as (? & _ & H1)). inversion H1. reflexivity.
  Qed.

  (** one step *)
  Lemma mem_step_real : forall p (o : orc vec) z2 ms log ms' m d X Y V er a lm la dt (C : list R -> Prop),
    mem_exec CBOMem c ms log -> perms_valid o (m_s ms) -> s_active (m_s ms) <> [] -> finite_draws d o -> finite_memory_draws d z2 -> finite_obj d f ->
    mem_step CBOMem c p o z2 ms = Ok ms' -> p_lm p = Fin lm -> p_sm p = Fin 0 -> parameters la dt 0 (m_s ms) ->
    b = s_N (m_s ms) -> (m < s_M (m_s ms))%nat -> nth_error (s_alpha (m_s ms)) m = Some [Fin a] -> pinv m d ms X Y V er ->
    exists X' Y' er', points_at (m_ev ms') m X' /\ ensemble (s_N (m_s ms)) d X' /\ points_at (m_y ms') m Y' /\ ensemble (s_N (m_s ms)) d Y' /\
      nth_error (s_energy (m_s ms')) m = Some er' /\ all_fin er' /\
      (forall n x y x', nth_error X n = Some x -> nth_error Y n = Some y -> nth_error X' n = Some x' -> x' = glide (lm * dt) y (glide (la * dt) (gibbs_point a er d Y) x)) /\
      (forall n y x e w, nth_error Y n = Some y -> nth_error X' n = Some x -> nth_error er n = Some (Fin e) -> f (floats x) = Fin w ->
        nth_error Y' n = Some (if Rltb w e then x else y)).
  Proof.
    intros p o z2 ms log ms' m d X Y V er a lm la dt C HE P Hne HD HD2 HF H Hl Hs HP Hb Hm Ha [PX EX PY EY PV EV He Hf].
    pose proof (mem_exec_wf _ _ _ _ HE) as W. pose proof (w_N _ _ (mw_s _ _ W)) as HN.
    destruct (mem_move c p o z2 ms log ms' eq_refl (cbo_one_point _ _ _ _ _ _ _ _) HE P Hne Hb H) as (cpt & _ & E2 & E3).
    assert (Hg := mem_point_real f k pp b partial cat ks save ms m d Y er a cpt W Hm HN PY EY He Hf Ha E2). set (g := gibbs_point a er d Y) in *.
    assert (Lg : length g = d) by apply gibbs_point_length.
    destruct (mem_step_ok _ _ _ _ _ _ _ W (perms_valid_ok _ _ P) Hne H) as (_ & _ & A3 & A4 & A5 & _ & _ & A8 & _).
    destruct (row_points (m_ev ms') _ _ m d (fun n x' => forall x y, nth_error X n = Some x -> nth_error Y n = Some y -> x' = glide (lm * dt) y (glide (la * dt) g x)) A8 Hm) as (X' & PX' & EX' & HX').
    { intros n Hn. destruct (ens_nth _ _ _ _ EX Hn) as (x & Hx & Lx). destruct (ens_nth _ _ _ _ EY Hn) as (y & Hy & Ly).
      destruct (HD m n) as (z & Hz & Lz). destruct (HD2 m n) as (w & Hw & Lw).
      assert (F := E3 m n _ _ _ (cell_points _ _ _ _ _ PX Hx) (cell_points _ _ _ _ _ PY Hy) Hg). rewrite Hz, Hw in F.
      exists (glide (lm * dt) y (glide (la * dt) g x)). split; [etransitivity; [exact F|]; f_equal; apply (mem_glide p (m_s ms) g x y z w la dt lm d); auto|].
      split; [apply glide_length; auto; apply glide_length; auto|]. intros x1 y1 Q1 Q2. congruence. }
    destruct (mem_memory_real f k pp b partial cat ks save CBOMem _ o z2 ms ms' m d Y er X' W P Hne H Hm HF PY EY He Hf PX' EX') as (Y' & er' & B1 & B2 & B3 & B4 & B5).
    exists X', Y', er'. split; auto. split; auto. split; auto. split; auto. split; auto. split; auto. split; [intros; eapply HX'; eauto|].
    intros n y x e w Q1 Q2 Q3 Q4. apply (B5 _ _ _ _ _ Q1 Q2 Q3 Q4).
  Qed.

  (** particles and memories stay in every convex region that contains the initial particles *)
  Theorem mem_hull : forall ms m d X (C : list R -> Prop) n ms', mem_constructed c ms -> ensemble_at (m_s ms) m d X -> finite_obj d f -> b = s_N (m_s ms) ->
    convex_region d C -> (forall x, In x X -> C x) -> (forall x, length x = d -> C x -> exists x', pp (floats x) = floats x' /\ length x' = d /\ C x') ->
    mem_steps CBOMem mem_quiet (fun _ => True) c d ms n ms' ->
    exists X' Y', ensemble_at (m_s ms') m d X' /\ points_at (m_y ms') m Y' /\ length Y' = length X' /\ forall x, In x X' \/ In x Y' -> C x.
  Proof.
    intros ms m d X C n ms' HC HX HF Hb HCo HXC HPP HS.
    destruct (start_inv f k pp b partial cat ks save ms m d X HC HF HX) as [I0 Hm].
    set (J := fun (n : nat) (X' Y' V' : list (list R)) (er : list (fl R)) => forall x, In x X' \/ In x Y' -> C x).
    destruct (mem_steps_inv f k pp b partial cat ks save CBOMem mem_quiet (fun _ => True) d m ms (mem_evaluated ms) J) with (n := n) (ms' := ms') as (_ & _ & EN & X' & Y' & V' & er' & I1 & J1); auto.
    - constructor; auto.
    - intros j ms1 log1 p o z2 ms2 X1 Y1 V1 er1 E1 M1 N1 Hne PV HD HD2 (FA & la & dt & lm & Hl & Hs & HP & Hla & Hlm) Hst _ I1 J1.
      destruct (FA m) as (a & Ha); [congruence|].
      destruct (mem_step_real p o z2 ms1 log1 ms2 m d X1 Y1 V1 er1 a lm la dt C E1 PV Hne HD HD2 HF Hst Hl Hs HP) as (X2 & Y2 & er2 & B1 & B2 & B3 & B4 & B5 & B6 & B7 & B8); auto; try congruence.
      pose proof (mem_exec_wf _ _ _ _ E1) as W1. pose proof (w_N _ _ (mw_s _ _ W1)) as HN.
      destruct (mem_step_ok _ _ _ _ _ _ _ W1 (perms_valid_ok _ _ PV) Hne Hst) as (_ & _ & A3 & A4 & A5 & _ & _ & A8 & _ & _ & A11 & _).
      destruct I1 as [PX1 EX1 PY1 EY1 PV1 EV1 He1 Hf1].
      assert (Le : length er1 = s_N (m_s ms1)) by (apply (proj2 (w_e _ _ (mw_s _ _ W1)) _ _ He1)).
      assert (Cg : C (gibbs_point a er1 d Y1)). { apply gibbs_region; [exact HCo|apply all_fin_admissible; auto; lia|rewrite Le; exact EY1|]. intros x Hx. apply J1; auto. }
      assert (CX2 : forall x, In x X2 -> C x).
      { intros x' Hx'. apply In_nth_error in Hx'. destruct Hx' as [q Q]. destruct (ens_lt _ _ _ _ _ B2 Q) as [Lq Lx'].
        destruct (ens_nth _ _ _ _ EX1 Lq) as (x & Q1 & L1). destruct (ens_nth _ _ _ _ EY1 Lq) as (y & Q2 & L2).
        rewrite (B7 _ _ _ _ Q1 Q2 Q). assert (Lg := gibbs_point_length a er1 d Y1). apply glide_region with (d := d); auto; [apply glide_length; auto| |].
        - apply glide_region with (d := d); auto. apply J1. left. eapply nth_error_In; eauto.
        - apply J1. right. eapply nth_error_In; eauto. }
      destruct (row_points (s_x (m_s ms2)) (s_M (m_s ms1)) (s_N (m_s ms1)) m d (fun _ x => C x)) as (X3 & P3 & E3 & C3).
      { pose proof (w_x _ _ (mw_s _ _ A3)) as Q. rewrite A4, A5 in Q. exact Q. } { congruence. }
      { intros q Hq. destruct (ens_nth _ _ _ _ B2 Hq) as (x & Q1 & L1). destruct (HPP x L1) as (x' & Q2 & Q3 & Q4); [apply CX2; eapply nth_error_In; eauto|].
        exists x'. split; auto. rewrite A11, cell_map, (cell_points _ _ _ _ _ B1 Q1). cbn [option_map]. f_equal. exact Q2. }
      exists X3, Y2, V1, er2. split.
      + constructor; rewrite ?A5; auto. unfold points_at. rewrite (mem_step_v _ _ _ _ _ Hst). exact PV1.
      + intros x [Hx|Hx]; apply In_nth_error in Hx; destruct Hx as [q Q]; [eapply C3; eauto|].
        destruct (ens_lt _ _ _ _ _ B4 Q) as [Lq _]. destruct (ens_nth _ _ _ _ EY1 Lq) as (y & Q2 & L2). destruct (ens_nth _ _ _ _ B2 Lq) as (x' & Q3 & L3).
        destruct (nth_error_lt_Some _ er1 q) as [e0 He0]; [lia|]. destruct (Hf1 e0) as (e & ->); [eapply nth_error_In; eauto|]. destruct (HF x' L3) as (w & Hw).
        rewrite (B8 _ _ _ _ _ Q2 Q3 He0 Hw) in Q. injection Q as <-. destruct (Rltb w e); [apply CX2|apply J1; right]; eapply nth_error_In; eauto.
    - exists X, X, (map (vscal 0) X), (map f (map floats X)). split; auto. intros x [Hx|Hx]; auto.
    - exists X', Y'. destruct I1 as [PX EX PY EY _ _ _ _]. split; [split; auto|]. split; auto. split; [rewrite (proj1 EX), (proj1 EY); auto|]. exact J1.
  Qed.
End Hull.
