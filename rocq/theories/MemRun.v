(** * Runs of PSO and CBOMemory over the reals *)
From Coq Require Import String List Arith Bool Lia Permutation Reals Lra.
From Verif Require Import Scalar ScalarFacts RFacts Np NpFacts State Pdyn PdynFacts PdynStep PdynRun Exec PdynOk RunFacts StepFrame BestFacts BcFacts HeaviFacts RVec RVecFacts Consensus ConsSpec ConsFacts Polar PolarSpec PolarFacts Cbo CboSpec CboFacts AbsorbFacts Memory MemSpec MemFacts MemFacts2 MemFacts3 MemRaise MemMove MemMove2 MemReal MemRunSpec PolarRestSpec PolarRest.
Import ListNotations.
Open Scope R_scope.

Lemma cell_points : forall (a : arr vec) m X n x, points_at a m X -> nth_error X n = Some x -> cell a m n = Some (floats x).
Proof. intros a m X n x H Hx. unfold cell. rewrite H, nth_error_map, Hx. reflexivity. Qed.

(** a row whose entries are finite points *)
Lemma row_points : forall (a : arr vec) M N m d (P : nat -> list R -> Prop), rect M N a -> (m < M)%nat ->
  (forall n, (n < N)%nat -> exists x, cell a m n = Some (floats x) /\ length x = d /\ P n x) ->
  exists X, points_at a m X /\ ensemble N d X /\ forall n x, nth_error X n = Some x -> P n x.
Proof.
  intros a M N m d P [R1 R2] Hm H. destruct (nth_error_lt_Some _ a m) as [row Hr]; [lia|]. pose proof (R2 _ _ Hr) as Lr.
  assert (G : forall l off, (forall n, (n < length l)%nat -> exists x, nth_error l n = Some (floats x) /\ length x = d /\ P (off + n)%nat x) ->
    exists X, l = map floats X /\ (forall p, In p X -> length p = d) /\ forall n x, nth_error X n = Some x -> P (off + n)%nat x).
  { induction l as [|v l IH]; intros off G.
    - exists []. split; auto. split; [intros p []|]. intros [|n] x Q; discriminate.
    - destruct (G 0%nat) as (x & E & L & Px); [cbn; lia|]. cbn in E. inversion E; subst v.
      destruct (IH (S off)) as (X & EX & LX & PX). { intros n Hn. destruct (G (S n)) as (y & E1 & L1 & P1); [cbn; lia|]. exists y. split; auto. split; auto. replace (S off + n)%nat with (off + S n)%nat by lia; auto. }
      exists (x :: X). split; [cbn; congruence|]. split. { intros p [<-|Hp]; auto. } intros [|n] y Q; cbn in Q; [inversion Q; subst; auto|]. replace (off + S n)%nat with (S off + n)%nat by lia. auto. }
  destruct (G row 0%nat) as (X & EX & LX & PX).
  { intros n Hn. destruct (H n) as (x & E & L & Px); [rewrite <- Lr; exact Hn|]. exists x. split; auto. unfold cell in E. rewrite Hr in E. exact E. }
  exists X. unfold points_at. rewrite Hr, EX. split; auto. split; [split; auto|auto]. rewrite EX, map_length in Lr. auto.
Qed.

Definition all_fin (er : list (fl R)) : Prop := forall e, In e er -> exists y, e = Fin y.
Lemma all_fin_admissible : forall a er, all_fin er -> (1 <= length er)%nat -> admissible a er.
Proof.
  intros a er H L. split; [auto|]. destruct er as [|e er]; [cbn in L; lia|]. destruct (H e) as (y & ->); [cbn; auto|]. exists y. cbn; auto.
Qed.

Section Run.
  Variables (f : vec -> fl R) (k : noise_model) (pp : vec -> vec) (b : nat) (partial cat : bool) (ks : list (crit R vec)) (save : bool).
  Let c := cbo_cfg f k pp NoCorr b partial cat ks save.

  (** the consensus point of run m *)
  Lemma mem_point_real : forall ms m d Y er a cpt, mwf c ms -> (m < s_M (m_s ms))%nat -> (1 <= s_N (m_s ms))%nat ->
    points_at (m_y ms) m Y -> ensemble (s_N (m_s ms)) d Y -> nth_error (s_energy (m_s ms)) m = Some er -> all_fin er ->
    nth_error (s_alpha (m_s ms)) m = Some [Fin a] -> cc_call c (s_energy (m_s ms)) (m_y ms) (s_alpha (m_s ms)) = Ok cpt ->
    cell cpt m 0 = Some (floats (gibbs_point a er d Y)).
  Proof.
    intros ms m d Y er a cpt [W Ry Rv] Hm HN HY EY He Hf Ha HC.
    pose proof (w_e _ _ W) as Re. pose proof (w_al _ _ W) as Ral.
    destruct (cc_call_rows c (s_energy (m_s ms)) (m_y ms) (s_alpha (m_s ms))) as (cp & F1 & F2 & F3).
    { rewrite (proj1 Re), (proj1 Ry); auto. } { rewrite (proj1 Ry), (proj1 Ral); auto. }
    { intros i e xr Q1 Q2. rewrite (proj2 Re _ _ Q1), (proj2 Ry _ _ Q2); auto. } { intros i ar Q. apply (proj2 Ral _ _ Q). }
    rewrite HC in F1. inversion F1; subst cp. specialize (F3 _ _ _ _ He HY Ha).
    assert (Le : length er = s_N (m_s ms)) by (apply (proj2 Re _ _ He)).
    assert (HR : c_ccrow c er (map floats Y) (Fin a) = [floats (gibbs_point a er d Y)]).
    { apply (consensus_gibbs a er d Y). - apply all_fin_admissible; auto. lia. - rewrite Le. exact EY. }
    unfold cell. rewrite F3. etransitivity; [exact (f_equal (fun l => nth_error l 0) HR)|]. reflexivity.
  Qed.

  (** memory and energies after a step *)
  Lemma mem_memory_real : forall kd p (o : orc vec) z2 ms ms' m d Y er X', mwf c ms -> perms_valid o (m_s ms) -> s_active (m_s ms) <> [] ->
    mem_step kd c p o z2 ms = Ok ms' -> (m < s_M (m_s ms))%nat -> finite_obj d f ->
    points_at (m_y ms) m Y -> ensemble (s_N (m_s ms)) d Y -> nth_error (s_energy (m_s ms)) m = Some er -> all_fin er ->
    points_at (m_ev ms') m X' -> ensemble (s_N (m_s ms)) d X' ->
    exists Y' er', points_at (m_y ms') m Y' /\ ensemble (s_N (m_s ms)) d Y' /\ nth_error (s_energy (m_s ms')) m = Some er' /\ all_fin er' /\
      forall n y x e w, nth_error Y n = Some y -> nth_error X' n = Some x -> nth_error er n = Some (Fin e) -> f (floats x) = Fin w ->
        nth_error Y' n = Some (if Rltb w e then x else y) /\ nth_error er' n = Some (Fin (if Rltb w e then w else e)).
  Proof.
    intros kd p o z2 ms ms' m d Y er X' W P Hne H Hm HF HY EY He Hf HX EX.
    destruct (mem_step_ok _ _ _ _ _ _ _ W (perms_valid_ok _ _ P) Hne H) as (A1 & A2 & A3 & A4 & A5 & A6 & A7 & A8 & A9 & A10 & A11 & _).
    pose proof (mw_s _ _ W) as Ws. pose proof (mw_y _ _ A3) as Ry'. pose proof (w_e _ _ Ws) as Re. rewrite A4, A5 in Ry'.
    pose proof (w_e _ _ (mw_s _ _ A3)) as Re'. rewrite A4, A5 in Re'.
    assert (Le : length er = s_N (m_s ms)) by (apply (proj2 Re _ _ He)).
    assert (C : forall n y x e w, nth_error Y n = Some y -> nth_error X' n = Some x -> nth_error er n = Some (Fin e) -> f (floats x) = Fin w ->
      cell (m_y ms') m n = Some (floats (if Rltb w e then x else y)) /\ cell (s_energy (m_s ms')) m n = Some (Fin (if Rltb w e then w else e))).
    { intros n y x e w Hy Hx Hen Hw.
      assert (C1 := cell_points _ _ _ _ _ HY Hy). assert (C2 := cell_points _ _ _ _ _ HX Hx).
      assert (C3 : cell (s_energy (m_s ms)) m n = Some (Fin e)) by (unfold cell; rewrite He; auto).
      assert (Ly : length y = d) by (apply EY; eapply nth_error_In; eauto). assert (Lx : length x = d) by (apply EX; eapply nth_error_In; eauto).
      assert (C4 : cell (map (map (c_f c)) (m_ev ms')) m n = Some (Fin w)).
      { rewrite cell_map, C2. cbn [option_map]. f_equal. exact Hw. }
      split.
      - rewrite A10, !cell_map2, C1, C2, C3, C4. f_equal. unfold vmask. cbn [c cbo_cfg c_vsub c_vadd c_vscale fltb kltb KOps_R k0 k1].
        rewrite floats_sub. destruct (Rltb w e); rewrite floats_scal, floats_add; f_equal; apply (coord_ext _ _ d); auto;
          try (apply length_vadd; auto; rewrite length_vscal; apply length_vsub; auto);
          intros i _; (rewrite coord_vadd; [|rewrite length_vscal, (length_vsub _ _ d); auto]); rewrite coord_vscal, coord_vsub by congruence; ring.
      - rewrite A9, cell_map2, C3, C4. f_equal. unfold fmin. cbn [is_nan orb fltb kltb KOps_R]. destruct (Rltb w e); reflexivity. }
    assert (D : forall n, (n < s_N (m_s ms))%nat -> exists y x e w, nth_error Y n = Some y /\ nth_error X' n = Some x /\ nth_error er n = Some (Fin e) /\ f (floats x) = Fin w).
    { intros n Hn. destruct (nth_error_lt_Some _ Y n) as [y Hy]; [rewrite (proj1 EY); auto|]. destruct (nth_error_lt_Some _ X' n) as [x Hx]; [rewrite (proj1 EX); auto|].
      destruct (nth_error_lt_Some _ er n) as [e0 He0]; [lia|]. destruct (Hf e0) as (e & ->); [eapply nth_error_In; eauto|].
      destruct (HF x) as (w & Hw); [apply EX; eapply nth_error_In; eauto|]. exists y, x, e, w. auto. }
    destruct (row_points (m_y ms') (s_M (m_s ms)) (s_N (m_s ms)) m d (fun _ _ => True) Ry' Hm) as (Y' & B1 & B2 & _).
    { intros n Hn. destruct (D n Hn) as (y & x & e & w & D1 & D2 & D3 & D4). destruct (C _ _ _ _ _ D1 D2 D3 D4) as [Q _].
      eexists. split; [exact Q|]. split; auto. destruct (Rltb w e); [apply EX|apply EY]; eapply nth_error_In; eauto. }
    destruct (nth_error_lt_Some _ (s_energy (m_s ms')) m) as [er' He']; [rewrite (proj1 Re'); auto|].
    exists Y', er'. split; auto. split; auto. split; auto. pose proof (proj2 Re' _ _ He') as Le'.
    assert (F : forall n y x e w, nth_error Y n = Some y -> nth_error X' n = Some x -> nth_error er n = Some (Fin e) -> f (floats x) = Fin w ->
        nth_error Y' n = Some (if Rltb w e then x else y) /\ nth_error er' n = Some (Fin (if Rltb w e then w else e))).
    { intros n y x e w D1 D2 D3 D4. destruct (C _ _ _ _ _ D1 D2 D3 D4) as [Q1 Q2]. unfold cell in Q1, Q2. rewrite He' in Q2. split; auto.
      rewrite B1 in Q1. rewrite nth_error_map in Q1. destruct (nth_error Y' n) as [y'|]; [|discriminate]. cbn [option_map] in Q1. injection Q1 as Q1. apply floats_inj in Q1. congruence. }
    split; auto. intros e0 Hin. apply In_nth_error in Hin. destruct Hin as [n Hn].
    destruct (D n) as (y & x & e & w & D1 & D2 & D3 & D4). { rewrite <- Le'. apply nth_error_Some. congruence. }
    destruct (F _ _ _ _ _ D1 D2 D3 D4) as [_ Q]. rewrite Hn in Q. injection Q as ->. eauto.
  Qed.

  (** finite particles, memories, velocities and energies of run m *)
  Record pinv (m d : nat) (ms : mst R vec) (X Y V : list (list R)) (er : list (fl R)) : Prop := {
    pi_x : points_at (s_x (m_s ms)) m X; pi_xe : ensemble (s_N (m_s ms)) d X;
    pi_y : points_at (m_y ms) m Y; pi_ye : ensemble (s_N (m_s ms)) d Y;
    pi_v : points_at (m_v ms) m V; pi_ve : ensemble (s_N (m_s ms)) d V;
    pi_e : nth_error (s_energy (m_s ms)) m = Some er; pi_f : all_fin er }.

  Lemma pso_vel_real : forall (s : st R vec) g x y v z z2 lm mm ga la dt d, parameters la dt 0 s -> mm + ga * dt <> 0 ->
    length g = d -> length x = d -> length y = d -> length v = d -> length z = d -> length z2 = d ->
    exists U, length U = d /\ pso_vel c (mkmpar (Fin lm) (Fin 0) (Fin mm) (Fin ga)) s (floats g) (floats x) (floats y) (floats v) (floats z) (floats z2) = floats U /\
      (forall i, coord i U = (mm * dt * coord i v + la * dt * (coord i x - coord i g) + lm * dt * (coord i x - coord i y)) / (mm + ga * dt)).
  Proof.
    intros s g x y v z z2 lm mm ga la dt d (H1 & H2 & H3 & H4) Hq Lg Lx Ly Lv Lz Lz2. unfold pso_vel.
    cbn [p_lm p_sm p_m p_gamma c cbo_cfg c_vadd c_vsub c_vscale c_noise].
    rewrite H1, H2, H3, !floats_sub, !noise_floats by auto. cbn [fmul fadd kmul kadd k1 KOps_R].
    assert (E : fdiv (Fin 1) (Fin (mm + ga * dt)) = Fin (1 / (mm + ga * dt))).
    { unfold fdiv. rewrite is0_false by auto. reflexivity. }
    rewrite E, !floats_scal, !floats_add, !floats_scal.
    eexists. split; [|split; [reflexivity|]].
    - repeat (apply length_vadd || rewrite length_vscal || apply length_vsub || apply length_rnoise); auto.
    - intros i. pose proof (length_rnoise k dt (vsub x g) z d (length_vsub _ _ _ Lx Lg) Lz) as Ln1.
      pose proof (length_rnoise k dt (vsub x y) z2 d (length_vsub _ _ _ Lx Ly) Lz2) as Ln2.
      pose proof (length_vsub x g d Lx Lg) as Lxg. pose proof (length_vsub x y d Lx Ly) as Lxy.
      repeat first [rewrite coord_vscal | rewrite coord_vsub by congruence | (rewrite coord_vadd by (repeat first [rewrite length_vscal | rewrite (length_vadd _ _ d) | rewrite (length_vsub _ _ d)]; rewrite ?length_vscal; auto; congruence))].
      field. auto.
  Qed.

  Lemma pso_step_real : forall (o : orc vec) z2 ms log ms' m d X Y V er a lm la dt mm ga,
    mem_exec Pso c ms log -> perms_valid o (m_s ms) -> s_active (m_s ms) <> [] -> finite_draws d o -> finite_memory_draws d z2 -> finite_obj d f ->
    mem_step Pso c (mkmpar (Fin lm) (Fin 0) (Fin mm) (Fin ga)) o z2 ms = Ok ms' -> parameters la dt 0 (m_s ms) -> mm + ga * dt <> 0 ->
    b = s_N (m_s ms) -> (m < s_M (m_s ms))%nat -> nth_error (s_alpha (m_s ms)) m = Some [Fin a] -> pinv m d ms X Y V er -> untouched m ms' ->
    exists X' Y' V' er', pinv m d ms' X' Y' V' er' /\ points_at (m_ev ms') m X' /\
      (forall n x y v x' v', nth_error X n = Some x -> nth_error Y n = Some y -> nth_error V n = Some v -> nth_error X' n = Some x' -> nth_error V' n = Some v' ->
        forall i, coord i v' = (mm * dt * coord i v + la * dt * (coord i x - coord i (gibbs_point a er d Y)) + lm * dt * (coord i x - coord i y)) / (mm + ga * dt) /\
                  coord i x' = coord i x + dt * coord i v') /\
      (forall n y x e w, nth_error Y n = Some y -> nth_error X' n = Some x -> nth_error er n = Some (Fin e) -> f (floats x) = Fin w ->
        nth_error Y' n = Some (if Rltb w e then x else y) /\ nth_error er' n = Some (Fin (if Rltb w e then w else e))).
  Proof.
    intros o z2 ms log ms' m d X Y V er a lm la dt mm ga HE P Hne HD HD2 HF H HP Hq Hb Hm Ha [PX EX PY EY PV EV He Hf] HU.
    pose proof (mem_exec_wf _ _ _ _ HE) as W. pose proof (w_N _ _ (mw_s _ _ W)) as HN.
    destruct (pso_move c _ o z2 ms log ms' eq_refl (cbo_one_point _ _ _ _ _ _ _ _) HE P Hne H) as (cpt & _ & _ & E2 & E3). specialize (E2 Hb).
    assert (Hg := mem_point_real ms m d Y er a cpt W Hm HN PY EY He Hf Ha E2). set (g := gibbs_point a er d Y) in *.
    assert (Lg : length g = d) by apply gibbs_point_length.
    destruct (mem_step_ok _ _ _ _ _ _ _ W (perms_valid_ok _ _ P) Hne H) as (_ & _ & A3 & A4 & A5 & _ & _ & A8 & _).
    pose proof (mw_v _ _ A3) as Rv'. rewrite A4, A5 in Rv'.
    set (Q := fun n v' => forall x y v, nth_error X n = Some x -> nth_error Y n = Some y -> nth_error V n = Some v ->
       (forall i, coord i v' = (mm * dt * coord i v + la * dt * (coord i x - coord i g) + lm * dt * (coord i x - coord i y)) / (mm + ga * dt)) /\
       cell (m_ev ms') m n = Some (floats (vadd x (vscal dt v')))).
    assert (G : forall n, (n < s_N (m_s ms))%nat -> exists x y v v', nth_error X n = Some x /\ nth_error Y n = Some y /\ nth_error V n = Some v /\
      length v' = d /\ length x = d /\ cell (m_v ms') m n = Some (floats v') /\ Q n v').
    { intros n Hn. destruct (nth_error_lt_Some _ X n) as [x Hx]; [rewrite (proj1 EX); auto|].
      destruct (nth_error_lt_Some _ Y n) as [y Hy]; [rewrite (proj1 EY); auto|]. destruct (nth_error_lt_Some _ V n) as [v Hv]; [rewrite (proj1 EV); auto|].
      assert (Lx : length x = d) by (apply EX; eapply nth_error_In; eauto). assert (Ly : length y = d) by (apply EY; eapply nth_error_In; eauto).
      assert (Lv : length v = d) by (apply EV; eapply nth_error_In; eauto).
      destruct (HD m n) as (z & Hz & Lz). destruct (HD2 m n) as (w & Hw & Lw).
      destruct (E3 m n _ _ _ _ (cell_points _ _ _ _ _ PX Hx) (cell_points _ _ _ _ _ PY Hy) (cell_points _ _ _ _ _ PV Hv) Hg) as (_ & F2 & F3).
      destruct (pso_vel_real (m_s ms) g x y v z w lm mm ga la dt d HP Hq Lg Lx Ly Lv Lz Lw) as (U & LU & EU & HU').
      unfold pso_point in F3. rewrite Hz, Hw in F2, F3.
      assert (F2' : cell (m_v ms') m n = Some (floats U)) by (etransitivity; [exact F2|f_equal; exact EU]).
      assert (F3' : cell (m_ev ms') m n = Some (floats (vadd x (vscal dt U)))).
      { etransitivity; [exact F3|]. f_equal. etransitivity; [exact (f_equal (fun q => c_vadd c (floats x) (c_vscale c (s_dt (m_s ms)) q)) EU)|].
        destruct HP as (_ & -> & _). cbn [c cbo_cfg c_vadd c_vscale]. rewrite floats_scal, floats_add. reflexivity. }
      exists x, y, v, U. split; auto. split; auto. split; auto. split; auto. split; auto. split; auto.
      intros x1 y1 v1 G1 G2 G3. rewrite Hx in G1. injection G1 as <-. rewrite Hy in G2. injection G2 as <-. rewrite Hv in G3. injection G3 as <-. split; auto. }
    destruct (row_points (m_v ms') _ _ m d Q Rv' Hm) as (V' & PV' & EV' & HV').
    { intros n Hn. destruct (G n Hn) as (x & y & v & v' & _ & _ & _ & G1 & _ & G2 & G3). eauto. }
    destruct (row_points (m_ev ms') _ _ m d (fun n x' => forall v', nth_error V' n = Some v' -> forall x, nth_error X n = Some x -> x' = vadd x (vscal dt v')) A8 Hm) as (X' & PX' & EX' & HX').
    { intros n Hn. destruct (G n Hn) as (x & y & v & v' & G1 & G2 & G3 & G4 & G5 & G6 & G7). exists (vadd x (vscal dt v')).
      destruct (G7 _ _ _ G1 G2 G3) as [_ G8]. split; auto. split; [apply length_vadd; auto; rewrite length_vscal; auto|].
      intros v1 Hv1 x1 Hx1. rewrite G1 in Hx1. injection Hx1 as <-. rewrite (cell_points _ _ _ _ _ PV' Hv1) in G6. injection G6 as G6. apply floats_inj in G6. congruence. }
    destruct (mem_memory_real Pso _ o z2 ms ms' m d Y er X' W P Hne H Hm HF PY EY He Hf PX' EX') as (Y' & er' & B1 & B2 & B3 & B4 & B5).
    exists X', Y', V', er'. split. { constructor; rewrite ?A5; auto. unfold points_at. rewrite HU. exact PX'. } split; auto. split; auto.
    intros n x y v x' v' Hx Hy Hv Hx' Hv' i. destruct (HV' _ _ Hv' _ _ _ Hx Hy Hv) as [K1 _]. split; auto.
    rewrite (HX' _ _ Hx' _ Hv' _ Hx). rewrite coord_vadd, coord_vscal; auto. rewrite length_vscal.
    transitivity d; [|symmetry]; [apply EX|apply EV']; eapply nth_error_In; eauto.
  Qed.

  (** changes of the state that are no steps *)
  Lemma pinv_frame : forall m d ms s' X Y V er, s_x s' = s_x (m_s ms) -> s_N s' = s_N (m_s ms) -> s_energy s' = s_energy (m_s ms) ->
    pinv m d ms X Y V er -> pinv m d (mkmst s' (m_y ms) (m_v ms) (m_ev ms)) X Y V er.
  Proof. intros m d ms s' X Y V er E1 E2 E3 [Q1 Q2 Q3 Q4 Q5 Q6 Q7 Q8]. constructor; cbn [m_s m_y m_v]; rewrite ?E1, ?E2, ?E3; auto. Qed.
  Lemma term_fr : forall (s : st R vec) b' s', terminate c s = Ok (b', s') -> s_x s' = s_x s /\ s_N s' = s_N s /\ s_energy s' = s_energy s /\ s_M s' = s_M s.
  Proof. intros s b' s' H. apply terminate_char in H. destruct H as (act & r & -> & _). destruct s; auto. Qed.
  Lemma params_fr : forall (s s' : st R vec), params_changed s s' -> s_x s' = s_x s /\ s_N s' = s_N s /\ s_energy s' = s_energy s /\ s_M s' = s_M s.
  Proof. intros s s' (al & sg & la & dd & _ & ->). destruct s; auto. Qed.
  Lemma reset_fr : forall (s : st R vec), s_x (reset s) = s_x s /\ s_N (reset s) = s_N s /\ s_energy (reset s) = s_energy s /\ s_M (reset s) = s_M s.
  Proof. intros s. destruct (reset_char s) as (ts & h & -> & _). destruct s; auto. Qed.

  (** induction over [mem_steps]: J is an invariant of the particles, memories, velocities, energies *)
  Lemma mem_steps_inv : forall kd (P : mpar R -> st R vec -> Prop) (Q : mst R vec -> Prop) d m ms log (J : nat -> list (list R) -> list (list R) -> list (list R) -> list (fl R) -> Prop),
    mem_exec kd c ms log ->
    (forall n ms1 log1 p o z2 ms2 X Y V er, mem_exec kd c ms1 log1 -> s_M (m_s ms1) = s_M (m_s ms) -> s_N (m_s ms1) = s_N (m_s ms) ->
       s_active (m_s ms1) <> [] -> perms_valid o (m_s ms1) -> finite_draws d o -> finite_memory_draws d z2 -> P p (m_s ms1) -> mem_step kd c p o z2 ms1 = Ok ms2 -> Q ms2 ->
       pinv m d ms1 X Y V er -> J n X Y V er -> exists X' Y' V' er', pinv m d ms2 X' Y' V' er' /\ J (S n) X' Y' V' er') ->
    (exists X Y V er, pinv m d ms X Y V er /\ J 0%nat X Y V er) ->
    forall n ms', mem_steps kd P Q c d ms n ms' ->
    (exists log', mem_exec kd c ms' log') /\ s_M (m_s ms') = s_M (m_s ms) /\ s_N (m_s ms') = s_N (m_s ms) /\ exists X Y V er, pinv m d ms' X Y V er /\ J n X Y V er.
  Proof.
    intros kd P Q d m ms log J HE HS H0 n ms' H.
    induction H as [|n ms1 p o z2 ms2 H IH Hne PV HD HD2 HP Hst HQ|n ms1 b' s' H IH HT|n ms1 s' H IH HC|n ms1 H IH].
    - split; eauto.
    - destruct IH as ((l & E1) & M1 & N1 & X & Y & V & er & I1 & J1).
      destruct (mem_step_ok _ _ _ _ _ _ _ (mem_exec_wf _ _ _ _ E1) (perms_valid_ok _ _ PV) Hne Hst) as (_ & _ & _ & A4 & A5 & _).
      split; [eexists; eapply mx_step; eauto|]. split; [congruence|]. split; [congruence|]. exact (HS n ms1 l p o z2 ms2 X Y V er E1 M1 N1 Hne PV HD HD2 HP Hst HQ I1 J1).
    - destruct IH as ((l & E1) & M1 & N1 & X & Y & V & er & I1 & J1). destruct (term_fr _ _ _ HT) as (K1 & K2 & K3 & K4).
      split; [eexists; eapply mx_term; eauto|]. cbn [m_s]. split; [congruence|]. split; [congruence|]. exists X, Y, V, er. split; auto. apply pinv_frame; auto.
    - destruct IH as ((l & E1) & M1 & N1 & X & Y & V & er & I1 & J1). destruct (params_fr _ _ HC) as (K1 & K2 & K3 & K4).
      split; [eexists; eapply mx_params; eauto|]. cbn [m_s]. split; [congruence|]. split; [congruence|]. exists X, Y, V, er. split; auto. apply pinv_frame; auto.
    - destruct IH as ((l & E1) & M1 & N1 & X & Y & V & er & I1 & J1). destruct (reset_fr (m_s ms1)) as (K1 & K2 & K3 & K4).
      split; [eexists; eapply mx_reset; eauto|]. cbn [m_s]. split; [congruence|]. split; [congruence|]. exists X, Y, V, er. split; auto. apply pinv_frame; auto.
  Qed.

  (** the state after construction *)
  Lemma start_inv : forall ms m d X, mem_constructed c ms -> finite_obj d f -> ensemble_at (m_s ms) m d X ->
    pinv m d ms X X (map (vscal 0) X) (map f (map floats X)) /\ (m < s_M (m_s ms))%nat.
  Proof.
    intros ms m d X HC HF [H1 H2]. destruct (constructed_start f k pp b partial cat ks save ms HC) as (E1 & E2 & E3 & E4 & E5).
    pose proof (mem_constructed_wf _ _ HC) as W. pose proof (w_x _ _ (mw_s _ _ W)) as Rx.
    split. 2:{ rewrite <- (proj1 Rx). apply nth_error_Some. congruence. }
    constructor; auto.
    - unfold points_at. rewrite E3; auto.
    - unfold points_at. rewrite E4. etransitivity; [apply nth_error_map|]. etransitivity; [exact (f_equal (option_map (map (map (fmul (Fin 0))))) H1)|]. cbn [option_map]. f_equal. rewrite !map_map. apply map_ext. intros x. apply floats_scal.
    - split; [rewrite map_length; apply H2|]. intros p Hp. apply in_map_iff in Hp. destruct Hp as (q & <- & Hq). rewrite length_vscal. apply H2; auto.
    - rewrite E5. etransitivity; [apply nth_error_map|]. exact (f_equal (option_map (map f)) H1).
    - intros e He. apply in_map_iff in He. destruct He as (p & <- & Hp). apply in_map_iff in Hp. destruct Hp as (q & <- & Hq). apply HF. apply H2; auto.
  Qed.
End Run.
