(** * Runs of CBOMemory and PSO do not influence one another *)
From Coq Require Import String List Arith Bool Permutation Lia.
From Verif Require Import Scalar ScalarFacts Np NpFacts State Pdyn PdynFacts PdynStep PdynRun PdynOk Exec BcFacts BestFacts StepFrame
  Memory MemSpec MemFacts MemFacts2 MemFacts3 MemMove MemMove2 VarIndepSpec VarIndep.
Import ListNotations.
Open Scope nat_scope.
Open Scope list_scope.

Section MemIndep.
  Context {K V : Type} {O : KOps K}.
  Notation F := (fl K).
  Notation st := (st K V).
  Notation cfg := (cfg K V).
  Notation orc := (orc V).
  Notation mst := (mst K V).
  Notation mpar := (mpar K).

  Lemma mem_post_par : forall k (c : cfg) (s s' : st), mem_post_step k c s = Ok s' ->
    s_alpha s' = s_alpha s /\ s_sigma s' = s_sigma s /\ s_lamda s' = s_lamda s /\ s_dt s' = s_dt s.
  Proof.
    intros k c s s' H. unfold mem_post_step in H. cbv zeta in H. apply bind_ok in H. destruct H as (s3 & E3 & H).
    apply bind_ok in H. destruct H as (s5 & E5 & H).
    apply track_frame in E5. destruct E5 as (ti & ts & h & ->). injection H as <-.
    destruct k; [unfold mem_update_best_cur in E3|unfold update_best_cur in E3]; apply bind_ok in E3; destruct E3 as (am & _ & E3); cbv zeta in E3;
      apply bind_ok in E3; destruct E3 as (p & _ & E3); apply bind_ok in E3; destruct E3 as (e & _ & E3); injection E3 as <-;
      unfold update_best; destruct s as [? ? ? ? ? ? ? ? ? ? ? ? ? ? ? ? ? ? ? ? ? ? ? ? ? ? ? ? ? xo];
      repeat (match goal with |- context [match ?x with _ => _ end] => destruct x end; cbn; auto).
  Qed.

  Lemma moved_par : forall s s' : st, moved s s' -> s_alpha s' = s_alpha s /\ s_sigma s' = s_sigma s /\ s_lamda s' = s_lamda s /\ s_dt s' = s_dt s.
  Proof. intros s s' (x & co & d & fc & nf & -> & _). sst. auto. Qed.

  Lemma mem_step_par : forall k (c : cfg) p (o : orc) z2 ms ms', mwf c ms -> perm_ok o (m_s ms) -> s_active (m_s ms) <> [] ->
    mem_step k c p o z2 ms = Ok ms' ->
    s_alpha (m_s ms') = s_alpha (m_s ms) /\ s_sigma (m_s ms') = s_sigma (m_s ms) /\ s_lamda (m_s ms') = s_lamda (m_s ms) /\ s_dt (m_s ms') = s_dt (m_s ms).
  Proof.
    intros k c p o z2 ms ms' [W Ry Rv] P Hne H. unfold mem_step in H.
    destruct (pre_ready c o (m_s ms) W P Hne) as (ci & pi & ind & Epre & R & Hind). rewrite Epre in H. cbn [bind] in H. cbv zeta in H.
    set (s1 := set_pidx pi _) in *.
    assert (S1 : s_alpha s1 = s_alpha (m_s ms) /\ s_sigma s1 = s_sigma (m_s ms) /\ s_lamda s1 = s_lamda (m_s ms) /\ s_dt s1 = s_dt (m_s ms)) by (repeat split).
    assert (S2 : s_M s1 = s_M (m_s ms) /\ s_N s1 = s_N (m_s ms)) by (split; reflexivity).
    clearbody s1. apply bind_ok in H. destruct H as (ms2 & H1 & H). apply bind_ok in H. destruct H as (s3 & H3 & H). inversion H; subst ms'. clear H. cbn [m_s].
    apply mem_post_par in H3.
    assert (Q : s_alpha (m_s ms2) = s_alpha s1 /\ s_sigma (m_s ms2) = s_sigma s1 /\ s_lamda (m_s ms2) = s_lamda s1 /\ s_dt (m_s ms2) = s_dt s1).
    { destruct S2 as [S2 S2']. rewrite <- S2, <- S2' in Ry, Rv. destruct k.
      - destruct (mem_inner_ok c p o z2 (mkmst s1 (m_y ms) (m_v ms) (m_ev ms)) ms2 R Ry H1) as (A1 & A2 & s2 & xe & A3 & A4 & A5 & ->).
        cbn [m_s m_y m_v] in *. apply moved_par in A3. sst. auto.
      - destruct (pso_inner_ok c p o z2 (mkmst s1 (m_y ms) (m_v ms) (m_ev ms)) ms2 R Ry Rv H1) as (A1 & A2 & s2 & v' & xe & A3 & A4 & A5 & A6 & ->).
        cbn [m_s m_y m_v] in *. apply moved_par in A3. sst. auto. }
    destruct S1 as (? & ? & ? & ?), H3 as (? & ? & ? & ?), Q as (? & ? & ? & ?). repeat split; congruence.
  Qed.

  Lemma mem_v_same : forall (c : cfg) p (o : orc) z2 ms ms', mem_step CBOMem c p o z2 ms = Ok ms' -> m_v ms' = m_v ms.
  Proof.
    intros c p o z2 ms ms' H. unfold mem_step in H. apply bind_ok in H. destruct H as (s1 & _ & H). cbv zeta in H.
    apply bind_ok in H. destruct H as (ms2 & H1 & H). apply bind_ok in H. destruct H as (s3 & _ & H). inversion H. cbn [m_v].
    unfold mem_inner in H1. repeat (apply bind_ok in H1; destruct H1 as (? & _ & H1)). unfold eval_f in H1. cbn [m_v m_y] in H1. unfold memorize in H1.
    repeat (apply bind_ok in H1; destruct H1 as (? & _ & H1)). inversion H1. reflexivity.
  Qed.

  (** the consensus of one run depends on its row only *)
  Lemma cc_row : forall (c : cfg) (s : st) y cpt m er yr a, wf c s -> rect (s_M s) (s_N s) y ->
    cc_call c (s_energy s) y (s_alpha s) = Ok cpt -> nth_error (s_energy s) m = Some er -> nth_error y m = Some yr ->
    nth_error (s_alpha s) m = Some [a] -> nth_error cpt m = Some (c_ccrow c er yr a).
  Proof.
    intros c s y cpt m er yr a W Ry H He Hy Ha.
    destruct (cc_call_rows c (s_energy s) y (s_alpha s)) as (cp & F1 & F2 & F3).
    - rewrite (proj1 (w_e _ _ W)), (proj1 Ry). auto.
    - rewrite (proj1 (w_al _ _ W)), (proj1 Ry). auto.
    - intros j e1 x1 E1 E2. rewrite (proj2 (w_e _ _ W) _ _ E1), (proj2 Ry _ _ E2). auto.
    - intros j ar E1. apply (proj2 (w_al _ _ W) _ _ E1).
    - rewrite H in F1. injection F1 as <-. eauto.
  Qed.

  Lemma rect_row : forall A M N (X : arr A) m, rect M N X -> m < M -> exists r, nth_error X m = Some r /\ length r = N.
  Proof.
    intros A M N X m R Hm. destruct (nth_error_lt_Some _ X m) as [r Er]. { rewrite (proj1 R); auto. }
    exists r. split; auto. apply (proj2 R _ _ Er).
  Qed.

  (** the evaluated points and velocities of one step, run by run *)
  Lemma mem_points : forall k (c : cfg) p (o : orc) z2 ms log ms', c_corr c = NoCorr -> one_consensus_point c ->
    mem_exec k c ms log -> perms_valid o (m_s ms) -> s_active (m_s ms) <> [] -> c_bsize c = s_N (m_s ms) -> mem_step k c p o z2 ms = Ok ms' ->
    forall m er yr a g, nth_error (s_energy (m_s ms)) m = Some er -> nth_error (m_y ms) m = Some yr -> nth_error (s_alpha (m_s ms)) m = Some [a] ->
      c_ccrow c er yr a = [g] ->
      forall n x y v, cell (s_x (m_s ms)) m n = Some x -> cell (m_y ms) m n = Some y -> cell (m_v ms) m n = Some v ->
        cell (m_ev ms') m n = Some (match k with CBOMem => mem_point c p (m_s ms) g x y (o_z o m n) (z2 m n)
                                               | Pso => pso_point c p (m_s ms) g x y v (o_z o m n) (z2 m n) end) /\
        cell (m_v ms') m n = Some (match k with CBOMem => v | Pso => pso_vel c p (m_s ms) g x y v (o_z o m n) (z2 m n) end).
  Proof.
    intros k c p o z2 ms log ms' NC OC HE P Hne Hb H m er yr a g He Hy Ha Hg n x y v Cx Cy Cv.
    destruct (mem_exec_wf _ _ _ _ HE) as [W Ry Rv]. destruct k.
    - destruct (mem_move c p o z2 ms log ms' NC OC HE P Hne Hb H) as (cpt & _ & E2 & E3).
      pose proof (cc_row _ _ _ _ _ _ _ _ W Ry E2 He Hy Ha) as Er. rewrite Hg in Er.
      assert (Cg : cell cpt m 0 = Some g) by (unfold cell; rewrite Er; reflexivity).
      split. { exact (E3 m n x y g Cx Cy Cg). } rewrite (mem_v_same _ _ _ _ _ _ H). auto.
    - destruct (pso_move c p o z2 ms log ms' NC OC HE P Hne H) as (cpt & _ & _ & E2 & E3). specialize (E2 Hb).
      pose proof (cc_row _ _ _ _ _ _ _ _ W Ry E2 He Hy Ha) as Er. rewrite Hg in Er.
      assert (Cg : cell cpt m 0 = Some g) by (unfold cell; rewrite Er; reflexivity).
      destruct (E3 m n x y v g Cx Cy Cv Cg) as (_ & Q2 & Q3). auto.
  Qed.

  Lemma terms_eq : forall (c : cfg) p (s t : st) g x y v z z2, s_sigma t = s_sigma s /\ s_lamda t = s_lamda s /\ s_dt t = s_dt s ->
    mem_point c p t g x y z z2 = mem_point c p s g x y z z2 /\ pso_point c p t g x y v z z2 = pso_point c p s g x y v z z2 /\
    pso_vel c p t g x y v z z2 = pso_vel c p s g x y v z z2.
  Proof. intros c p s t g x y v z z2 (A1 & A2 & A3). unfold mem_point, mem_half, pso_point, pso_vel. rewrite A1, A2, A3. auto. Qed.

  Lemma mem_step_twins : forall k (c : cfg) p (o o' : orc) z2 z2' ms log mt logt m ms1 mt1, c_corr c = NoCorr -> one_consensus_point c ->
    mem_exec k c ms log -> mem_exec k c mt logt -> perms_valid o (m_s ms) -> perms_valid o' (m_s mt) ->
    s_active (m_s ms) <> [] -> s_active (m_s mt) <> [] -> c_bsize c = s_N (m_s ms) -> mtwins ms m mt -> same_draws m m o o' -> (forall n, z2' 0 n = z2 m n) ->
    mem_step k c p o z2 ms = Ok ms1 -> mem_step k c p o' z2' mt = Ok mt1 ->
    mtwins ms1 m mt1.
  Proof.
    intros k c p o o' z2 z2' ms log mt logt m ms1 mt1 NC OC HE HEt P P' Hne Hnet Hb T D D2 H1 H2.
    pose proof (mem_exec_wf _ _ _ _ HE) as MW. pose proof (mem_exec_wf _ _ _ _ HEt) as MWt.
    destruct (mem_step_ok _ _ _ _ _ _ _ MW (perms_valid_ok _ _ P) Hne H1) as (_ & _ & MW1 & A4 & A5 & A6 & _ & A8 & A9 & A10 & A11 & A12).
    destruct (mem_step_ok _ _ _ _ _ _ _ MWt (perms_valid_ok _ _ P') Hnet H2) as (_ & _ & MWt1 & B4 & B5 & B6 & _ & B8 & B9 & B10 & B11 & B12).
    destruct (mem_step_par _ _ _ _ _ _ _ MW (perms_valid_ok _ _ P) Hne H1) as (U1 & U2 & U3 & U4).
    destruct (mem_step_par _ _ _ _ _ _ _ MWt (perms_valid_ok _ _ P') Hnet H2) as (V1 & V2 & V3 & V4).
    destruct MW as [W Ry Rv], MWt as [Wt Ryt Rvt]. destruct T as [T1 T2 T3 T4 T5 T6 T7 T8 T9 T10 T11].
    destruct (rect_row _ _ _ _ m (w_x _ _ W) T3) as (xr & Ex & Lx). destruct (rect_row _ _ _ _ m Ry T3) as (yr & Ey & Ly).
    destruct (rect_row _ _ _ _ m Rv T3) as (vr & Ev & Lv). destruct (rect_row _ _ _ _ m (w_e _ _ W) T3) as (er & Ee & Le).
    destruct (rect_row _ _ _ _ m (w_al _ _ W) T3) as (ar & Ea & La). destruct ar as [|a [|]]; try discriminate.
    pose proof (OC er yr a) as L1. destruct (c_ccrow c er yr a) as [|g [|]] eqn:Eg; try discriminate.
    assert (Hb' : c_bsize c = s_N (m_s mt)) by congruence.
    pose proof (mem_points k c p o z2 ms log ms1 NC OC HE P Hne Hb H1 m er yr a g Ee Ey Ea Eg) as MP.
    pose proof (mem_points k c p o' z2' mt logt mt1 NC OC HEt P' Hnet Hb' H2 0 er yr a g ltac:(congruence) ltac:(congruence) ltac:(congruence) Eg) as MPt.
    assert (HC : forall n, n < s_N (m_s ms) -> cell (m_ev mt1) 0 n = cell (m_ev ms1) m n /\ cell (m_v mt1) 0 n = cell (m_v ms1) m n).
    { intros n Hn. destruct (nth_error_lt_Some _ xr n ltac:(lia)) as [x Hx]. destruct (nth_error_lt_Some _ yr n ltac:(lia)) as [y Hy].
      destruct (nth_error_lt_Some _ vr n ltac:(lia)) as [v Hv].
      destruct (MP n x y v) as [P1 P2]; try (unfold cell; rewrite ?Ex, ?Ey, ?Ev; auto).
      destruct (MPt n x y v) as [Q1 Q2]; try (unfold cell; rewrite ?T4, ?T5, ?T6, ?Ex, ?Ey, ?Ev; auto).
      rewrite D2, (proj2 D) in Q1, Q2. destruct (terms_eq c p (m_s ms) (m_s mt) g x y v (o_z o m n) (z2 m n) T11) as (W1 & W2 & W3).
      rewrite W1, W2 in Q1. rewrite W3 in Q2. unfold cell in *. split; congruence. }
    assert (Eev : nth_error (m_ev mt1) 0 = nth_error (m_ev ms1) m).
    { rewrite T2 in B8. apply (rows_eq _ _ _ _ _ _ _ _ A8 B8); try lia. intros n Hn. apply HC; auto. }
    assert (Evv : nth_error (m_v mt1) 0 = nth_error (m_v ms1) m).
    { pose proof (mw_v _ _ MW1) as R1. pose proof (mw_v _ _ MWt1) as R2. rewrite A4, A5 in R1. rewrite B4, B5, T2 in R2.
      apply (rows_eq _ _ _ _ _ _ _ _ R1 R2); try lia. intros n Hn. apply HC; auto. }
    assert (Exx : nth_error (s_x (m_s mt1)) 0 = nth_error (s_x (m_s ms1)) m) by (rewrite A11, B11, !nth_error_map, Eev; reflexivity).
    assert (Een : nth_error (s_energy (m_s mt1)) 0 = nth_error (s_energy (m_s ms1)) m).
    { rewrite A9, B9, !map2_nth, !nth_error_map, Eev, T7. reflexivity. }
    pose proof (mw_s _ _ MW1) as W1. 
    destruct (rect_row _ _ _ _ m (w_e _ _ W1) ltac:(lia)) as (e1 & Ee1 & _).
    destruct (nth_error_lt_Some _ (s_be (m_s ms)) m) as [b Hbe]. { rewrite (w_be _ _ W); auto. }
    destruct (nth_error_lt_Some _ (s_bp (m_s ms)) m) as [q Hbp]. { rewrite (w_bp _ _ W); auto. }
    destruct (rect_row _ _ _ _ m (w_x _ _ W1) ltac:(lia)) as (x1 & Ex1 & _).
    destruct (A12 m e1 b q (match k with CBOMem => x1 | Pso => xr end) Ee1 Hbe Hbp ltac:(destruct k; auto)) as (j & v0 & xj & J1 & J2 & J3 & J4).
    destruct (B12 0 e1 b q (match k with CBOMem => x1 | Pso => xr end) ltac:(congruence) ltac:(congruence) ltac:(congruence) ltac:(destruct k; congruence)) as (j' & v0' & xj' & K1 & K2 & K3 & K4).
    rewrite J1 in K1. injection K1 as <- <-. rewrite J2 in K2. injection K2 as <-.
    destruct T11 as (X1 & X2 & X3).
    constructor; try congruence; try lia.
    - rewrite A10, B10, !map2_nth, !nth_error_map, Eev, T5, T7. reflexivity.
    - repeat split; congruence.
  Qed.

  Theorem mem_indep : forall k (c : cfg) m l l' ms log mt logt ms1 mt1, c_corr c = NoCorr -> one_consensus_point c ->
    mem_exec k c ms log -> mem_exec k c mt logt -> c_bsize c = s_N (m_s ms) ->
    s_active (m_s ms) <> [] -> s_active (m_s mt) <> [] -> mtwins ms m mt ->
    Forall2 (same_mem_draws m) l l' -> Forall (fun a => perms_valid (snd (fst a)) (m_s ms)) l ->
    msteps k c l ms = Ok ms1 -> msteps k c l' mt = Ok mt1 ->
    mtwins ms1 m mt1.
  Proof.
    intros k c m l l' ms log mt logt ms1 mt1 NC OC HE HEt Hb Hne Hnet T D. revert ms log mt logt HE HEt Hb Hne Hnet T.
    induction D as [|[[p o] z2] [[p' o'] z2'] l l' HD D IH]; intros ms log mt logt HE HEt Hb Hne Hnet T P H1 H2.
    - cbn in H1, H2. injection H1 as <-. injection H2 as <-. auto.
    - cbn [msteps fst snd] in H1, H2. apply bind_ok in H1. destruct H1 as (ms2 & H1 & H1'). apply bind_ok in H2. destruct H2 as (mt2 & H2 & H2').
      inversion P as [|? ? P1 P2]; subst. cbn [fst snd] in P1. destruct HD as (Dp & Do & Dz). cbn [fst snd] in Dp, Do, Dz. subst p'.
      assert (P' : perms_valid o' (m_s mt)).
      { intros j Hj. rewrite (mt_M _ _ _ T) in Hj. assert (j = 0) by lia. subst j. rewrite (proj1 Do), (mt_N _ _ _ T). apply P1. apply T. }
      pose proof (mem_step_twins k c p o o' z2 z2' ms log mt logt m ms2 mt2 NC OC HE HEt P1 P' Hne Hnet Hb T Do Dz H1 H2) as T2.
      destruct (mem_step_ok _ _ _ _ _ _ _ (mem_exec_wf _ _ _ _ HE) (perms_valid_ok _ _ P1) Hne H1) as (_ & _ & _ & A4 & A5 & A6 & _).
      destruct (mem_step_ok _ _ _ _ _ _ _ (mem_exec_wf _ _ _ _ HEt) (perms_valid_ok _ _ P') Hnet H2) as (_ & _ & _ & B4 & B5 & B6 & _).
      assert (N1 : s_active (m_s ms2) <> []) by (rewrite A6; exact Hne). assert (N2 : s_active (m_s mt2) <> []) by (rewrite B6; exact Hnet).
      assert (Hb2 : c_bsize c = s_N (m_s ms2)) by (rewrite A5; exact Hb).
      assert (P3 : Forall (fun a => perms_valid (snd (fst a)) (m_s ms2)) l).
      { revert P2. apply Forall_impl. intros a Pa j Hj. rewrite A5. apply Pa. lia. }
      exact (IH ms2 _ mt2 _ (mx_step _ _ _ _ _ _ _ _ HE P1 Hne H1) (mx_step _ _ _ _ _ _ _ _ HEt P' Hnet H2) Hb2 N1 N2 T2 P3 H1' H2').
  Qed.

  Theorem mem_init_twins : forall (c : cfg) x0 row m chk al sg la dt perm0 perm1 names extra save ms mt,
    is_array (length x0) (shape1 x0) x0 -> nth_error x0 m = Some row -> perm1 0 = perm0 m ->
    mem_init c x0 chk al sg la dt perm0 names extra save = Ok ms ->
    mem_init c [row] chk al sg la dt perm1 names extra save = Ok mt ->
    mtwins ms m mt /\ s_active (m_s mt) = [0] /\ length (s_active (m_s ms)) = s_M (m_s ms).
  Proof.
    intros c x0 row m chk al sg la dt perm0 perm1 names extra save ms mt H1 H2 H3 Hs Ht. unfold mem_init in Hs, Ht.
    apply bind_ok in Hs. destruct Hs as (s & Es & Hs). apply bind_ok in Ht. destruct Ht as (t & Et & Ht).
    destruct (init_twins _ _ _ _ _ _ _ _ _ _ _ _ _ _ _ _ H1 H2 H3 Es Et) as ([] & Ha & Hall & _).
    injection Hs as <-. injection Ht as <-. split; [|split; sst; auto].
    constructor; cbn [m_s m_y m_v m_ev]; sst; auto; rewrite !nth_error_map, tw_x; reflexivity.
  Qed.
End MemIndep.
