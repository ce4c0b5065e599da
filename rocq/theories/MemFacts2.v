(** * CBOMemory and PSO: one step *)
From Coq Require Import String List Arith Bool Lia Permutation.
From Verif Require Import Scalar ScalarFacts Np NpFacts State Pdyn PdynFacts PdynStep PdynRun Exec PdynOk RunFacts BestFacts BcFacts HeaviFacts Memory MemSpec MemFacts.
Import ListNotations.
Open Scope nat_scope.
Open Scope list_scope.

Section Step.
  Context {K V : Type} {O : KOps K}.
  Notation F := (fl K).
  Notation st := (st K V).
  Notation cfg := (cfg K V).
  Notation orc := (orc V).
  Notation mst := (mst K V).
  Notation mpar := (mpar K).

  Record mwf (c : cfg) (ms : mst) : Prop := {
    mw_s : wf c (m_s ms);
    mw_y : rect (s_M (m_s ms)) (s_N (m_s ms)) (m_y ms);
    mw_v : rect (s_M (m_s ms)) (s_N (m_s ms)) (m_v ms) }.

  (** number of particles a step moves *)
  Definition nmoved (c : cfg) (N : nat) : nat :=
    if c_bsize c =? N then N else if c_partial c then c_bsize c else N.

  (** the state an inner step starts from *)
  Record ready (c : cfg) (s : st) : Prop := {
    rd_N : 0 < s_N s;
    rd_x : rect (s_M s) (s_N s) (s_x s);
    rd_e : rect (s_M s) (s_N s) (s_energy s);
    rd_al : rect (s_M s) 1 (s_alpha s);
    rd_act : incr (s_active s);
    rd_lt : forall m, In m (s_active s) -> m < s_M s;
    rd_ne : s_active s <> [];
    rd_c : gidx (s_active s) (s_M s) (s_N s) (s_cidx s);
    rd_p : gidx (s_active s) (s_M s) (s_N s) (s_pidx s);
    rd_cs : selects (s_active s) (s_N s) (c_bsize c) (s_cidx s);
    rd_ps : selects (s_active s) (s_N s) (nmoved c (s_N s)) (s_pidx s);
    rd_b : 1 <= c_bsize c <= s_N s;
    rd_full : nmoved c (s_N s) = s_N s -> s_pidx s = IAll \/ s_pidx s = IRuns (s_active s) }.

  Lemma pre_pidx : forall (c : cfg) (o : orc) s s1, pre_step c o s = Ok s1 -> nmoved c (s_N s) = s_N s ->
    s_pidx s1 = IAll \/ s_pidx s1 = IRuns (s_active s).
  Proof.
    intros c o s s1 H Hn. unfold pre_step, set_batch_idx in H. ssti H. unfold nmoved in Hn.
    destruct (Nat.eqb_spec (c_bsize c) (s_N s)) as [Eb|Eb].
    - inversion H; subst s1. unfold set_batch_idx_unbatched. sst.
      destruct (length (s_active s) =? s_M s); auto.
    - unfold set_batch_idx_batched in H. ssti H. apply bind_ok in H. destruct H as (bs & _ & H).
      inversion H; subst s1. sst. destruct (c_partial c); [congruence|auto].
  Qed.

  Lemma active_le : forall (c : cfg) s, ready c s -> 1 <= length (s_active s) <= s_M s.
  Proof.
    intros c s R. split. { pose proof (rd_ne _ _ R). destruct (s_active s); cbn; [congruence|lia]. }
    rewrite <- (seq_length (s_M s) 0). apply NoDup_incl_length. apply incr_NoDup, R.
    intros m Hm. apply in_seq. pose proof (rd_lt _ _ R _ Hm). lia.
  Qed.
  Lemma nmoved_le : forall (c : cfg) s, ready c s -> 1 <= nmoved c (s_N s) <= s_N s.
  Proof.
    intros c s R. pose proof (rd_b _ _ R). unfold nmoved. destruct (_ =? _); [lia|]. destruct (c_partial c); lia.
  Qed.

  Lemma pre_ready : forall (c : cfg) (o : orc) s, wf c s -> perm_ok o s -> s_active s <> [] ->
    exists ci pi ind, pre_step c o s = Ok (set_pidx pi (set_cidx ci (set_ind ind (set_xold (Some (s_x s)) s)))) /\
      ready c (set_pidx pi (set_cidx ci (set_ind ind (set_xold (Some (s_x s)) s)))) /\
      (c_bsize c <> s_N s -> length ind = s_M s /\
         (forall k row, nth_error ind k = Some row -> length row = shape1 ind) /\
         (forall k row j, nth_error ind k = Some row -> In j row -> j < s_N s)).
  Proof.
    intros c o s W P Hne. destruct (pre_step_char c o s W P) as (ci & pi & ind & Epre & Gc & Gp & Hsel & Hind1 & Hin).
    exists ci, pi, ind. split; auto. split.
    - assert (Hact : forall k, k < length (s_active s) -> exists m, nth_error (s_active s) k = Some m /\ m < s_M s).
      { intros k Hk. destruct (nth_error_lt_Some _ _ _ Hk) as [m Hm]. exists m. split; auto.
        apply W. eapply nth_error_In; eauto. }
      constructor; sst; try apply W; auto.
      + intros k Hk. destruct (Hact k Hk) as (m & E & Hm). rewrite (proj1 (Hsel _ _ E)). apply run_sel_length; auto.
      + intros k Hk. destruct (Hact k Hk) as (m & E & Hm). rewrite (proj2 (Hsel _ _ E)). apply selp_len; auto.
      + intros Hn. exact (pre_pidx c o s _ Epre Hn).
    - intros Hb. destruct (Hin Hb) as [L1 L2]. split; [auto|].
      destruct (ind_rows c o s W P Hb) as [_ Hir]. cbv zeta in Hir.
      split.
      + intros k row Ek.
        assert (Hk : k < s_M s) by (rewrite <- L1; eapply nth_error_lt; eauto).
        assert (H0 : 0 < s_M s) by lia.
        rewrite (L2 k Hk) in Ek. inversion Ek; subst row.
        pose proof (L2 0 H0) as E0. destruct ind as [|i0 ind']; cbn in E0; inversion E0; subst i0.
        cbn [shape1]. rewrite !skipn_length.
        destruct (Hir k Hk) as (_ & Lk & _). destruct (Hir 0 H0) as (_ & L0 & _). rewrite Lk, L0. auto.
      + intros k row j Ek Hj.
        assert (Hk : k < s_M s) by (rewrite <- L1; eapply nth_error_lt; eauto).
        rewrite (L2 k Hk) in Ek. inversion Ek; subst row.
        destruct (Hir k Hk) as (_ & _ & Lt). apply Lt.
        rewrite <- (firstn_skipn (c_bsize c)). apply in_or_app; auto.
  Qed.

  (** ** the memory update succeeds only if all particles of all runs were moved *)
  Lemma memorize_inv : forall (c : cfg) ip (s : st) y v xe en ms', ready c s -> rect (s_M s) (s_N s) y ->
    rect (length (s_active s)) (nmoved c (s_N s)) xe -> rect (length (s_active s)) (nmoved c (s_N s)) en ->
    memorize c ip s y v xe en = Ok ms' -> length (s_active s) = s_M s /\ nmoved c (s_N s) = s_N s.
  Proof.
    intros c ip s y v xe en ms' R Ry Rx Rn H. pose proof (active_le _ _ R) as HA. pose proof (nmoved_le _ _ R) as Hn.
    set (A := length (s_active s)) in *. set (n := nmoved c (s_N s)) in *.
    set (M := s_M s) in *. set (N := s_N s) in *.
    unfold memorize in H.
    apply bind_ok in H. destruct H as (mask & E1 & H).
    destruct (gather_rect _ _ _ _ _ _ _ (rd_p _ _ R) (rd_lt _ _ R) Ry (rd_ps _ _ R)) as (yq & E2 & Ryq). rewrite E2 in H. cbn [bind] in H.
    apply bind_ok in H. destruct H as (diff & E3 & H).
    apply bind_ok in H. destruct H as (g & E4 & H).
    apply bind_ok in H. destruct H as (yq' & E5 & H).
    apply bind_ok in H. destruct H as (y' & E6 & H).
    destruct (bc2_ok_inv _ _ _ _ _ _ _ _ _ _ _ (rd_e _ _ R) Rn (ltac:(fold M; lia)) (ltac:(lia)) E1) as (C1 & C2 & Rm).
    fold M N in C1, C2, Rm.
    assert (bdim M A = M) as Eb1. { unfold bdim. destruct (Nat.eqb_spec M 1); lia. }
    assert (bdim N n = N) as Eb2. { unfold bdim. destruct (Nat.eqb_spec N 1); lia. }
    rewrite Eb1, Eb2 in Rm.
    destruct (bc2_ok_inv _ _ _ _ _ _ _ _ _ _ _ Rx Ryq (ltac:(lia)) (ltac:(unfold A in HA; lia)) E3) as (_ & _ & Rd).
    fold A N n in Rd.
    assert (bdim A A = A) as Eb3. { unfold bdim. destruct (Nat.eqb_spec A 1); lia. }
    assert (bdim n n = n) as Eb4. { unfold bdim. destruct (Nat.eqb_spec n 1); lia. }
    rewrite Eb3, Eb4 in Rd.
    destruct (bc2_ok_inv _ _ _ _ _ _ _ _ _ _ _ Rm Rd (ltac:(lia)) (ltac:(lia)) E4) as (_ & _ & Rg).
    rewrite Eb1, Eb2 in Rg.
    destruct ip.
    - destruct (iop2_ok_inv _ _ _ _ _ _ _ _ _ _ Ryq Rg (ltac:(unfold A in HA; lia)) E5) as [D1 D2]. fold A N n in D1, D2.
      assert (A = M) by lia. split; auto. assert (M = A) as D3 by auto. destruct (D2 D3); lia.
    - destruct (bc2_ok_inv _ _ _ _ _ _ _ _ _ _ _ Ryq Rg (ltac:(unfold A in HA; lia)) (ltac:(lia)) E5) as (D1 & D2 & Rq).
      fold A N n in D1, D2, Rq.
      assert (bdim A M = M) as Eb5. { unfold bdim, compat in *. destruct (Nat.eqb_spec A 1); lia. }
      assert (bdim n N = N) as Eb6. { unfold bdim, compat in *. destruct (Nat.eqb_spec n 1); lia. }
      rewrite Eb5, Eb6 in Rq.
      assert (AM : A = M).
      { destruct (scatter_ok_rows _ _ _ _ _ _ _ _ (rd_p _ _ R) Ry E6) as [Q|Q]; rewrite (proj1 Rq) in Q; fold A in Q; lia. }
      split; auto. rewrite <- AM in Rq.
      destruct (scatter_ok_cells _ _ _ _ _ _ _ _ _ _ (rd_p _ _ R) (incr_NoDup _ (rd_act _ _ R)) (rd_lt _ _ R) Ry (rd_ne _ _ R) (rd_ps _ _ R) Rq E6) as [Q|Q];
        fold N n in Q; lia.
  Qed.

  (** ** full index objects *)
  Lemma full_idx : forall (c : cfg) s, ready c s -> length (s_active s) = s_M s -> nmoved c (s_N s) = s_N s ->
    s_active s = seq 0 (s_M s) /\
    forall A (X : arr A), rect (s_M s) (s_N s) X -> gather (s_pidx s) X = Ok X /\
      forall Y, rect (s_M s) (s_N s) Y -> scatter (s_pidx s) X Y = Ok Y.
  Proof.
    intros c s R HA Hn. assert (Ea : s_active s = seq 0 (s_M s)). { apply incr_full; auto; apply R. }
    split; auto. intros A X RX.
    pose proof (rd_p _ _ R) as G. pose proof (rd_lt _ _ R) as L.
    pose proof (incr_NoDup _ (rd_act _ _ R)) as D.
    destruct (rd_full _ _ R Hn) as [Ep|Ep]; rewrite Ep in *; rewrite Ea in *.
    - split; auto. intros Y RY. cbn [scatter]. rewrite iop2_same.
      + f_equal. apply nth_error_ext. intros m. rewrite map2_nth.
        destruct (nth_error X m) eqn:E1; destruct (nth_error Y m) eqn:E2; auto.
        * f_equal. apply nth_error_ext. intros j. rewrite map2_nth.
          destruct (nth_error l j) eqn:E3; destruct (nth_error l0 j) eqn:E4; auto.
          apply nth_error_None in E3. apply nth_error_lt in E4.
          rewrite (proj2 RX _ _ E1) in E3. rewrite (proj2 RY _ _ E2) in E4. lia.
        * apply nth_error_None in E1. apply nth_error_lt in E2. rewrite (proj1 RX) in E1. rewrite (proj1 RY) in E2. lia.
      + rewrite (proj1 RX), (proj1 RY). auto.
      + intros k x y E1 E2. rewrite (proj2 RX _ _ E1), (proj2 RY _ _ E2). auto.
    - split.
      { cbn [gather]. rewrite <- (proj1 RX). apply takeM_all. }
      intros Y RY.
      destruct (scatter_rows _ _ _ _ (IRuns (seq 0 (s_M s))) X Y G D L RX) as (X' & E & RX' & H1 & _).
      { rewrite (proj1 RY), seq_length; auto. }
      { intros k yr Hk. rewrite (proj2 RY _ _ Hk). cbn. rewrite seq_length. auto. }
      rewrite E. f_equal. apply nth_error_ext. intros m.
      destruct (nth_error X m) as [xr|] eqn:E1.
      + assert (Hm : m < s_M s) by (rewrite <- (proj1 RX); eapply nth_error_lt; eauto).
        assert (HmY : m < length Y) by (rewrite (proj1 RY); auto).
        destruct (nth_error_lt_Some _ _ _ HmY) as [yr E2].
        destruct (H1 m m xr yr) as (row' & A1 & A2); auto.
        { rewrite nth_error_seq. destruct (Nat.ltb_spec m (s_M s)); auto; lia. }
        cbn [sel] in A2. rewrite sel_seq in A2; [|eapply (proj2 RX); eauto|eapply (proj2 RY); eauto].
        inversion A2; subst. rewrite A1, E2. auto.
      + apply nth_error_None in E1. rewrite (proj1 RX) in E1.
        transitivity (@None (list A)). { apply nth_error_None. rewrite (proj1 RX'). auto. }
        symmetry. apply nth_error_None. rewrite (proj1 RY). auto.
  Qed.

  Lemma bc2_same : forall A B C (f : A -> B -> C) M N X Y, rect M N X -> rect M N Y ->
    bc2 f X Y = Ok (map2 (map2 f) X Y).
  Proof.
    intros A B C f M N X Y RX RY. rewrite bc2_rows.
    - f_equal. apply nth_error_ext. intros m. rewrite !map2_nth.
      destruct (nth_error X m) eqn:E1; destruct (nth_error Y m) eqn:E2; auto. f_equal.
      assert (L : length l = length l0) by (rewrite (proj2 RX _ _ E1), (proj2 RY _ _ E2); auto).
      destruct l0 as [|b [|]]; auto. destruct l as [|a [|]]; try discriminate. reflexivity.
    - rewrite (proj1 RX), (proj1 RY). auto.
    - intros k x y E1 E2. right. rewrite (proj2 RX _ _ E1), (proj2 RY _ _ E2). auto.
  Qed.
  Lemma rect_map2 : forall A B C (f : A -> B -> C) M N X Y, rect M N X -> rect M N Y -> rect M N (map2 (map2 f) X Y).
  Proof.
    intros A B C f M N X Y RX RY. split. { rewrite map2_length, (proj1 RX), (proj1 RY). lia. }
    intros k row Hk. rewrite map2_nth in Hk.
    destruct (nth_error X k) eqn:E1; destruct (nth_error Y k) eqn:E2; inversion Hk.
    rewrite map2_length, (proj2 RX _ _ E1), (proj2 RY _ _ E2). lia.
  Qed.

  (** ** the memory update when all particles were moved *)
  Lemma memorize_full : forall (c : cfg) ip (s : st) y v xe en, ready c s -> length (s_active s) = s_M s ->
    nmoved c (s_N s) = s_N s -> rect (s_M s) (s_N s) y -> rect (s_M s) (s_N s) xe -> rect (s_M s) (s_N s) en ->
    memorize c ip s y v xe en = Ok (mkmst
      (set_energy (map2 (map2 fmin) (s_energy s) en) s)
      (map2 (map2 (c_vadd c)) y
         (map2 (map2 (vmask c)) (map2 (map2 (fun e e' => fltb e' e)) (s_energy s) en)
            (map2 (map2 (c_vsub c)) xe y))) v xe).
  Proof.
    intros c ip s y v xe en R HA Hn Ry Rx Rn. destruct (full_idx _ _ R HA Hn) as [Ea Hfull].
    unfold memorize. pose proof (rd_e _ _ R) as Re.
    rewrite (bc2_same _ _ _ _ _ _ _ _ Re Rn). cbn [bind].
    destruct (Hfull _ y Ry) as [Eg Hs]. rewrite Eg. cbn [bind].
    rewrite (bc2_same _ _ _ _ _ _ _ _ Rx Ry). cbn [bind].
    pose proof (rect_map2 _ _ _ (fun e e' => fltb e' e) _ _ _ _ Re Rn) as Rm.
    pose proof (rect_map2 _ _ _ (c_vsub c) _ _ _ _ Rx Ry) as Rd.
    rewrite (bc2_same _ _ _ _ _ _ _ _ Rm Rd). cbn [bind].
    pose proof (rect_map2 _ _ _ (vmask c) _ _ _ _ Rm Rd) as Rg.
    pose proof (rect_map2 _ _ _ (c_vadd c) _ _ _ _ Ry Rg) as Rq.
    destruct ip.
    - rewrite iop2_same.
      + cbn [bind]. rewrite (Hs _ Rq). cbn [bind]. rewrite (bc2_same _ _ _ _ _ _ _ _ Re Rn). reflexivity.
      + rewrite (proj1 Ry), (proj1 Rg). auto.
      + intros k a b E1 E2. rewrite (proj2 Ry _ _ E1), (proj2 Rg _ _ E2). auto.
    - rewrite (bc2_same _ _ _ _ _ _ _ _ Ry Rg). cbn [bind]. rewrite (Hs _ Rq). cbn [bind].
      rewrite (bc2_same _ _ _ _ _ _ _ _ Re Rn). reflexivity.
  Qed.

  (** ** the moves change only x, consensus, drift and counters *)
  Definition moved (s s' : st) : Prop :=
    exists x co d fc nf, s' = set_fcalls fc (set_nfe nf (set_x x (set_drift (Some d) (set_cons co s)))) /\
      rect (s_M s) (s_N s) x /\ length nf = length (s_nfe s).

  Lemma moved_ready : forall (c : cfg) s s', ready c s -> moved s s' -> ready c s'.
  Proof.
    intros c s s' R (x & co & d & fc & nf & -> & Rx & _). destruct R. constructor; sst; auto.
  Qed.

  Lemma mem_cbo_step_moved : forall (c : cfg) (o : orc) s y s', ready c s -> mem_cbo_step c o s y = Ok s' -> moved s s'.
  Proof.
    intros c o s y s' R H. unfold mem_cbo_step in H.
    apply bind_ok in H. destruct H as (cpt & _ & H). cbv zeta in H.
    apply bind_ok in H. destruct H as (xp & _ & H).
    apply bind_ok in H. destruct H as (d0 & _ & H).
    apply bind_ok in H. destruct H as ([d s2] & Hc & H).
    apply correction_ok in Hc. destruct Hc as (fc & nf & -> & Lnf). ssti Lnf.
    apply bind_ok in H. destruct H as (xp' & _ & H). ssti H.
    apply bind_ok in H. destruct H as (x' & Hx & H). inversion H as [H1]. clear H.
    exists x', (Some cpt), d, fc, nf. split; [reflexivity|]. split; auto.
    eapply scatter_shape; [exact Hx|apply R].
  Qed.

  Lemma memory_step_moved : forall (c : cfg) p z2 s y s', ready c s -> memory_step c p z2 s y = Ok s' -> moved s s'.
  Proof.
    intros c p z2 s y s' R H. unfold memory_step in H.
    apply bind_ok in H. destruct H as (xq & _ & H).
    apply bind_ok in H. destruct H as (yq & _ & H).
    apply bind_ok in H. destruct H as (d & _ & H).
    apply bind_ok in H. destruct H as (xq' & _ & H). 
    apply bind_ok in H. destruct H as (x' & Hx & H). inversion H as [H1]. clear H.
    exists x', (s_cons s), d, (s_fcalls s), (s_nfe s). split; [destruct s; reflexivity|]. split; auto.
    eapply scatter_shape; [exact Hx|apply R].
  Qed.

  Lemma moved_trans : forall s s' s'', moved s s' -> moved s' s'' -> moved s s''.
  Proof.
    intros s s' s'' (x & co & d & fc & nf & -> & Rx & L) (x2 & co2 & d2 & fc2 & nf2 & -> & Rx2 & L2). sstall.
    exists x2, co2, d2, fc2, nf2. split; [destruct s; reflexivity|]. split; auto. congruence.
  Qed.

  Lemma moved_frame : forall s s' : st, moved s s' -> s_pidx s' = s_pidx s /\ s_active s' = s_active s /\ s_M s' = s_M s /\
    s_N s' = s_N s /\ s_energy s' = s_energy s.
  Proof. intros s s' (x & co & d & fc & nf & -> & _ & _). auto. Qed.

  Lemma add_at_length : forall act k l, length (add_at act k l) = length l.
  Proof. intros. apply mapi_length. Qed.

  Lemma moved_count : forall (s s2 : st) fc nf, moved s s2 -> length nf = length (s_nfe s2) ->
    moved s (set_fcalls fc (set_nfe nf s2)).
  Proof.
    intros s s2 fc nf (x & co & d & fc0 & nf0 & -> & Rx & L) Ln. exists x, co, d, fc, nf.
    split; [reflexivity|]. split; auto. rewrite Ln. exact L.
  Qed.

  (** a successful inner step *)
  Theorem mem_inner_ok : forall (c : cfg) p (o : orc) z2 ms ms', ready c (m_s ms) ->
    rect (s_M (m_s ms)) (s_N (m_s ms)) (m_y ms) -> mem_inner c p o z2 ms = Ok ms' ->
    length (s_active (m_s ms)) = s_M (m_s ms) /\ nmoved c (s_N (m_s ms)) = s_N (m_s ms) /\
    exists s xe, moved (m_s ms) s /\ s_x s = xe /\ rect (s_M (m_s ms)) (s_N (m_s ms)) xe /\
      ms' = mkmst (set_energy (map2 (map2 fmin) (s_energy (m_s ms)) (map (map (c_f c)) xe)) s)
        (map2 (map2 (c_vadd c)) (m_y ms)
           (map2 (map2 (vmask c)) (map2 (map2 (fun e e' => fltb e' e)) (s_energy (m_s ms)) (map (map (c_f c)) xe))
              (map2 (map2 (c_vsub c)) xe (m_y ms)))) (m_v ms) xe.
  Proof.
    intros c p o z2 ms ms' R Ry H. unfold mem_inner in H.
    apply bind_ok in H. destruct H as (s1 & H1 & H).
    apply bind_ok in H. destruct H as (s2 & H2 & H).
    apply bind_ok in H. destruct H as (xe & H3 & H).
    pose proof (mem_cbo_step_moved _ _ _ _ _ R H1) as Mv1. pose proof (moved_ready _ _ _ R Mv1) as R1.
    pose proof (memory_step_moved _ _ _ _ _ _ R1 H2) as Mv2. pose proof (moved_ready _ _ _ R1 Mv2) as R2.
    pose proof (moved_trans _ _ _ Mv1 Mv2) as Mv. clear Mv1 Mv2 H1 H2.
    unfold eval_f in H.
    set (s3 := set_fcalls _ _) in H.
    assert (Mv3 : moved (m_s ms) s3).
    { apply moved_count; auto. apply add_at_length. }
    assert (Ex : s_x s3 = s_x s2 /\ s_pidx s3 = s_pidx s2) by (split; reflexivity). destruct Ex as [Ex Epx].
    rewrite <- Ex, <- Epx in H3. clearbody s3. clear Mv R2 R1.
    pose proof (moved_ready _ _ _ R Mv3) as R3.
    destruct (moved_frame _ _ Mv3) as (F1 & F2 & F3 & F4 & F5).
    destruct (gather_rect _ _ _ _ _ _ _ (rd_p _ _ R3) (rd_lt _ _ R3) (rd_x _ _ R3) (rd_ps _ _ R3)) as (xe' & E & Rxe).
    rewrite H3 in E. inversion E; subst xe'. clear E.
    assert (Ry3 : rect (s_M s3) (s_N s3) (m_y ms)) by (rewrite F3, F4; auto).
    destruct (memorize_inv _ _ _ _ _ _ _ _ R3 Ry3 Rxe (rect_map _ _ _ _ _ _ Rxe) H) as [HA Hn].
    destruct (full_idx _ _ R3 HA Hn) as [Ea Hfull].
    destruct (Hfull _ _ (rd_x _ _ R3)) as [Eg _]. rewrite H3 in Eg. inversion Eg; subst xe. clear Eg.
    pose proof (rd_x _ _ R3) as Rx3.
    rewrite (memorize_full _ _ _ _ _ _ _ R3 HA Hn Ry3 Rx3 (rect_map _ _ _ _ _ _ Rx3)) in H.
    rewrite F2, F3 in HA. rewrite F4 in Hn. split; auto. split; auto.
    exists s3, (s_x s3). split; auto. split; auto. split. { rewrite <- F3, <- F4; auto. }
    rewrite F5 in H. inversion H as [H']. reflexivity.
  Qed.

  Theorem pso_inner_ok : forall (c : cfg) p (o : orc) z2 ms ms', ready c (m_s ms) ->
    rect (s_M (m_s ms)) (s_N (m_s ms)) (m_y ms) -> rect (s_M (m_s ms)) (s_N (m_s ms)) (m_v ms) ->
    pso_inner c p o z2 ms = Ok ms' ->
    length (s_active (m_s ms)) = s_M (m_s ms) /\ nmoved c (s_N (m_s ms)) = s_N (m_s ms) /\
    exists s v' xe, moved (m_s ms) s /\ s_x s = xe /\ rect (s_M (m_s ms)) (s_N (m_s ms)) xe /\
      rect (s_M (m_s ms)) (s_N (m_s ms)) v' /\
      ms' = mkmst (set_energy (map2 (map2 fmin) (s_energy (m_s ms)) (map (map (c_f c)) xe)) s)
        (map2 (map2 (c_vadd c)) (m_y ms)
           (map2 (map2 (vmask c)) (map2 (map2 (fun e e' => fltb e' e)) (s_energy (m_s ms)) (map (map (c_f c)) xe))
              (map2 (map2 (c_vsub c)) xe (m_y ms)))) v' xe.
  Proof.
    intros c p o z2 ms ms' R Ry Rv H. unfold pso_inner in H.
    apply bind_ok in H. destruct H as (cpt & _ & H). cbv zeta in H.
    apply bind_ok in H. destruct H as (xp & _ & H).
    apply bind_ok in H. destruct H as (cd & _ & H).
    apply bind_ok in H. destruct H as (yp & _ & H).
    apply bind_ok in H. destruct H as (md & _ & H).
    apply bind_ok in H. destruct H as (vp & _ & H).
    apply bind_ok in H. destruct H as ([kd s2] & Hc & H).
    apply correction_ok in Hc. destruct Hc as (fc & nf & E2 & Lnf). ssti Lnf.
    apply bind_ok in H. destruct H as (a1 & _ & H).
    apply bind_ok in H. destruct H as (a2 & _ & H).
    apply bind_ok in H. destruct H as (a3 & _ & H).
    apply bind_ok in H. destruct H as (a4 & _ & H).
    apply bind_ok in H. destruct H as (v' & Hv & H).
    apply bind_ok in H. destruct H as (xq & _ & H).
    apply bind_ok in H. destruct H as (vq & _ & H).
    apply bind_ok in H. destruct H as (xq' & _ & H).
    apply bind_ok in H. destruct H as (x' & Hx & H).
    apply bind_ok in H. destruct H as (xe & H3 & H).
    assert (Rx' : rect (s_M (m_s ms)) (s_N (m_s ms)) x').
    { eapply scatter_shape; [exact Hx|]. rewrite E2. apply R. }
    assert (Rv' : rect (s_M (m_s ms)) (s_N (m_s ms)) v').
    { eapply scatter_shape; [exact Hv|exact Rv]. }
    set (s3 := set_fcalls _ _) in H.
    assert (Mv3 : moved (m_s ms) s3).
    { apply moved_count; [|apply map_length]. rewrite E2. exists x', (Some cpt), md, fc, nf.
      split; [reflexivity|]. auto. }
    assert (Ex : s_x s3 = x' /\ s_pidx s3 = s_pidx s2) by (split; reflexivity). destruct Ex as [Ex Epx].
    rewrite <- Ex, <- Epx in H3. clearbody s3. clear E2 Hv Hx Lnf.
    pose proof (moved_ready _ _ _ R Mv3) as R3.
    destruct (moved_frame _ _ Mv3) as (F1 & F2 & F3 & F4 & F5).
    destruct (gather_rect _ _ _ _ _ _ _ (rd_p _ _ R3) (rd_lt _ _ R3) (rd_x _ _ R3) (rd_ps _ _ R3)) as (xe' & E & Rxe).
    rewrite H3 in E. inversion E; subst xe'. clear E.
    assert (Ry3 : rect (s_M s3) (s_N s3) (m_y ms)) by (rewrite F3, F4; auto).
    destruct (memorize_inv _ _ _ _ _ _ _ _ R3 Ry3 Rxe (rect_map _ _ _ _ _ _ Rxe) H) as [HA Hn].
    destruct (full_idx _ _ R3 HA Hn) as [Ea Hfull].
    destruct (Hfull _ _ (rd_x _ _ R3)) as [Eg _]. rewrite H3 in Eg. inversion Eg; subst xe. clear Eg.
    pose proof (rd_x _ _ R3) as Rx3.
    rewrite (memorize_full _ _ _ _ _ _ _ R3 HA Hn Ry3 Rx3 (rect_map _ _ _ _ _ _ Rx3)) in H.
    rewrite F2, F3 in HA. rewrite F4 in Hn. split; auto. split; auto.
    exists s3, v', (s_x s3). split; auto. split; auto. split. { rewrite <- F3, <- F4; auto. } split; auto.
    rewrite F5 in H. inversion H as [H']. reflexivity.
  Qed.
End Step.
