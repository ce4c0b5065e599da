(** * CBOMemory and PSO: which steps raise *)
From Coq Require Import String List Arith Bool Lia Permutation.
From Verif Require Import Scalar ScalarFacts Np NpFacts State Pdyn PdynFacts PdynStep PdynRun Exec PdynOk RunFacts BestFacts BcFacts HeaviFacts Memory MemSpec MemFacts MemFacts2 MemFacts3.
Import ListNotations.
Open Scope nat_scope.
Open Scope list_scope.

Section Raise.
  Context {K V : Type} {O : KOps K}.
  Notation F := (fl K).
  Notation st := (st K V).
  Notation cfg := (cfg K V).
  Notation orc := (orc V).
  Notation mst := (mst K V).
  Notation mpar := (mpar K).

  Lemma os_cc_call : forall (c : cfg) e xs al, only_shape (cc_call c e xs al).
  Proof.
    intros. unfold cc_call. apply os_bind. { apply os_bpairs. } intros ea _. apply os_bind. { apply os_bpairs. } intros rows _.
    apply os_mapM. intros [[er ar] xr] _. destruct ar as [|a [|]]; try (intros ? E; inversion E; auto; fail).
    destruct (_ =? _); [apply os_ok|]. destruct xr as [|w [|]]; try (intros ? E; inversion E; auto; fail).
  Qed.

  Lemma os_correction : forall (c : cfg) cpt d s, only_shape (correction c cpt d s).
  Proof.
    intros. unfold correction. destruct (c_corr c); [apply os_ok|]. cbv zeta.
    apply os_bind. { apply os_bc2. } intros. apply os_bind. { apply os_bc2. } intros; apply os_ok.
  Qed.

  Lemma os_gather_p : forall A (c : cfg) s (X : arr A), ready c s -> rect (s_M s) (s_N s) X -> only_shape (gather (s_pidx s) X).
  Proof.
    intros A c s X R RX. destruct (gather_rect _ _ _ _ _ _ _ (rd_p _ _ R) (rd_lt _ _ R) RX (rd_ps _ _ R)) as (Y & -> & _). apply os_ok.
  Qed.
  Lemma os_gather_c : forall A (c : cfg) s (X : arr A), ready c s -> rect (s_M s) (s_N s) X -> only_shape (gather (s_cidx s) X).
  Proof.
    intros A c s X R RX. destruct (gather_rect _ _ _ _ _ _ _ (rd_c _ _ R) (rd_lt _ _ R) RX (rd_cs _ _ R)) as (Y & -> & _). apply os_ok.
  Qed.
  Lemma alpha_ok : forall (c : cfg) s, ready c s -> exists al, takeM (s_alpha s) (s_active s) = Ok al /\ rect (length (s_active s)) 1 al.
  Proof.
    intros c s R. destruct (takeM_ok _ (s_alpha s) (s_active s)) as [al E].
    { intros i Hi. rewrite (proj1 (rd_al _ _ R)). apply R; auto. }
    exists al. split; auto. split. { eapply takeM_length; eauto. }
    intros k row Hk. assert (Hka : k < length (s_active s)). { rewrite <- (takeM_length _ _ _ _ E). eapply nth_error_lt; eauto. }
    destruct (nth_error_lt_Some _ _ _ Hka) as [m Hm]. rewrite (takeM_nth _ _ _ _ _ _ E Hm) in Hk. eapply (rd_al _ _ R); eauto.
  Qed.
  Lemma os_scatter_p : forall A (c : cfg) s (X Y : arr A), ready c s -> rect (s_M s) (s_N s) X -> only_shape (scatter (s_pidx s) X Y).
  Proof. intros A c s X Y R RX. eapply os_scatter; eauto; apply R. Qed.

  Lemma os_memorize : forall (c : cfg) ip (s : st) y v xe en, ready c s -> rect (s_M s) (s_N s) y -> only_shape (memorize c ip s y v xe en).
  Proof.
    intros c ip s y v xe en R Ry. unfold memorize. apply os_bind. { apply os_bc2. } intros mask _.
    apply os_bind. { eapply os_gather_p; eauto. } intros yq _.
    apply os_bind. { apply os_bc2. } intros diff _. apply os_bind. { apply os_bc2. } intros g _.
    apply os_bind. { destruct ip; [apply os_iop2|apply os_bc2]. } intros yq' _.
    apply os_bind. { eapply os_scatter_p; eauto. } intros y' _. apply os_bind. { apply os_bc2. } intros; apply os_ok.
  Qed.

  Lemma os_mem_inner : forall (c : cfg) p (o : orc) z2 ms, ready c (m_s ms) -> rect (s_M (m_s ms)) (s_N (m_s ms)) (m_y ms) ->
    only_shape (mem_inner c p o z2 ms).
  Proof.
    intros c p o z2 ms R Ry. unfold mem_inner. apply os_bind.
    - unfold mem_cbo_step. apply os_bind.
      + unfold mem_consensus. apply os_bind. { eapply os_gather_c; eauto. } intros yb _.
        destruct (alpha_ok _ _ R) as (al & -> & _). cbn [bind]. apply os_cc_call.
      + intros cpt _. cbv zeta. sst. apply os_bind. { eapply os_gather_p; eauto. apply R. } intros xp _.
        apply os_bind. { apply os_bc2. } intros d0 _. apply os_bind. { apply os_correction. } intros [d s2] Hc.
        apply correction_ok in Hc. destruct Hc as (fc & nf & -> & _). sst.
        apply os_bind. { apply os_iop2. } intros xp' _. apply os_bind. { eapply os_scatter_p; eauto. apply R. } intros; apply os_ok.
    - intros s1 H1. pose proof (mem_cbo_step_moved _ _ _ _ _ R H1) as Mv1. pose proof (moved_ready _ _ _ R Mv1) as R1.
      destruct (moved_frame _ _ Mv1) as (F1 & F2 & F3 & F4 & F5).
      assert (Ry1 : rect (s_M s1) (s_N s1) (m_y ms)) by (rewrite F3, F4; auto).
      apply os_bind.
      + unfold memory_step. apply os_bind. { eapply os_gather_p; eauto. apply R1. } intros xq _.
        apply os_bind. { eapply os_gather_p; eauto. } intros yq _. apply os_bind. { apply os_bc2. } intros d _. cbv zeta.
        apply os_bind. { apply os_iop2. } intros xq' _. apply os_bind. { eapply os_scatter_p; eauto. apply R1. } intros; apply os_ok.
      + intros s2 H2. pose proof (memory_step_moved _ _ _ _ _ _ R1 H2) as Mv2. pose proof (moved_ready _ _ _ R1 Mv2) as R2.
        destruct (moved_frame _ _ Mv2) as (G1 & G2 & G3 & G4 & G5).
        apply os_bind. { eapply os_gather_p; eauto. apply R2. } intros xe _. unfold eval_f.
        apply os_memorize. { destruct R2. constructor; auto. } sst. rewrite G3, G4. auto.
  Qed.

  Lemma os_pso_inner : forall (c : cfg) p (o : orc) z2 ms, ready c (m_s ms) -> rect (s_M (m_s ms)) (s_N (m_s ms)) (m_y ms) ->
    rect (s_M (m_s ms)) (s_N (m_s ms)) (m_v ms) -> only_shape (pso_inner c p o z2 ms).
  Proof.
    intros c p o z2 ms R Ry Rv. unfold pso_inner. cbv zeta. apply os_bind.
    { unfold pso_consensus. apply os_bind. { eapply os_gather_c; eauto. } intros yb _.
      apply os_bind. { eapply os_gather_c; eauto. apply R. } intros eb _.
      destruct (alpha_ok _ _ R) as (al & -> & _). cbn [bind]. apply os_cc_call. }
    intros cpt _. sst. apply os_bind. { eapply os_gather_p; eauto. apply R. } intros xp _.
    apply os_bind. { apply os_bc2. } intros cd _. apply os_bind. { eapply os_gather_p; eauto. } intros yp _.
    apply os_bind. { apply os_bc2. } intros md _. apply os_bind. { eapply os_gather_p; eauto. } intros vp _.
    apply os_bind. { apply os_correction. } intros [kd s2] Hc.
    apply correction_ok in Hc. destruct Hc as (fc & nf & -> & _). sst.
    do 4 (apply os_bind; [apply os_bc2|intros ? _]).
    apply os_bind. { eapply os_scatter_p; eauto. } intros v' Hv.
    assert (Rv' : rect (s_M (m_s ms)) (s_N (m_s ms)) v') by (eapply scatter_shape; eauto).
    apply os_bind. { eapply os_gather_p; eauto. apply R. } intros xq _.
    apply os_bind. { eapply os_gather_p; eauto. } intros vq _.
    apply os_bind. { apply os_bc2. } intros xq' _.
    apply os_bind. { eapply os_scatter_p; eauto. apply R. } intros x' Hx.
    assert (Rx' : rect (s_M (m_s ms)) (s_N (m_s ms)) x') by (eapply scatter_shape; [exact Hx|apply R]).
    apply os_bind. { eapply os_gather_p; eauto. } intros xe _.
    apply os_memorize; auto. destruct R. constructor; sst; auto.
  Qed.

  Lemma nmoved_lt : forall (c : cfg) N, 1 <= c_bsize c <= N -> (c_bsize c < N /\ c_partial c = true) <-> nmoved c N <> N.
  Proof.
    intros c N H. unfold nmoved. destruct (Nat.eqb_spec (c_bsize c) N); [lia|]. destruct (c_partial c); split; intros; try lia; try (split; auto; lia).
  Qed.

  Theorem mem_raises : forall k (c : cfg) p (o : orc) z2 ms log, mem_exec k c ms log -> perms_valid o (m_s ms) ->
    s_active (m_s ms) <> [] ->
    length (s_active (m_s ms)) < s_M (m_s ms) \/ (c_bsize c < s_N (m_s ms) /\ c_partial c = true) ->
    mem_step k c p o z2 ms = Err ShapeError.
  Proof.
    intros k c p o z2 ms log H P Hne Hbad. pose proof (mem_exec_wf _ _ _ _ H) as [W Ry Rv].
    rewrite nmoved_lt in Hbad by apply W.
    unfold mem_step. destruct (pre_ready c o (m_s ms) W (perms_valid_ok _ _ P) Hne) as (ci & pi & ind & Epre & R & _).
    rewrite Epre. cbn [bind]. set (s1 := set_pidx pi _) in *.
    assert (E : s_M s1 = s_M (m_s ms) /\ s_N s1 = s_N (m_s ms) /\ s_active s1 = s_active (m_s ms)) by (repeat split).
    destruct E as (E1 & E2 & E3). clearbody s1. clear Epre.
    destruct k.
    - destruct (mem_inner c p o z2 (mkmst s1 (m_y ms) (m_v ms) (m_ev ms))) as [ms2|e] eqn:Ei.
      + destruct (mem_inner_ok c p o z2 (mkmst s1 (m_y ms) (m_v ms) (m_ev ms)) ms2 R (ltac:(cbn [m_s m_y]; rewrite E1, E2; auto)) Ei) as (A1 & A2 & _).
        cbn [m_s] in *. rewrite E3, E1 in A1. rewrite E2 in A2. lia.
      + cbn [bind]. f_equal. eapply os_mem_inner; [| |exact Ei]; cbn [m_s m_y]; auto. rewrite E1, E2; auto.
    - destruct (pso_inner c p o z2 (mkmst s1 (m_y ms) (m_v ms) (m_ev ms))) as [ms2|e] eqn:Ei.
      + destruct (pso_inner_ok c p o z2 (mkmst s1 (m_y ms) (m_v ms) (m_ev ms)) ms2 R (ltac:(cbn [m_s m_y]; rewrite E1, E2; auto)) (ltac:(cbn [m_s m_v]; rewrite E1, E2; auto)) Ei) as (A1 & A2 & _).
        cbn [m_s] in *. rewrite E3, E1 in A1. rewrite E2 in A2. lia.
      + cbn [bind]. f_equal. eapply os_pso_inner; [| | |exact Ei]; cbn [m_s m_y m_v]; auto; rewrite E1, E2; auto.
  Qed.

  (** CBOMemory with a mini-batch of more than one particle *)
  Lemma cc_call_bad : forall (c : cfg) e xs al cpt M A N b, rect M N e -> rect A b xs -> rect A 1 al -> 1 <= A -> 1 <= M -> b <> N -> b <> 1 ->
    cc_call c e xs al = Ok cpt -> False.
  Proof.
    intros c e xs al cpt M A N b Re Rx Ra HA HM Hb Hb1 H. unfold cc_call in H.
    apply bind_ok in H. destruct H as (ea & E1 & H). apply bind_ok in H. destruct H as (rows & E2 & H).
    destruct (compat_dec M A) as [CM|CM].
    2:{ rewrite bpairs_incompat in E1; [discriminate|]. rewrite (proj1 Re), (proj1 Ra). auto. }
    destruct (bpairs_compat _ _ e al) as (r & E & L & Hin). { rewrite (proj1 Re), (proj1 Ra); auto. }
    rewrite E in E1. inversion E1; subst r. clear E1. rewrite (proj1 Re), (proj1 Ra) in L.
    destruct (compat_dec (bdim M A) A) as [CB|CB].
    2:{ rewrite bpairs_incompat in E2; [discriminate|]. rewrite L, (proj1 Rx). auto. }
    destruct (bpairs_compat _ _ ea xs) as (r & E' & L' & Hin'). { rewrite L, (proj1 Rx); auto. }
    rewrite E' in E2. inversion E2; subst r. clear E2. rewrite L, (proj1 Rx) in L'.
    assert (0 < length rows). { rewrite L'. unfold bdim. destruct (Nat.eqb_spec M 1); destruct (_ =? 1); lia. }
    destruct (nth_error_lt_Some _ _ _ H0) as [[[er ar] xr] Er].
    destruct (Hin' _ _ Er) as [I1 I2]. cbn [fst snd] in I1, I2.
    apply In_nth_error in I1. destruct I1 as [k1 I1]. destruct (Hin _ _ I1) as [I3 I4]. cbn [fst snd] in I3, I4.
    pose proof (rect_in _ _ _ _ _ Re I3) as L3. pose proof (rect_in _ _ _ _ _ Rx I2) as L2.
    destruct (mapM_nth _ _ _ _ _ _ _ H Er) as (bb & Eb & _). destruct ar as [|a [|]]; try discriminate.
    destruct (Nat.eqb_spec (length er) (length xr)); [lia|]. destruct xr as [|w [|]]; try discriminate. cbn in L2. lia.
  Qed.

  Theorem mem_batch_raises : forall (c : cfg) p (o : orc) z2 ms log, mem_exec CBOMem c ms log -> perms_valid o (m_s ms) ->
    s_active (m_s ms) <> [] -> 1 < c_bsize c < s_N (m_s ms) ->
    mem_step CBOMem c p o z2 ms = Err ShapeError.
  Proof.
    intros c p o z2 ms log H P Hne Hb. pose proof (mem_exec_wf _ _ _ _ H) as [W Ry Rv].
    unfold mem_step. destruct (pre_ready c o (m_s ms) W (perms_valid_ok _ _ P) Hne) as (ci & pi & ind & Epre & R & _).
    rewrite Epre. cbn [bind]. set (s1 := set_pidx pi _) in *.
    assert (E : s_M s1 = s_M (m_s ms) /\ s_N s1 = s_N (m_s ms)) by (repeat split).
    destruct E as (E1 & E2). clearbody s1. clear Epre.
    destruct (mem_inner c p o z2 (mkmst s1 (m_y ms) (m_v ms) (m_ev ms))) as [ms2|e] eqn:Ei.
    - exfalso. unfold mem_inner in Ei. apply bind_ok in Ei. destruct Ei as (s2 & Ei & _). cbn [m_s m_y] in Ei.
      unfold mem_cbo_step in Ei. apply bind_ok in Ei. destruct Ei as (cpt & Ei & _). unfold mem_consensus in Ei.
      destruct (gather_rect _ _ _ _ _ _ (m_y ms) (rd_c _ _ R) (rd_lt _ _ R) (ltac:(rewrite E1, E2; auto)) (rd_cs _ _ R)) as (yb & Eg & Rg).
      rewrite Eg in Ei. cbn [bind] in Ei. destruct (alpha_ok _ _ R) as (al & Ea & Ra). rewrite Ea in Ei. cbn [bind] in Ei.
      pose proof (active_le _ _ R).
      eapply cc_call_bad; [apply (rd_e _ _ R)|exact Rg|exact Ra| | | | |exact Ei]; try lia.
    - cbn [bind]. f_equal. eapply os_mem_inner; [| |exact Ei]; cbn [m_s m_y]; auto. rewrite E1, E2; auto.
  Qed.

  (** ** the remaining steps succeed *)
  Lemma cc_call_ok : forall (c : cfg) e xs al M N b, one_consensus_point c -> rect M N e -> rect M b xs -> rect M 1 al -> (N = b \/ b = 1) ->
    exists cpt, cc_call c e xs al = Ok cpt /\ rect M 1 cpt.
  Proof.
    intros c e xs al M N b OC Re Rx Ra Hb. unfold cc_call.
    rewrite bpairs_same by (rewrite (proj1 Re), (proj1 Ra); auto). cbn [bind].
    assert (Lc : length (combine e al) = M) by (rewrite combine_length, (proj1 Re), (proj1 Ra); lia).
    rewrite bpairs_same by (rewrite Lc, (proj1 Rx); auto). cbn [bind].
    match goal with |- context [mapM ?f ?l] => destruct (mapM_ok _ _ f l) as [cpt E] end.
    { intros [[er ar] xr] Hin. apply In_nth_error in Hin. destruct Hin as [k Hk]. rewrite !nth_error_combine in Hk.
      destruct (nth_error e k) eqn:A1; try discriminate. destruct (nth_error al k) eqn:A2; try discriminate.
      destruct (nth_error xs k) eqn:A3; try discriminate. inversion Hk; subst.
      pose proof (proj2 Re _ _ A1) as L1. pose proof (proj2 Ra _ _ A2) as L2. pose proof (proj2 Rx _ _ A3) as L3.
      destruct ar as [|a [|]]; try discriminate. destruct (Nat.eqb_spec (length er) (length xr)); [eauto|].
      destruct xr as [|w [|]]; cbn in *; try lia. eauto. }
    rewrite E. exists cpt. split; auto. split. { rewrite (mapM_length _ _ _ _ _ E), combine_length, Lc, (proj1 Rx). lia. }
    intros k row Hk.
    assert (k < length (combine (combine e al) xs)). { rewrite <- (mapM_length _ _ _ _ _ E). eapply nth_error_lt; eauto. }
    destruct (nth_error_lt_Some _ _ _ H) as [[[er ar] xr] Er].
    destruct (mapM_nth _ _ _ _ _ _ _ E Er) as (bb & Eb & Ek). rewrite Hk in Ek. inversion Ek; subst bb.
    destruct ar as [|a [|]]; try discriminate. destruct (_ =? _); [inversion Eb; apply OC|].
    destruct xr as [|w [|]]; inversion Eb; apply OC.
  Qed.

  Lemma correction_full : forall (c : cfg) cpt d (s : st) M N, rect M N (s_energy s) -> rect M 1 cpt -> rect M N d -> 1 <= N ->
    exists d' s', correction c cpt d s = Ok (d', s') /\ rect M N d' /\
      exists fc nf, s' = set_fcalls fc (set_nfe nf s) /\ length nf = length (s_nfe s).
  Proof.
    intros c cpt d s M N Re Rc Rd HN. unfold correction. destruct (c_corr c) as [|fac].
    - exists d, s. split; auto. split; auto. exists (s_fcalls s), (s_nfe s). split; auto. destruct s; auto.
    - cbv zeta. sst. destruct (bc2_compat _ _ _ fsub _ _ _ _ _ _ Re (rect_map _ _ (c_f c) _ _ _ Rc)) as (z & E1 & R1); [left; auto|right; right; auto|].
      rewrite E1. cbn [bind].
      assert (Rz : rect M N z). { unfold bdim in R1. destruct (Nat.eqb_spec M 1); destruct (Nat.eqb_spec N 1); subst; auto. }
      rewrite (bc2_same _ _ _ _ _ _ _ _ Rd Rz). cbn [bind]. eexists _, _. split; [reflexivity|].
      split. { apply rect_map2; auto. } eexists _, _. split; [reflexivity|]. apply map_length.
  Qed.

  Lemma bc2_col : forall A B C (f : A -> B -> C) M N X Y, rect M N X -> rect M 1 Y -> exists Z, bc2 f X Y = Ok Z /\ rect M N Z.
  Proof.
    intros A B C f M N X Y RX RY. destruct (bc2_compat _ _ _ f _ _ _ _ _ _ RX RY) as (Z & E & R); [left; auto|right; right; auto|].
    exists Z. split; auto. unfold bdim in R. destruct (Nat.eqb_spec M 1); destruct (Nat.eqb_spec N 1); subst; auto.
  Qed.

  Theorem mem_works : forall k (c : cfg) p (o : orc) z2 ms log, mem_exec k c ms log -> perms_valid o (m_s ms) ->
    one_consensus_point c -> s_active (m_s ms) <> [] -> length (s_active (m_s ms)) = s_M (m_s ms) ->
    (c_bsize c = s_N (m_s ms) \/ (c_partial c = false /\ (k = Pso \/ c_bsize c = 1))) ->
    exists ms', mem_step k c p o z2 ms = Ok ms'.
  Proof.
    intros k c p o z2 ms log H P OC Hne HA Hb. pose proof (mem_exec_wf _ _ _ _ H) as [W Ry Rv].
    unfold mem_step. destruct (pre_ready c o (m_s ms) W (perms_valid_ok _ _ P) Hne) as (ci & pi & ind & Epre & R & _).
    rewrite Epre. cbn [bind]. set (s1 := set_pidx pi _) in *.
    assert (E : s_M s1 = s_M (m_s ms) /\ s_N s1 = s_N (m_s ms) /\ s_active s1 = s_active (m_s ms) /\ s_xold s1 = Some (s_x (m_s ms)) /\
      s_be s1 = s_be (m_s ms) /\ s_bp s1 = s_bp (m_s ms) /\ s_save s1 = s_save (m_s ms) /\ s_tracks s1 = s_tracks (m_s ms) /\ s_hist s1 = s_hist (m_s ms)) by (repeat split).
    destruct E as (E1 & E2 & E3 & E4 & E5 & E6 & E7 & E8 & E9). clearbody s1. clear Epre.
    pose proof (w_x _ _ W) as Rxo. pose proof (w_be _ _ W) as Lbe. pose proof (w_bp _ _ W) as Lbp.
    pose proof (w_save _ _ W) as Wsv. pose proof (w_keys _ _ W) as Wk. pose proof (w_N _ _ W) as WN.
    assert (Hn : nmoved c (s_N s1) = s_N s1).
    { rewrite E2. unfold nmoved. destruct (Nat.eqb_spec (c_bsize c) (s_N (m_s ms))); auto. destruct Hb as [Hb|[-> _]]; [congruence|auto]. }
    rewrite <- E1, <- E2 in Ry, Rv, Rxo. rewrite <- E1 in Lbe, Lbp. rewrite <- E1, <- E3 in HA. rewrite <- E2 in Hb, WN.
    pose proof (rd_e _ _ R) as Re. pose proof (rd_x _ _ R) as Rx.
    destruct (full_idx _ _ R HA Hn) as [Ea Hfull].
    destruct (alpha_ok _ _ R) as (al & Eal & Ral). rewrite HA in Ral.
    assert (Rcs := rd_cs _ _ R).
    destruct (gather_rect _ _ _ _ _ _ (m_y ms) (rd_c _ _ R) (rd_lt _ _ R) Ry Rcs) as (yb & Eyb & Ryb). rewrite HA in Ryb.
    (* it is enough that the inner step succeeds *)
    assert (Post : forall ms2, match k with CBOMem => mem_inner c p o z2 (mkmst s1 (m_y ms) (m_v ms) (m_ev ms))
                                          | Pso => pso_inner c p o z2 (mkmst s1 (m_y ms) (m_v ms) (m_ev ms)) end = Ok ms2 ->
       exists ms', (ms2 <- match k with CBOMem => mem_inner c p o z2 (mkmst s1 (m_y ms) (m_v ms) (m_ev ms))
                                          | Pso => pso_inner c p o z2 (mkmst s1 (m_y ms) (m_v ms) (m_ev ms)) end ;;
          s3 <- mem_post_step k c (m_s ms2) ;; Ok (mkmst s3 (m_y ms2) (m_v ms2) (m_ev ms2))) = Ok ms').
    { intros ms2 Ei. rewrite Ei. cbn [bind].
      assert (exists s2 xe, moved s1 s2 /\ s_x s2 = xe /\ rect (s_M s1) (s_N s1) xe /\
         m_s ms2 = set_energy (map2 (map2 fmin) (s_energy s1) (map (map (c_f c)) xe)) s2) as (s2 & xe & Mv & Ex & Rxe & Ems).
      { destruct k.
        - destruct (mem_inner_ok c p o z2 (mkmst s1 (m_y ms) (m_v ms) (m_ev ms)) ms2 R Ry Ei) as (_ & _ & s2 & xe & A1 & A2 & A3 & ->). exists s2, xe. auto.
        - destruct (pso_inner_ok c p o z2 (mkmst s1 (m_y ms) (m_v ms) (m_ev ms)) ms2 R Ry Rv Ei) as (_ & _ & s2 & v' & xe & A1 & A2 & A3 & A4 & ->). exists s2, xe. auto. }
      destruct Mv as (x2 & co & d & fc & nf & Es2 & Rx2 & Lnf). subst s2.
      assert (x2 = xe) by (rewrite <- Ex; reflexivity). subst x2.
      destruct (mem_post_char k c (m_s ms2) (s_x (m_s ms))) as (s'' & be & bp & bce & bcp & fm & ud & ti & ts & h & t & i & E & _);
        rewrite ?Ems; sst; auto.
      - apply rect_map2; auto. apply rect_map; auto.
      - rewrite E5; auto. - rewrite E6; auto. - rewrite E7; auto. - rewrite E8, E9; auto. - discriminate.
      - rewrite Ems in E. rewrite E. cbn [bind]. eauto. }
    assert (Inner : exists ms2, match k with CBOMem => mem_inner c p o z2 (mkmst s1 (m_y ms) (m_v ms) (m_ev ms))
                                          | Pso => pso_inner c p o z2 (mkmst s1 (m_y ms) (m_v ms) (m_ev ms)) end = Ok ms2).
    { clear Post. destruct k.
      - unfold mem_inner, mem_cbo_step, mem_consensus. cbn [m_s m_y m_v]. rewrite Eyb. cbn [bind]. rewrite Eal. cbn [bind].
        destruct (cc_call_ok c (s_energy s1) yb al (s_M s1) (s_N s1) (c_bsize c) OC Re Ryb Ral) as (cpt & Ecp & Rcp).
        { destruct Hb as [Hb|[_ [Hb|Hb]]]; auto. discriminate. }
        rewrite Ecp. cbn [bind]. cbv zeta. sst.
        rewrite (proj1 (Hfull _ _ Rx)). cbn [bind].
        destruct (bc2_col _ _ _ (c_vsub c) _ _ _ _ Rx Rcp) as (d0 & Ed & Rd). rewrite Ed. cbn [bind].
        destruct (correction_full c cpt d0 (set_cons (Some cpt) s1) (s_M s1) (s_N s1)) as (d & s2 & Ec & Rd' & fc & nf & -> & _); auto.
        rewrite Ec. cbn [bind]. sst.
        match goal with |- context [iop2 (c_vadd c) (s_x s1) ?u] => assert (Ru : rect (s_M s1) (s_N s1) u) by (apply rect_amapi; auto); set (upd := u) in * end.
        rewrite iop2_same; [|rewrite (proj1 Rx), (proj1 Ru); auto|intros k0 x y A1 A2; rewrite (proj2 Rx _ _ A1), (proj2 Ru _ _ A2); auto].
        cbn [bind]. assert (Rx1 : rect (s_M s1) (s_N s1) (map2 (map2 (c_vadd c)) (s_x s1) upd)) by (apply rect_map2; auto).
        set (x1 := map2 _ _ _) in *. rewrite (proj2 (Hfull _ _ Rx) x1 Rx1). cbn [bind].
        unfold memory_step. sst. rewrite (proj1 (Hfull _ _ Rx1)). cbn [bind]. rewrite (proj1 (Hfull _ _ Ry)). cbn [bind].
        rewrite (bc2_same _ _ _ _ _ _ _ _ Rx1 Ry). cbn [bind]. cbv zeta.
        assert (Rm : rect (s_M s1) (s_N s1) (map2 (map2 (c_vsub c)) x1 (m_y ms))) by (apply rect_map2; auto).
        match goal with |- context [iop2 (c_vadd c) x1 ?u] => assert (Ru2 : rect (s_M s1) (s_N s1) u) by (apply rect_amapi; auto); set (upd2 := u) in * end.
        rewrite iop2_same; [|rewrite (proj1 Rx1), (proj1 Ru2); auto|intros k0 x y A1 A2; rewrite (proj2 Rx1 _ _ A1), (proj2 Ru2 _ _ A2); auto].
        cbn [bind]. assert (Rx2 : rect (s_M s1) (s_N s1) (map2 (map2 (c_vadd c)) x1 upd2)) by (apply rect_map2; auto).
        set (x2 := map2 _ x1 upd2) in *. rewrite (proj2 (Hfull _ _ Rx1) x2 Rx2). cbn [bind]. sst.
        rewrite (proj1 (Hfull _ _ Rx2)). cbn [bind]. unfold eval_f.
        match goal with |- context [memorize c true ?s ?y ?v ?xe ?en] => rewrite (memorize_full c true s y v xe en) end; eauto.
        { destruct R. constructor; sst; auto. }
        apply rect_map; auto.
      - unfold pso_inner, pso_consensus. cbn [m_s m_y m_v]. rewrite Eyb. cbn [bind].
        destruct (gather_rect _ _ _ _ _ _ (s_energy s1) (rd_c _ _ R) (rd_lt _ _ R) Re Rcs) as (eb & Eeb & Reb). rewrite HA in Reb.
        rewrite Eeb. cbn [bind]. rewrite Eal. cbn [bind].
        destruct (cc_call_ok c eb yb al (s_M s1) _ (c_bsize c) OC Reb Ryb Ral) as (cpt & Ecp & Rcp); auto.
        rewrite Ecp. cbn [bind]. cbv zeta. sst.
        rewrite (proj1 (Hfull _ _ Rx)). cbn [bind].
        destruct (bc2_col _ _ _ (c_vsub c) _ _ _ _ Rx Rcp) as (d0 & Ed & Rd). rewrite Ed. cbn [bind].
        rewrite (proj1 (Hfull _ _ Ry)). cbn [bind]. rewrite (bc2_same _ _ _ _ _ _ _ _ Rx Ry). cbn [bind].
        set (md := map2 _ (s_x s1) (m_y ms)). assert (Rmd : rect (s_M s1) (s_N s1) md) by (apply rect_map2; auto).
        rewrite (proj1 (Hfull _ _ Rv)). cbn [bind].
        match goal with |- context [correction c cpt ?u _] => assert (Ru : rect (s_M s1) (s_N s1) u) by (apply rect_map; auto); set (sd := u) in * end.
        destruct (correction_full c cpt sd (set_cons (Some cpt) s1) (s_M s1) (s_N s1)) as (d & s2 & Ec & Rd' & fc & nf & -> & _); auto.
        rewrite Ec. cbn [bind]. sst.
        match goal with |- context [bc2 (c_vadd c) ?u d] => assert (Ru1 : rect (s_M s1) (s_N s1) u) by (apply rect_map; auto); set (u1 := u) in * end.
        rewrite (bc2_same _ _ _ _ _ _ _ _ Ru1 Rd'). cbn [bind].
        pose proof (rect_map2 _ _ _ (c_vadd c) _ _ _ _ Ru1 Rd') as R1. set (a1 := map2 _ u1 d) in *.
        match goal with |- context [bc2 (c_vadd c) a1 ?u] => assert (Ru2 : rect (s_M s1) (s_N s1) u) by (apply rect_map; auto); set (u2 := u) in * end.
        rewrite (bc2_same _ _ _ _ _ _ _ _ R1 Ru2). cbn [bind].
        pose proof (rect_map2 _ _ _ (c_vadd c) _ _ _ _ R1 Ru2) as R2. set (a2 := map2 _ a1 u2) in *.
        match goal with |- context [bc2 (c_vadd c) a2 ?u] => assert (Ru3 : rect (s_M s1) (s_N s1) u) by (apply rect_amapi; auto); set (u3 := u) in * end.
        rewrite (bc2_same _ _ _ _ _ _ _ _ R2 Ru3). cbn [bind].
        pose proof (rect_map2 _ _ _ (c_vadd c) _ _ _ _ R2 Ru3) as R3. set (a3 := map2 _ a2 u3) in *.
        match goal with |- context [bc2 (c_vadd c) a3 ?u] => assert (Ru4 : rect (s_M s1) (s_N s1) u) by (apply rect_amapi; auto); set (u4 := u) in * end.
        rewrite (bc2_same _ _ _ _ _ _ _ _ R3 Ru4). cbn [bind].
        pose proof (rect_map2 _ _ _ (c_vadd c) _ _ _ _ R3 Ru4) as R4. set (a4 := map2 _ a3 u4) in *.
        match goal with |- context [scatter (s_pidx s1) (m_v ms) ?u] => assert (Rv' : rect (s_M s1) (s_N s1) u) by (apply rect_map; auto); set (v' := u) in * end.
        rewrite (proj2 (Hfull _ _ Rv) v' Rv'). cbn [bind]. rewrite (proj1 (Hfull _ _ Rx)). cbn [bind]. rewrite (proj1 (Hfull _ _ Rv')). cbn [bind].
        match goal with |- context [bc2 (c_vadd c) (s_x s1) ?u] => assert (Ru5 : rect (s_M s1) (s_N s1) u) by (apply rect_map; auto); set (u5 := u) in * end.
        rewrite (bc2_same _ _ _ _ _ _ _ _ Rx Ru5). cbn [bind].
        pose proof (rect_map2 _ _ _ (c_vadd c) _ _ _ _ Rx Ru5) as R5. set (x' := map2 _ (s_x s1) u5) in *.
        rewrite (proj2 (Hfull _ _ Rx) x' R5). cbn [bind]. rewrite (proj1 (Hfull _ _ R5)). cbn [bind].
        match goal with |- context [memorize c false ?s ?y ?v ?xe ?en] => rewrite (memorize_full c false s y v xe en) end; eauto.
        { destruct R. constructor; sst; auto. }
        apply rect_map; auto. }
    destruct Inner as [ms2 Ei]. exact (Post ms2 Ei).
  Qed.
End Raise.
