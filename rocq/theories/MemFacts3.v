(** * CBOMemory and PSO: executions *)
From Coq Require Import String List Arith Bool Lia Permutation.
From Verif Require Import Scalar ScalarFacts Np NpFacts State Pdyn PdynFacts PdynStep PdynRun Exec PdynOk RunFacts BestFacts BcFacts HeaviFacts Memory MemSpec MemFacts MemFacts2.
Import ListNotations.
Open Scope nat_scope.
Open Scope list_scope.

Section Exec.
  Context {K V : Type} {O : KOps K}.
  Notation F := (fl K).
  Notation st := (st K V).
  Notation cfg := (cfg K V).
  Notation orc := (orc V).
  Notation mst := (mst K V).
  Notation mpar := (mpar K).

  (** ** post_step *)
  Lemma best_cur_char : forall (X : arr V) (s : st), rect (s_M s) (s_N s) X -> rect (s_M s) (s_N s) (s_energy s) -> 0 < s_N s ->
    exists am bcp bce, mapM argmin (s_energy s) = Ok am /\ pick X (map fst am) = Ok bcp /\
      pick (s_energy s) (map fst am) = Ok bce /\ length am = s_M s /\ length bcp = s_M s /\ length bce = s_M s /\
      forall m e xr, nth_error (s_energy s) m = Some e -> nth_error X m = Some xr ->
        exists j v p, argmin e = Ok (j, v) /\ nth_error xr j = Some p /\ nth_error bcp m = Some p /\ nth_error bce m = Some v.
  Proof.
    intros X s RX Re HN.
    destruct (mapM_ok _ _ argmin (s_energy s)) as [am Ham].
    { intros e He. apply In_nth_error in He. destruct He as [k Hk].
      destruct (argmin_ok e) as (j & v & E). { rewrite (proj2 Re _ _ Hk). auto. } eauto. }
    pose proof (mapM_length _ _ _ _ _ Ham) as Hlam.
    assert (Hamk : forall k e, nth_error (s_energy s) k = Some e -> exists j v,
               argmin e = Ok (j, v) /\ nth_error am k = Some (j, v) /\ nth_error e j = Some v).
    { intros k e Hk. destruct (mapM_nth _ _ _ _ _ _ _ Ham Hk) as ([j v] & E1 & E2).
      exists j, v. split; auto. split; auto. eapply argmin_nth; eauto. }
    assert (Hpick : forall A (X : arr A), rect (s_M s) (s_N s) X -> exists p, pick X (map fst am) = Ok p /\
              length p = s_M s /\
              forall m row j v, nth_error X m = Some row -> nth_error am m = Some (j, v) ->
                exists a, take1 row j = Ok a /\ nth_error p m = Some a).
    { intros A X0 [RX1 RX2]. unfold pick. rewrite map_length, Hlam, RX1, (proj1 Re), Nat.eqb_refl.
      destruct (mapM_ok _ _ (fun p => take1 (fst p) (snd p)) (combine X0 (map fst am))) as [p Hp].
      { intros [row j] Hin. apply In_nth_error in Hin. destruct Hin as [k Hk].
        rewrite nth_error_combine in Hk.
        destruct (nth_error X0 k) eqn:E1; try discriminate.
        rewrite nth_error_map in Hk. destruct (nth_error am k) as [[j' v]|] eqn:E2; cbn in Hk; try discriminate.
        inversion Hk; subst. cbn.
        assert (Hke : k < length (s_energy s)) by (rewrite <- Hlam; eapply nth_error_lt; eauto).
        destruct (nth_error_lt_Some _ _ _ Hke) as [e Ee].
        destruct (Hamk _ _ Ee) as (j0 & v0 & E3 & E4 & E5). rewrite E2 in E4. inversion E4; subst.
        apply nth_error_lt in E5. rewrite (proj2 Re _ _ Ee), <- (RX2 _ _ E1) in E5.
        destruct (nth_error_lt_Some _ _ _ E5) as [a Ea]. exists a. apply take1_ok; auto. }
      exists p. split; auto. split.
      { rewrite (mapM_length _ _ _ _ _ Hp), combine_length, map_length, Hlam, (proj1 Re). lia. }
      intros m row j v E1 E2. destruct (mapM_nth _ _ _ _ _ m (row, j) Hp) as (a & Ea & Eb).
      { rewrite nth_error_combine, E1, nth_error_map, E2. auto. }
      eauto. }
    destruct (Hpick _ X RX) as (bcp & E1 & L1 & H1). destruct (Hpick _ (s_energy s) Re) as (bce & E2 & L2 & H2).
    exists am, bcp, bce. split; auto. split; auto. split; auto. split. { rewrite Hlam. apply Re. } split; auto. split; auto.
    intros m e xr Em Ex. destruct (Hamk _ _ Em) as (j & v & A1 & A2 & A3).
    destruct (H1 _ _ _ _ Ex A2) as (p & B1 & B2). destruct (H2 _ _ _ _ Em A2) as (v' & B3 & B4).
    apply take1_ok in B1, B3. exists j, v, p. split; auto. split; auto. split; auto. congruence.
  Qed.

  (** where the particles reported as current best are read *)
  Definition best_source (k : mkind) (c : cfg) (s : st) (xo : arr V) : arr V :=
    match k with CBOMem => map (map (c_pp c)) (s_x s) | Pso => xo end.

  Lemma mem_post_char : forall k (c : cfg) (s : st) xo,
    s_xold s = Some xo -> rect (s_M s) (s_N s) xo -> rect (s_M s) (s_N s) (s_x s) ->
    rect (s_M s) (s_N s) (s_energy s) -> 0 < s_N s ->
    length (s_be s) = s_M s -> length (s_bp s) = s_M s ->
    1 <= s_save s -> keys_ok (s_tracks s) (s_hist s) -> s_drift s <> None ->
    exists s' be bp bce bcp fm ud ti ts h t i, mem_post_step k c s = Ok s' /\
      s' = set_it i (set_t t (set_trackit ti (set_tracks ts (set_hist h (set_bp bp (set_be be
             (set_bce bce (set_bcp bcp (set_fmin fm (set_udiff ud (set_x (map (map (c_pp c)) (s_x s)) s))))))))))) /\
      i = S (s_it s) /\ t = fadd (s_t s) (s_dt s) /\
      keys_ok ts h /\ length be = s_M s /\ length bp = s_M s /\ length fm = s_M s /\ length ud = s_M s /\
      forall m e b p xr, nth_error (s_energy s) m = Some e -> nth_error (s_be s) m = Some b -> nth_error (s_bp s) m = Some p ->
        nth_error (best_source k c s xo) m = Some xr ->
        exists j v q, argmin e = Ok (j, v) /\ nth_error xr j = Some q /\
          nth_error be m = Some (if fltb v b then v else b) /\ nth_error bp m = Some (if fltb v b then q else p).
  Proof.
    intros k c s xo Hxo Rxo Rx Re HN Hbe Hbp Hsave Hkeys Hd.
    assert (Rs : rect (s_M s) (s_N s) (best_source k c s xo)).
    { destruct k; cbn; auto. apply rect_map; auto. }
    destruct (best_cur_char _ s Rs Re HN) as (am & bcp & bce & E1 & E2 & E3 & L1 & L2 & L3 & Hrow).
    unfold mem_post_step. sst. rewrite Hxo. cbv zeta.
    set (b := map2 (fun be bce0 => fltb bce0 be) (s_be s) bce).
    assert (Lb : length b = s_M s). { unfold b. rewrite map2_length. lia. }
    set (sU := set_udiff _ _).
    assert (G : match k with CBOMem => mem_update_best_cur sU | Pso => update_best_cur sU end =
                Ok (set_bce bce (set_bcp bcp (set_fmin (map snd am) sU)))).
    { unfold sU. destruct k; cbn [best_source] in E2.
      - unfold mem_update_best_cur. sst. rewrite E1. cbn [bind]. rewrite E2. cbn [bind]. rewrite E3. reflexivity.
      - unfold update_best_cur. sst. rewrite Hxo, E1. cbn [bind]. rewrite E2. cbn [bind]. rewrite E3. reflexivity. }
    rewrite G. cbn [bind]. clear G. unfold sU. clear sU.
    unfold update_best. sst. fold b.
    match goal with |- context [track c ?s4] => destruct (track_ok c s4) as (ti & ts & h & Et & Hk); [sst; auto ..|] end.
    rewrite Et. cbn [bind]. eexists _, (select b bce (s_be s)), (select b bcp (s_bp s)), bce, bcp, (map snd am), _, ti, ts, h, _, _.
    split; [reflexivity|]. split. { sst. reflexivity. } sst.
    split; [reflexivity|]. split; [reflexivity|].
    split; [auto|]. split. { rewrite select_length; lia. } split. { rewrite select_length; lia. }
    split. { rewrite map_length; auto. } split. { rewrite map2_length, map_length. destruct Rx, Rxo. lia. }
    intros m e b0 p xr Ee Eb Ep Exr. destruct (Hrow _ _ _ Ee Exr) as (j & v & q & A1 & A2 & A3 & A4).
    exists j, v, q. split; auto. split; auto. rewrite !select_nth by lia.
    assert (Eb' : nth_error b m = Some (fltb v b0)). { unfold b. rewrite map2_nth, Eb, A4. auto. }
    rewrite Eb', A3, A4, Eb, Ep. destruct (fltb v b0); auto.
  Qed.

  (** ** a successful step *)
  Theorem mem_step_ok : forall k (c : cfg) p (o : orc) z2 ms ms', mwf c ms -> perm_ok o (m_s ms) -> s_active (m_s ms) <> [] ->
    mem_step k c p o z2 ms = Ok ms' ->
    let s := m_s ms in let s' := m_s ms' in
    length (s_active s) = s_M s /\ nmoved c (s_N s) = s_N s /\
    mwf c ms' /\ s_M s' = s_M s /\ s_N s' = s_N s /\ s_active s' = s_active s /\
    (s_pidx s' = IAll \/ s_pidx s' = IRuns (s_active s)) /\
    rect (s_M s) (s_N s) (m_ev ms') /\
    s_energy s' = map2 (map2 fmin) (s_energy s) (map (map (c_f c)) (m_ev ms')) /\
    m_y ms' = map2 (map2 (c_vadd c)) (m_y ms)
           (map2 (map2 (vmask c)) (map2 (map2 (fun e e' => fltb e' e)) (s_energy s) (map (map (c_f c)) (m_ev ms')))
              (map2 (map2 (c_vsub c)) (m_ev ms') (m_y ms))) /\
    s_x s' = map (map (c_pp c)) (m_ev ms') /\
    (forall m e b q xr, nth_error (s_energy s') m = Some e -> nth_error (s_be s) m = Some b -> nth_error (s_bp s) m = Some q ->
        nth_error (match k with CBOMem => s_x s' | Pso => s_x s end) m = Some xr ->
        exists j v x, argmin e = Ok (j, v) /\ nth_error xr j = Some x /\
          nth_error (s_be s') m = Some (if fltb v b then v else b) /\ nth_error (s_bp s') m = Some (if fltb v b then x else q)).
  Proof.
    intros k c p o z2 ms ms' [W Ry Rv] P Hne H s s'. unfold mem_step in H.
    destruct (pre_ready c o (m_s ms) W P Hne) as (ci & pi & ind & Epre & R & Hind). rewrite Epre in H. cbn [bind] in H.
    set (s1 := set_pidx pi _) in *.
    assert (Epx : nmoved c (s_N s) = s_N s -> s_pidx s1 = IAll \/ s_pidx s1 = IRuns (s_active s)).
    { intros Hn. exact (pre_pidx c o _ _ Epre Hn). }
    apply bind_ok in H. destruct H as (ms2 & H1 & H).
    assert (Hin : length (s_active s1) = s_M s1 /\ nmoved c (s_N s1) = s_N s1 /\
      exists s2 v' xe, moved s1 s2 /\ s_x s2 = xe /\ rect (s_M s1) (s_N s1) xe /\ rect (s_M s1) (s_N s1) v' /\
      ms2 = mkmst (set_energy (map2 (map2 fmin) (s_energy s1) (map (map (c_f c)) xe)) s2)
        (map2 (map2 (c_vadd c)) (m_y ms)
           (map2 (map2 (vmask c)) (map2 (map2 (fun e e' => fltb e' e)) (s_energy s1) (map (map (c_f c)) xe))
              (map2 (map2 (c_vsub c)) xe (m_y ms)))) v' xe).
    { destruct k.
      - destruct (mem_inner_ok c p o z2 (mkmst s1 (m_y ms) (m_v ms) (m_ev ms)) ms2 R Ry H1) as (A1 & A2 & s2 & xe & A3 & A4 & A5 & A6).
        cbn [m_s m_y m_v] in *. split; auto. split; auto. exists s2, (m_v ms), xe. auto 10.
      - destruct (pso_inner_ok c p o z2 (mkmst s1 (m_y ms) (m_v ms) (m_ev ms)) ms2 R Ry Rv H1) as (A1 & A2 & s2 & v' & xe & A3 & A4 & A5 & A6 & A7).
        cbn [m_s m_y m_v] in *. split; auto. split; auto. exists s2, v', xe. auto 10. }
    clear H1. destruct Hin as (HA & Hn & s2 & v' & xe & Mv & Ex & Rxe & Rv' & Ems).
    pose proof (moved_frame _ _ Mv) as (F1 & F2 & F3 & F4 & F5).
    assert (Mv2 := Mv). destruct Mv2 as (x2 & co & d & fc & nf & Es2 & Rx2 & Lnf).
    assert (S1 : s_M s1 = s_M s /\ s_N s1 = s_N s /\ s_energy s1 = s_energy s /\ s_active s1 = s_active s /\ s_alpha s1 = s_alpha s /\
                 s_x s1 = s_x s /\ s_xold s1 = Some (s_x s) /\ s_be s1 = s_be s /\ s_bp s1 = s_bp s /\ s_save s1 = s_save s /\
                 s_tracks s1 = s_tracks s /\ s_hist s1 = s_hist s /\ s_nfe s1 = s_nfe s /\ s_reason s1 = s_reason s /\ s_cep s1 = s_cep s /\ s_ind s1 = ind)
      by (repeat split).
    destruct S1 as (S1 & S2 & S3 & S4 & S5 & S6 & S7 & S8 & S9 & S10 & S11 & S12 & S13 & S14 & S15 & S16).
    assert (Ren : rect (s_M s) (s_N s) (map2 (map2 fmin) (s_energy s1) (map (map (c_f c)) xe))).
    { rewrite <- S1, <- S2. apply rect_map2. { rewrite S1, S2, S3. apply W. } apply rect_map; auto. }
    assert (Ex2 : x2 = xe) by (rewrite <- Ex, Es2; reflexivity). subst x2.
    set (sm := m_s ms2) in *.
    assert (Esm : sm = set_energy (map2 (map2 fmin) (s_energy s1) (map (map (c_f c)) xe)) s2) by (unfold sm; rewrite Ems; reflexivity).
    assert (T : s_xold sm = Some (s_x s) /\ s_M sm = s_M s /\ s_N sm = s_N s /\ s_x sm = xe /\
        s_energy sm = map2 (map2 fmin) (s_energy s1) (map (map (c_f c)) xe) /\ s_be sm = s_be s /\ s_bp sm = s_bp s /\
        s_save sm = s_save s /\ s_tracks sm = s_tracks s /\ s_hist sm = s_hist s /\ s_drift sm = Some d /\ s_alpha sm = s_alpha s /\
        s_nfe sm = nf /\ s_reason sm = s_reason s /\ s_active sm = s_active s /\ s_ind sm = ind /\ s_cep sm = s_cep s /\ s_pidx sm = s_pidx s1).
    { rewrite Esm, Es2. sst. repeat split; congruence. }
    clearbody s1 sm. clear Esm Es2 Mv Ex F1 F2 F3 F4 F5 R.
    destruct T as (T1 & T2 & T3 & T4 & T5 & T6 & T7 & T8 & T9 & T10 & T11 & T12 & T13 & T14 & T15 & T16 & T17 & T18).
    destruct (mem_post_char k c sm (s_x s)) as (s'' & be & bp & bce & bcp & fm & ud & ti & ts & h & t & i & E & Es'' & _ & _ & Kk & L1 & L2 & L3 & L4 & Hrow).
    { auto. } { rewrite T2, T3. apply W. } { rewrite T2, T3, T4, <- S1, <- S2. auto. } { rewrite T2, T3, T5. auto. }
    { rewrite T3. apply W. } { rewrite T6, T2. apply W. } { rewrite T7, T2. apply W. } { rewrite T8; apply W. }
    { rewrite T9, T10. apply W. } { rewrite T11. discriminate. }
    rewrite E in H. cbn [bind] in H. inversion H; subst ms'. clear H E.
    rewrite S1, S4 in HA. rewrite S2 in Hn. rewrite S1, S2 in *.
    subst s'. cbn [m_s m_y m_v m_ev].
    assert (Q : s_M s'' = s_M sm /\ s_N s'' = s_N sm /\ s_active s'' = s_active sm /\ s_pidx s'' = s_pidx sm /\ s_energy s'' = s_energy sm /\
      s_x s'' = map (map (c_pp c)) (s_x sm) /\ s_be s'' = be /\ s_bp s'' = bp /\ s_alpha s'' = s_alpha sm /\ s_nfe s'' = s_nfe sm /\
      s_fmin s'' = fm /\ s_udiff s'' = ud /\ s_reason s'' = s_reason sm /\ s_ind s'' = s_ind sm /\ s_cep s'' = s_cep sm /\
      s_save s'' = s_save sm /\ s_tracks s'' = ts /\ s_hist s'' = h) by (rewrite Es''; repeat split).
    clear Es''. destruct Q as (Q1 & Q2 & Q3 & Q4 & Q5 & Q6 & Q7 & Q8 & Q9 & Q10 & Q11 & Q12 & Q13 & Q14 & Q15 & Q16 & Q17 & Q18).
    assert (EM : s_M s'' = s_M s) by congruence. assert (EN : s_N s'' = s_N s) by congruence.
    split; [exact HA|]. split; [exact Hn|]. split.
    { constructor; cbn [m_s m_y m_v].
      - constructor; rewrite ?EM, ?EN; try apply W.
        + rewrite Q6, T4. apply rect_map; auto.
        + rewrite Q5, T5. auto.
        + rewrite Q9, T12. apply W.
        + rewrite Q7. congruence.
        + rewrite Q8. congruence.
        + rewrite Q10, T13, Lnf, S13. apply W.
        + rewrite Q11. congruence.
        + rewrite Q12. congruence.
        + rewrite Q13, T14. apply W.
        + rewrite Q3, T15. apply W.
        + rewrite Q3, T15. apply W.
        + rewrite Q14, T16. exact Hind.
        + rewrite Q15, T17. apply W.
        + rewrite Q16, T8. apply W.
        + rewrite Q17, Q18. auto.
      - rewrite EM, EN, Ems. cbn [m_y]. apply rect_map2; auto. apply rect_map2.
        + apply rect_map2. { rewrite S3; apply W. } apply rect_map; auto.
        + apply rect_map2; auto.
      - rewrite EM, EN, Ems. cbn [m_v]. auto. }
    split; [exact EM|]. split; [exact EN|]. split; [congruence|].
    split. { rewrite Q4, T18. apply Epx. exact Hn. }
    rewrite Ems. cbn [m_ev m_y]. split; auto.
    split. { rewrite Q5, T5, S3. reflexivity. }
    split. { rewrite S3. reflexivity. }
    split. { rewrite Q6, T4. reflexivity. }
    intros m e b q xr Ee Eb Eq Exr. rewrite Q7, Q8. apply (Hrow m e b q xr).
    - rewrite Q5 in Ee. exact Ee.
    - rewrite T6. exact Eb.
    - rewrite T7. exact Eq.
    - destruct k; cbn [best_source]; [rewrite <- Q6|]; exact Exr.
  Qed.

  Lemma mem_constructed_char : forall (c : cfg) ms, mem_constructed c ms -> exists s, constructed c s /\
    m_s ms = set_energy (map (map (c_f c)) (s_x s))
                 (set_fcalls (s_fcalls s + npoints (s_x s))
                    (set_nfe (map (fun n => n + s_N s) (s_nfe s)) s)) /\
    m_y ms = s_x s /\ m_v ms = map (map (c_vscale c (Fin k0))) (s_x s) /\ m_ev ms = s_x s.
  Proof.
    intros c ms (x0 & ch & al & sg & la & dt & perm0 & names & extra & save & H1 & H2 & H3 & H4 & H5 & H).
    unfold mem_init in H. apply bind_ok in H. destruct H as (s & E & H). inversion H; subst ms. cbn.
    exists s. split; [|auto]. exists x0, ch, al, sg, la, dt, perm0, names, extra, save. auto 10.
  Qed.

  Lemma mem_constructed_wf : forall (c : cfg) ms, mem_constructed c ms -> mwf c ms.
  Proof.
    intros c ms H. apply mem_constructed_char in H. destruct H as (s & Hs & E1 & E2 & E3 & E4).
    apply constructed_wf in Hs. destruct ms as [s' y v ev]. cbn in *. subst. constructor; cbn [m_s m_y m_v]; sst.
    - destruct Hs. constructor; sst; auto.
      + apply rect_map; auto.
      + rewrite map_length. auto.
    - apply Hs.
    - apply rect_map, Hs.
  Qed.

  Lemma terminate_MN : forall (c : cfg) (s s' : st) b, terminate c s = Ok (b, s') -> s_M s' = s_M s /\ s_N s' = s_N s /\
    s_energy s' = s_energy s /\ s_be s' = s_be s /\ s_bp s' = s_bp s /\ s_x s' = s_x s.
  Proof.
    intros c s s' b H. unfold terminate in H. apply bind_ok in H. destruct H as (s1 & H & E). inversion E; subst s1.
    unfold select_active_runs in H. apply bind_ok in H. destruct H as (loc & _ & H). inversion H. auto 10.
  Qed.
  Lemma params_MN : forall (s s' : st), params_changed s s' -> s_M s' = s_M s /\ s_N s' = s_N s /\
    s_energy s' = s_energy s /\ s_be s' = s_be s /\ s_bp s' = s_bp s /\ s_x s' = s_x s.
  Proof. intros s s' (al & sg & la & d & _ & ->). auto 10. Qed.
  Lemma reset_MN : forall s : st, s_M (reset s) = s_M s /\ s_N (reset s) = s_N s /\
    s_energy (reset s) = s_energy s /\ s_be (reset s) = s_be s /\ s_bp (reset s) = s_bp s /\ s_x (reset s) = s_x s.
  Proof.
    intros. unfold reset. match goal with |- context [init_history ?a ?b ?c ?d] => destruct (init_history_char a b c d) as (ts & h & E & _); rewrite E end.
    auto 10.
  Qed.

  Theorem mem_exec_wf : forall k (c : cfg) ms log, mem_exec k c ms log -> mwf c ms.
  Proof.
    intros k c ms log H. induction H.
    - apply mem_constructed_wf; auto.
    - apply (mem_step_ok k c p o z2 ms ms'); auto. apply perms_valid_ok; auto.
    - destruct IHmem_exec. destruct (terminate_MN _ _ _ _ H0) as (A1 & A2 & _).
      constructor; cbn [m_s m_y m_v]; rewrite ?A1, ?A2; auto. eapply terminate_wf; eauto.
    - destruct IHmem_exec. destruct (params_MN _ _ H0) as (A1 & A2 & _).
      constructor; cbn [m_s m_y m_v]; rewrite ?A1, ?A2; auto. eapply params_wf; eauto.
    - destruct IHmem_exec. destruct (reset_MN (m_s ms)) as (A1 & A2 & _).
      constructor; cbn [m_s m_y m_v]; rewrite ?A1, ?A2; auto. apply reset_wf; auto.
  Qed.

  (** ** the log of a step *)
  Lemma cell_map2 : forall A B C (f : A -> B -> C) X Y m n, cell (map2 (map2 f) X Y) m n =
    match cell X m n, cell Y m n with Some a, Some b => Some (f a b) | _, _ => None end.
  Proof.
    intros. unfold cell. rewrite map2_nth. destruct (nth_error X m); destruct (nth_error Y m); auto.
    - apply map2_nth. - destruct (nth_error l n); auto.
  Qed.
  Lemma cell_map : forall A B (f : A -> B) X m n, cell (map (map f) X) m n = option_map f (cell X m n).
  Proof. intros. unfold cell. rewrite nth_error_map. destruct (nth_error X m); cbn; auto. apply nth_error_map. Qed.
  Lemma cell_rect : forall A M N (X : arr A) m n, rect M N X -> m < M -> n < N -> exists a, cell X m n = Some a.
  Proof.
    intros A M N X m n [R1 R2] Hm Hn. unfold cell.
    destruct (nth_error_lt_Some _ X m) as [row E]. { lia. } rewrite E. apply nth_error_lt_Some. rewrite (R2 _ _ E). auto.
  Qed.
  Lemma cell_lt : forall A M N (X : arr A) m n a, rect M N X -> cell X m n = Some a -> m < M /\ n < N.
  Proof.
    intros A M N X m n a [R1 R2] H. unfold cell in H. destruct (nth_error X m) eqn:E; try discriminate.
    split. { rewrite <- R1. eapply nth_error_lt; eauto. } rewrite <- (R2 _ _ E). eapply nth_error_lt; eauto.
  Qed.
  Lemma grid_cell : forall M N m n, cell (grid M N) m n = if (m <? M) && (n <? N) then Some (m, n) else None.
  Proof.
    intros. unfold cell, grid. rewrite nth_error_map, nth_error_seq. destruct (Nat.ltb_spec m M); cbn [option_map andb]; auto.
    rewrite nth_error_map, nth_error_seq. destruct (n <? N); auto.
  Qed.
  Lemma grid_rect : forall M N, rect M N (grid M N).
  Proof.
    intros. unfold grid. split. { rewrite map_length, seq_length; auto. }
    intros k row Hk. rewrite nth_error_map in Hk. destruct (nth_error (seq 0 M) k); inversion Hk. rewrite map_length, seq_length. auto.
  Qed.
  Lemma in_concat_cell : forall A (X : arr A) a, In a (concat X) <-> exists m n, cell X m n = Some a.
  Proof.
    intros. rewrite in_concat. split.
    - intros (l & H1 & H2). apply In_nth_error in H1, H2. destruct H1 as [m Hm]. destruct H2 as [n Hn].
      exists m, n. unfold cell. rewrite Hm. auto.
    - intros (m & n & H). unfold cell in H. destruct (nth_error X m) eqn:E; try discriminate.
      exists l. split; eapply nth_error_In; eauto.
  Qed.

  Lemma evaluated_full : forall ms : mst, rect (s_M (m_s ms)) (s_N (m_s ms)) (m_ev ms) ->
    (s_pidx (m_s ms) = IAll \/ s_pidx (m_s ms) = IRuns (seq 0 (s_M (m_s ms)))) ->
    forall m n x, In (m, n, x) (mem_evaluated ms) <-> cell (m_ev ms) m n = Some x.
  Proof.
    intros ms R Hp m n x. unfold mem_evaluated.
    assert (E : gather (s_pidx (m_s ms)) (grid (s_M (m_s ms)) (s_N (m_s ms))) = Ok (grid (s_M (m_s ms)) (s_N (m_s ms)))).
    { destruct Hp as [-> | ->]; cbn [gather]; auto. rewrite <- (proj1 (grid_rect (s_M (m_s ms)) (s_N (m_s ms)))) at 2. apply takeM_all. }
    rewrite E, in_concat_cell. split.
    - intros (m' & n' & H). rewrite cell_map2, grid_cell in H.
      destruct ((m' <? _) && (n' <? _)); try discriminate. destruct (cell (m_ev ms) m' n') eqn:E2; inversion H; subst. auto.
    - intros H. exists m, n. rewrite cell_map2, grid_cell, H. destruct (cell_lt _ _ _ _ _ _ _ R H) as [A1 A2].
      apply Nat.ltb_lt in A1, A2. rewrite A1, A2. auto.
  Qed.
End Exec.

(** ** C40 *)
Section Memory.
  Context {K V : Type} {O : KOps K} {OL : KOrd K}.
  Notation F := (fl K).
  Notation st := (st K V).
  Notation cfg := (cfg K V).
  Notation orc := (orc V).
  Notation mst := (mst K V).

  Definition mem_inv (c : cfg) (ms : mst) (log : list (nat * nat * V)) : Prop :=
    forall m n, m < s_M (m_s ms) -> n < s_N (m_s ms) -> exists y, cell (m_y ms) m n = Some y /\
      cell (s_energy (m_s ms)) m n = Some (c_f c y) /\ In (m, n, y) log /\
      forall x, In (m, n, x) log -> fleb (c_f c y) (c_f c x) = true.

  Lemma init_pidx : forall (c : cfg) (s : st), constructed c s -> s_pidx s = IAll.
  Proof.
    intros c s (x0 & ch & al & sg & la & dt & perm0 & names & extra & save & H1 & H2 & H3 & H4 & H5 & H).
    unfold init in H. apply bind_ok in H. destruct H as (bp & E & H). inversion H as [Hs].
    match goal with |- context [init_history ?a ?b ?c ?d] => destruct (init_history_char a b c d) as (ts & h & E' & _); rewrite E' end.
    reflexivity.
  Qed.

  Theorem mem_exec_inv : forall k (c : cfg) ms log, no_nan c -> mem_exec k c ms log -> exact_log c log -> mem_inv c ms log.
  Proof.
    intros k c ms log NN H. induction H; intros EL.
    - pose proof (mem_constructed_wf _ _ H) as [W Ry Rv]. apply mem_constructed_char in H.
      destruct H as (s & Hs & E1 & E2 & E3 & E4).
      assert (Rev : rect (s_M (m_s ms)) (s_N (m_s ms)) (m_ev ms)) by (rewrite E4, <- E2; auto).
      pose proof (evaluated_full ms Rev) as Hev.
      assert (Hp : s_pidx (m_s ms) = IAll \/ s_pidx (m_s ms) = IRuns (seq 0 (s_M (m_s ms)))).
      { left. rewrite E1. sst. eapply init_pidx; eauto. }
      specialize (Hev Hp).
      intros m n Hm Hn. destruct (cell_rect _ _ _ _ _ _ Ry Hm Hn) as [y Ey]. exists y. split; auto.
      split. { rewrite E1. sst. rewrite cell_map, <- E2, Ey. auto. }
      split. { apply Hev. rewrite E4, <- E2. auto. }
      intros x Hx. apply Hev in Hx. rewrite E4, <- E2, Ey in Hx. inversion Hx; subst. apply fleb_refl. apply NN.
    - assert (EL' : exact_log c log). { intros m n x y A1 A2. apply (EL m n); apply in_or_app; auto. }
      specialize (IHmem_exec EL').
      pose proof (mem_exec_wf _ _ _ _ H) as W.
      destruct (mem_step_ok _ _ _ _ _ _ _ W (perms_valid_ok _ _ H0) H1 H2) as (A1 & A2 & A3 & A4 & A5 & A6 & A7 & A8 & A9 & A10 & A11 & A12).
      assert (Ea : s_active (m_s ms) = seq 0 (s_M (m_s ms))) by (apply incr_full; auto; apply W).
      assert (Hev : forall m n x, In (m, n, x) (mem_evaluated ms') <-> cell (m_ev ms') m n = Some x).
      { apply evaluated_full. { rewrite A4, A5; auto. } rewrite A4, <- Ea. auto. }
      intros m n Hm Hn. rewrite A4 in Hm. rewrite A5 in Hn.
      destruct (IHmem_exec m n Hm Hn) as (y & B1 & B2 & B3 & B4).
      destruct (cell_rect _ _ _ _ _ _ A8 Hm Hn) as [x Ex].
      assert (Hx : In (m, n, x) (log ++ mem_evaluated ms')). { apply in_or_app. right. apply Hev. auto. }
      assert (Hy : In (m, n, y) (log ++ mem_evaluated ms')). { apply in_or_app. auto. }
      destruct (EL m n x y Hx Hy) as [X1 X2].
      exists (if fltb (c_f c x) (c_f c y) then x else y). split.
      { rewrite A10, !cell_map2, cell_map, B1, B2, Ex. cbn [option_map]. f_equal. unfold vmask.
        destruct (fltb (c_f c x) (c_f c y)); auto. }
      split.
      { rewrite A9, cell_map2, cell_map, B2, Ex. cbn [option_map]. f_equal. unfold fmin. rewrite !NN. cbn [orb].
        destruct (fltb (c_f c x) (c_f c y)); auto. }
      split. { destruct (fltb _ _); auto. }
      intros w Hw. apply in_app_or in Hw. destruct (fltb (c_f c x) (c_f c y)) eqn:El; destruct Hw as [Hw|Hw].
      + apply fltb_fleb in El. eapply fleb_trans; eauto.
      + apply Hev in Hw. rewrite Ex in Hw. inversion Hw; subst. apply fleb_refl, NN.
      + auto.
      + apply Hev in Hw. rewrite Ex in Hw. inversion Hw; subst. apply fltb_false_fleb; auto; apply NN.
    - destruct (terminate_MN _ _ _ _ H0) as (A1 & A2 & A3 & _). unfold mem_inv. cbn [m_s m_y]. rewrite A1, A2, A3. apply IHmem_exec; auto.
    - destruct (params_MN _ _ H0) as (A1 & A2 & A3 & _). unfold mem_inv. cbn [m_s m_y]. rewrite A1, A2, A3. apply IHmem_exec; auto.
    - destruct (reset_MN (m_s ms)) as (A1 & A2 & A3 & _). unfold mem_inv. cbn [m_s m_y]. rewrite A1, A2, A3. apply IHmem_exec; auto.
  Qed.

  Theorem memory_best : forall k (c : cfg) ms log m n, no_nan c -> mem_exec k c ms log -> exact_log c log ->
    m < s_M (m_s ms) -> n < s_N (m_s ms) ->
    exists y, cell (m_y ms) m n = Some y /\ cell (s_energy (m_s ms)) m n = Some (c_f c y) /\
      In (m, n, y) log /\ forall x, In (m, n, x) log -> fleb (c_f c y) (c_f c x) = true.
  Proof. intros. eapply mem_exec_inv; eauto. Qed.

  Theorem memory_monotone : forall k (c : cfg) p (o : orc) z2 ms log ms' m n e, no_nan c -> mem_exec k c ms log ->
    perms_valid o (m_s ms) -> s_active (m_s ms) <> [] -> mem_step k c p o z2 ms = Ok ms' ->
    exact_log c (log ++ mem_evaluated ms') ->
    cell (s_energy (m_s ms)) m n = Some e ->
    exists e', cell (s_energy (m_s ms')) m n = Some e' /\ fleb e' e = true.
  Proof.
    intros k c p o z2 ms log ms' m n e NN H P Hne Hs EL He.
    pose proof (mem_exec_wf _ _ _ _ H) as W.
    destruct (cell_lt _ _ _ _ _ _ _ (w_e _ _ (mw_s _ _ W)) He) as [Hm Hn].
    assert (EL' : exact_log c log). { intros a b x y A1 A2. apply (EL a b); apply in_or_app; auto. }
    destruct (mem_exec_inv _ _ _ _ NN H EL' m n Hm Hn) as (y & B1 & B2 & B3 & B4).
    pose proof (mx_step _ _ _ _ _ _ _ _ H P Hne Hs) as H'.
    destruct (mem_step_ok _ _ _ _ _ _ _ W (perms_valid_ok _ _ P) Hne Hs) as (A1 & A2 & A3 & A4 & A5 & _).
    destruct (mem_exec_inv _ _ _ _ NN H' EL m n) as (y' & C1 & C2 & C3 & C4); try congruence.
    exists (c_f c y'). split; auto. rewrite B2 in He. inversion He; subst. apply C4. apply in_or_app; auto.
  Qed.

  (** best_energy of a run *)
  Definition be_inv (c : cfg) (ms : mst) (log : list (nat * nat * V)) : Prop :=
    forall m b, nth_error (s_be (m_s ms)) m = Some b -> b = PInf \/ exists n x, In (m, n, x) log /\ b = c_f c x.

  Lemma run_min : forall (c : cfg) ms log m e j v, no_nan c -> mwf c ms -> mem_inv c ms log ->
    nth_error (s_energy (m_s ms)) m = Some e -> argmin e = Ok (j, v) ->
    is_nan v = false /\ (exists n x, In (m, n, x) log /\ v = c_f c x) /\
    forall n x, n < s_N (m_s ms) -> In (m, n, x) log -> fleb v (c_f c x) = true.
  Proof.
    intros c ms log m e j v NN W I He Ha.
    assert (Hm : m < s_M (m_s ms)). { rewrite <- (proj1 (w_e _ _ (mw_s _ _ W))). eapply nth_error_lt; eauto. }
    assert (Hl : length e = s_N (m_s ms)) by (eapply (w_e _ _ (mw_s _ _ W)); eauto).
    assert (Hcell : forall n, cell (s_energy (m_s ms)) m n = nth_error e n) by (intros; unfold cell; rewrite He; auto).
    assert (Hnn : forall x, In x e -> is_nan x = false).
    { intros x Hx. apply In_nth_error in Hx. destruct Hx as [n Hn].
      destruct (I m n) as (y & _ & B2 & _); auto. { rewrite <- Hl. eapply nth_error_lt; eauto. }
      rewrite Hcell, Hn in B2. inversion B2. apply NN. }
    destruct (argmin_le _ _ _ Hnn Ha) as [Q1 Q2]. split; auto. split.
    - apply argmin_nth in Ha. destruct (I m j) as (y & _ & B2 & B3 & _); auto. { rewrite <- Hl. eapply nth_error_lt; eauto. }
      rewrite Hcell, Ha in B2. inversion B2. eauto.
    - intros n x Hn Hx. destruct (I m n) as (y & _ & B2 & B3 & B4); auto.
      rewrite Hcell in B2. eapply fleb_trans; [apply Q2; eapply nth_error_In; eauto|]. auto.
  Qed.

  Lemma log_lt : forall k (c : cfg) ms log m n x, mem_exec k c ms log -> In (m, n, x) log -> m < s_M (m_s ms) /\ n < s_N (m_s ms).
  Proof.
    intros k c ms log m n x H. induction H; intros Hin.
    - pose proof (mem_constructed_wf _ _ H) as [W Ry Rv]. apply mem_constructed_char in H.
      destruct H as (s & Hs & E1 & E2 & E3 & E4).
      assert (Rev : rect (s_M (m_s ms)) (s_N (m_s ms)) (m_ev ms)) by (rewrite E4, <- E2; auto).
      apply evaluated_full in Hin; auto. { eapply cell_lt; eauto. }
      left. rewrite E1. sst. eapply init_pidx; eauto.
    - pose proof (mem_exec_wf _ _ _ _ H) as W.
      destruct (mem_step_ok _ _ _ _ _ _ _ W (perms_valid_ok _ _ H0) H1 H2) as (A1 & A2 & A3 & A4 & A5 & A6 & A7 & A8 & _).
      assert (Ea : s_active (m_s ms) = seq 0 (s_M (m_s ms))) by (apply incr_full; auto; apply W).
      rewrite A4, A5. apply in_app_or in Hin. destruct Hin as [Hin|Hin]; auto.
      apply evaluated_full in Hin. { eapply cell_lt; eauto. } { rewrite A4, A5; auto. } rewrite A4, <- Ea. auto.
    - destruct (terminate_MN _ _ _ _ H0) as (A1 & A2 & _). cbn [m_s]. rewrite A1, A2. auto.
    - destruct (params_MN _ _ H0) as (A1 & A2 & _). cbn [m_s]. rewrite A1, A2. auto.
    - destruct (reset_MN (m_s ms)) as (A1 & A2 & _). cbn [m_s]. rewrite A1, A2. auto.
  Qed.

  Lemma step_be : forall k (c : cfg) p (o : orc) z2 ms log ms' m b, no_nan c -> mem_exec k c ms log ->
    perms_valid o (m_s ms) -> s_active (m_s ms) <> [] -> mem_step k c p o z2 ms = Ok ms' ->
    exact_log c (log ++ mem_evaluated ms') -> be_inv c ms log ->
    nth_error (s_be (m_s ms')) m = Some b ->
    (b = PInf \/ exists n x, In (m, n, x) (log ++ mem_evaluated ms') /\ b = c_f c x) /\
    forall n x, In (m, n, x) (log ++ mem_evaluated ms') -> fleb b (c_f c x) = true.
  Proof.
    intros k c p o z2 ms log ms' m b NN H P Hne Hs EL BI Hb.
    pose proof (mem_exec_wf _ _ _ _ H) as W.
    pose proof (mx_step _ _ _ _ _ _ _ _ H P Hne Hs) as H'. pose proof (mem_exec_wf _ _ _ _ H') as W'.
    pose proof (mem_exec_inv _ _ _ _ NN H' EL) as I'.
    destruct (mem_step_ok _ _ _ _ _ _ _ W (perms_valid_ok _ _ P) Hne Hs) as (A1 & A2 & A3 & A4 & A5 & A6 & A7 & A8 & A9 & A10 & A11 & A12).
    assert (Hm : m < s_M (m_s ms)). { rewrite <- A4. rewrite <- (w_be _ _ (mw_s _ _ W')). eapply nth_error_lt; eauto. }
    destruct (nth_error_lt_Some _ (s_energy (m_s ms')) m) as [e He]. { rewrite (proj1 (w_e _ _ (mw_s _ _ W'))), A4. auto. }
    destruct (nth_error_lt_Some _ (s_be (m_s ms)) m) as [b0 Hb0]. { rewrite (w_be _ _ (mw_s _ _ W)). auto. }
    destruct (nth_error_lt_Some _ (s_bp (m_s ms)) m) as [q Hq]. { rewrite (w_bp _ _ (mw_s _ _ W)). auto. }
    destruct (nth_error_lt_Some _ (match k with CBOMem => s_x (m_s ms') | Pso => s_x (m_s ms) end) m) as [xr Hxr].
    { destruct k. { rewrite (proj1 (w_x _ _ (mw_s _ _ W'))), A4; auto. } rewrite (proj1 (w_x _ _ (mw_s _ _ W))); auto. }
    destruct (A12 m e b0 q xr He Hb0 Hq Hxr) as (j & v & x0 & C1 & C2 & C3 & C4).
    destruct (run_min c ms' _ m e j v NN W' I' He C1) as (D1 & D2 & D3).
    rewrite Hb in C3. inversion C3 as [Eb]. clear C3.
    assert (N0 : is_nan b0 = false). { destruct (BI _ _ Hb0) as [->|(n & x & _ & ->)]; auto. }
    split.
    - destruct (fltb v b0); auto. destruct (BI _ _ Hb0) as [->|(n & x & D4 & ->)]; auto.
      right. exists n, x. split; auto. apply in_or_app; auto.
    - intros n x Hx. destruct (log_lt _ _ _ _ _ _ _ H' Hx) as [_ Hn]. specialize (D3 n x Hn Hx).
      destruct (fltb v b0) eqn:El; auto. apply fltb_false_fleb in El; auto. eapply fleb_trans; eauto.
  Qed.

  Theorem mem_exec_be : forall k (c : cfg) ms log, no_nan c -> mem_exec k c ms log -> exact_log c log -> be_inv c ms log.
  Proof.
    intros k c ms log NN H. induction H; intros EL.
    - apply mem_constructed_char in H. destruct H as (s & Hs & E1 & _).
      intros m b Hb. left. rewrite E1 in Hb. ssti Hb.
      destruct Hs as (x0 & ch & al & sg & la & dt & perm0 & names & extra & save & H1 & H2 & H3 & H4 & H5 & H).
      unfold init in H. apply bind_ok in H. destruct H as (bp & E & H). inversion H as [Hs].
      rewrite <- Hs in Hb. match type of Hb with context [init_history ?a ?b ?c ?d] => destruct (init_history_char a b c d) as (ts & h & E' & _); rewrite E' in Hb end.
      ssti Hb. rewrite nth_error_repeat in Hb. destruct (_ <? _); inversion Hb; auto.
    - assert (EL' : exact_log c log). { intros a d x y A1 A2. apply (EL a d); apply in_or_app; auto. }
      intros m b Hb. eapply step_be; eauto.
    - intros m b1 Hb. cbn [m_s] in Hb. destruct (terminate_MN _ _ _ _ H0) as (A1 & A2 & A3 & A4 & _). rewrite A4 in Hb. apply IHmem_exec; auto.
    - intros m b1 Hb. cbn [m_s] in Hb. destruct (params_MN _ _ H0) as (A1 & A2 & A3 & A4 & _). rewrite A4 in Hb. apply IHmem_exec; auto.
    - intros m b1 Hb. cbn [m_s] in Hb. destruct (reset_MN (m_s ms)) as (A1 & A2 & A3 & A4 & _). rewrite A4 in Hb. apply IHmem_exec; auto.
  Qed.

  Theorem memory_best_energy : forall k (c : cfg) p (o : orc) z2 ms log ms' m b, no_nan c -> mem_exec k c ms log ->
    perms_valid o (m_s ms) -> s_active (m_s ms) <> [] -> mem_step k c p o z2 ms = Ok ms' ->
    exact_log c (log ++ mem_evaluated ms') -> nth_error (s_be (m_s ms')) m = Some b ->
    (b = PInf \/ exists n x, In (m, n, x) (log ++ mem_evaluated ms') /\ b = c_f c x) /\
    forall n x, In (m, n, x) (log ++ mem_evaluated ms') -> fleb b (c_f c x) = true.
  Proof.
    intros. eapply step_be; eauto. eapply mem_exec_be; eauto.
    intros a d x y A1 A2. apply (H4 a d); apply in_or_app; auto.
  Qed.
End Memory.
