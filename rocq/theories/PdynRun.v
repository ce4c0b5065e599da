(** * The step of CBO, run by run: central characterisation *)

From Coq Require Import String List Arith Bool Lia.
From Verif Require Import Scalar Np NpFacts State Pdyn PdynFacts PdynStep.
Import ListNotations.
Open Scope nat_scope.
Open Scope list_scope.

Section Run.
  Context {K V : Type} {O : KOps K}.
  Notation F := (fl K).
  Notation st := (st K V).
  Notation cfg := (cfg K V).
  Notation orc := (orc V).

  (** the consensus callable returns one point per run (CBO) or one point per particle
      of the batch (PolarCBO, which then needs drift and consensus of the same width) *)
  Definition cc_shape (c : cfg) (N : nat) : Prop :=
    (forall e x a, length (c_ccrow c e x a) = 1) \/
    ((forall e x a, length (c_ccrow c e x a) = length x) /\ (c_partial c = true \/ c_bsize c = N)).

  Lemma run_selp_length : forall (c : cfg) (o : orc) s m, wf c s -> perm_ok o s -> m < s_M s ->
    (c_partial c = true \/ c_bsize c = s_N s) -> run_selp c o s m = run_sel c o s m.
  Proof.
    intros. unfold run_selp, run_sel. destruct (Nat.eqb_spec (c_bsize c) (s_N s)); auto.
    destruct H2 as [-> | E]; auto; congruence.
  Qed.

  Lemma row_at_Some : forall (c : cfg) s m, wf c s -> m < s_M s -> exists r, row_at s m = Some r /\
    nth_error (s_x s) m = Some (r_x r) /\ nth_error (s_energy s) m = Some (r_e r) /\
    nth_error (s_alpha s) m = Some (r_a r) /\ nth_error (s_be s) m = Some (r_be r) /\
    nth_error (s_bp s) m = Some (r_bp r) /\ nth_error (s_nfe s) m = Some (r_nfe r).
  Proof.
    intros c s m W Hm. unfold row_at.
    assert (L : forall A (l : list A), length l = s_M s -> exists a, nth_error l m = Some a).
    { intros. apply nth_error_lt_Some. lia. }
    destruct (L _ _ (proj1 (w_x _ _ W))) as [x ->].
    destruct (L _ _ (proj1 (w_e _ _ W))) as [e ->].
    destruct (L _ _ (proj1 (w_al _ _ W))) as [a ->].
    destruct (L _ _ (w_be _ _ W)) as [be ->].
    destruct (L _ _ (w_bp _ _ W)) as [bp ->].
    destruct (L _ _ (w_nfe _ _ W)) as [n ->].
    destruct (L _ _ (w_ud _ _ W)) as [ud ->].
    destruct (L _ _ (w_fmin _ _ W)) as [fm ->].
    eexists. split; [reflexivity|]. cbn. repeat split; auto.
  Qed.

  Lemma row_at_lt : forall (s : st) m r, row_at s m = Some r -> m < length (s_x s) /\
    nth_error (s_x s) m = Some (r_x r) /\ nth_error (s_energy s) m = Some (r_e r) /\
    nth_error (s_alpha s) m = Some (r_a r) /\ nth_error (s_be s) m = Some (r_be r) /\
    nth_error (s_bp s) m = Some (r_bp r) /\ nth_error (s_nfe s) m = Some (r_nfe r) /\
    nth_error (s_udiff s) m = Some (r_ud r) /\ nth_error (s_fmin s) m = Some (r_fmin r) /\
    nth_error (s_bce s) m = r_bce r /\ nth_error (s_bcp s) m = r_bcp r.
  Proof.
    unfold row_at; intros s m r H.
    destruct (nth_error (s_x s) m) eqn:E1; try discriminate.
    destruct (nth_error (s_energy s) m) eqn:E2; try discriminate.
    destruct (nth_error (s_alpha s) m) eqn:E3; try discriminate.
    destruct (nth_error (s_be s) m) eqn:E4; try discriminate.
    destruct (nth_error (s_bp s) m) eqn:E5; try discriminate.
    destruct (nth_error (s_nfe s) m) eqn:E6; try discriminate.
    destruct (nth_error (s_udiff s) m) eqn:E7; try discriminate.
    destruct (nth_error (s_fmin s) m) eqn:E8; try discriminate.
    inversion H; subst r; cbn. split; [eapply nth_error_lt; eauto|]. repeat split; auto.
  Qed.

  Lemma npoints_const : forall A (X : arr A) b, (forall k r, nth_error X k = Some r -> length r = b) ->
    npoints X = length X * b.
  Proof.
    induction X; intros; auto. unfold npoints in *.
    change (list_sum (map (@length A) (a :: X))) with (length a + list_sum (map (@length A) X)).
    rewrite IHX with (b := b).
    - rewrite (H 0 a eq_refl). cbn. lia.
    - intros. apply (H (S k)). auto.
  Qed.

  (** The whole step of CBO (no correction). *)
  Theorem step_char : forall (c : cfg) (o : orc) s,
    wf c s -> perm_ok o s -> cc_shape c (s_N s) -> c_corr c = NoCorr ->
    exists s', step c o s = Ok s' /\ wf c s' /\
      (s_M s' = s_M s /\ s_N s' = s_N s /\ s_alpha s' = s_alpha s /\ s_sigma s' = s_sigma s /\
       s_lamda s' = s_lamda s /\ s_dt s' = s_dt s /\ s_t s' = fadd (s_t s) (s_dt s) /\
       s_it s' = S (s_it s) /\ s_active s' = s_active s /\ s_reason s' = s_reason s /\
       s_save s' = s_save s /\ s_xold s' = Some (s_x s) /\
       s_fcalls s' = s_fcalls s + length (s_active s) * c_bsize c) /\
      (c_bsize c = s_N s -> s_ind s' = s_ind s) /\
      (c_bsize c <> s_N s -> forall m, m < s_M s ->
         nth_error (s_ind s') m = Some (skipn (c_bsize c) (ind_next c o s m))) /\
      (exists cp d, s_cons s' = Some cp /\ s_drift s' = Some d /\
       length cp = length (s_active s) /\ length d = length (s_active s) /\
       forall k m r, nth_error (s_active s) k = Some m -> row_at s m = Some r ->
         exists r1 cpr dr r', run_move c (s_lamda s) (s_dt s) (s_sigma s)
                           (run_sel c o s m) (run_selp c o s m) (o_z o k) r = Ok (r1, (cpr, dr)) /\
           nth_error cp k = Some cpr /\ nth_error d k = Some dr /\
           run_post c (r_x r) r1 = Ok r' /\ row_at s' m = Some r') /\
      (forall m r, ~ In m (s_active s) -> row_at s m = Some r ->
         exists r', run_post c (r_x r) r = Ok r' /\ row_at s' m = Some r') /\
      (exists xs, gather (s_cidx s') (s_x s) = Ok xs /\ length xs = length (s_active s) /\
         forall k m xr, nth_error (s_active s) k = Some m -> nth_error (s_x s) m = Some xr ->
           exists xb, nth_error xs k = Some xb /\ takeM xr (run_sel c o s m) = Ok xb) /\
      (c_savepts c = false -> s_cep s' = s_cep s) /\
      (c_savepts c = true -> s_cep s = None -> s_cep s' = Some (s_x s)) /\
      (c_savepts c = true -> forall p, s_cep s = Some p -> exists p', s_cep s' = Some p' /\
         (forall k m xr pr, nth_error (s_active s) k = Some m -> nth_error (s_x s) m = Some xr ->
            nth_error p m = Some pr -> exists xb pr', takeM xr (run_sel c o s m) = Ok xb /\
              put1 (run_sel c o s m) pr xb = Ok pr' /\ nth_error p' m = Some pr') /\
         (forall m, ~ In m (s_active s) -> nth_error p' m = nth_error p m)).
  Proof.
    intros c o s W P CS NC. unfold step.
    destruct (pre_step_char c o s W P) as (ci & pi & ind & Epre & Gc & Gp & Hsel & Hind1 & Hind2).
    rewrite Epre. cbn [bind]. clear Epre.
    set (s1 := set_pidx pi (set_cidx ci (set_ind ind (set_xold (Some (s_x s)) s)))).
    pose proof (incr_NoDup _ (w_act _ _ W)) as Hnd.
    assert (Hact : forall k, k < length (s_active s) -> exists m, nth_error (s_active s) k = Some m /\ m < s_M s).
    { intros k Hk. destruct (nth_error_lt_Some _ _ _ Hk) as [m Hm]. exists m. split; auto.
      apply W. eapply nth_error_In; eauto. }
    assert (Hsl : forall k, k < length (s_active s) -> length (sel ci k (s_N s)) = c_bsize c).
    { intros k Hk. destruct (Hact k Hk) as (m & E & Hm). rewrite (proj1 (Hsel _ _ E)).
      apply run_sel_length; auto. }
    destruct (compute_consensus_char c s1) as
      (cep' & en & cp & nb & xs & Ecc & Exs & Esv & Ren & Hcep & Lcp & Hnb & Hrow & Hinact);
      unfold s1 in *; sstall; auto; try apply W.
    { intros. rewrite !Hsl; auto. }
    assert (Hnb' : s_active s = [] \/ nb = c_bsize c).
    { destruct (s_active s) eqn:E; auto. right. rewrite (Hnb 0); [|cbn; lia]. apply Hsl. cbn; lia. }
    clear Hnb.
    destruct (save_points_char c s1 eq_refl) as (cep2 & Ecp2 & _ & V1 & V2 & V3);
      unfold s1 in *; sstall; auto; try apply W.
    assert (cep2 = cep') as ->. { rewrite Esv in Ecp2. inversion Ecp2. auto. } clear Ecp2 Esv.
    unfold cbo_step. rewrite Ecc. cbn [bind]. sst.
    destruct (gather_rows _ _ _ _ _ _ Gp (w_actlt _ _ W) (w_x _ _ W)) as (xp & Exp & Lxp & Hxp).
    rewrite Exp. cbn [bind].
    (* rows of the consensus have the right shape *)
    assert (Hcprow : forall k x y, nth_error xp k = Some x -> nth_error cp k = Some y ->
               length y = 1 \/ length y = length x).
    { intros k x y E1 E2.
      assert (Hk : k < length (s_active s)) by (rewrite <- Lxp; eapply nth_error_lt; eauto).
      destruct (Hact k Hk) as (m & Em & Hm).
      destruct (row_at_Some c s m W Hm) as (r & _ & Ex & Ee & Ea & _).
      destruct (w_al _ _ W) as [_ Wa]. pose proof (Wa _ _ Ea) as La.
      destruct (r_a r) as [|a [|]] eqn:Era; try discriminate.
      destruct (Hrow k m _ _ a Em Ex Ee Ea) as (xb & er' & T1 & T2 & T3 & T4 & T5).
      rewrite E2 in T5. inversion T5; subst y.
      destruct CS as [CS | [CS PS]]; [left; auto|right]. rewrite CS.
      rewrite (takeM_length _ _ _ _ T1).
      destruct (Hxp _ _ _ Em Ex) as (yr & Y1 & Y2). rewrite E1 in Y1. inversion Y1; subst yr.
      rewrite (takeM_length _ _ _ _ Y2).
      destruct (Hsel _ _ Em) as [S1 S2]. rewrite S1, S2. rewrite run_selp_length; auto. }
    rewrite bc2_rows; [|congruence|auto]. cbn [bind].
    set (d := map2 (rowop (c_vsub c)) xp cp).
    unfold correction. rewrite NC. cbn [bind]. sst.
    assert (Ld : length d = length (s_active s)). { unfold d. rewrite map2_length. lia. }
    destruct (update_char c o (s_active s) (s_M s) (s_N s) pi (s_x s) d xp (s_lamda s) (s_dt s) (s_sigma s)
                Gp Hnd (w_actlt _ _ W) (w_x _ _ W) Exp Ld) as (xp' & x' & E1 & E2 & Rx' & Hup & Hun).
    { intros k r xr E1 E2. unfold d in E1. rewrite map2_nth, E2 in E1.
      destruct (nth_error cp k) eqn:E3; inversion E1. apply rowop_length. eauto. }
    cbv zeta. rewrite E1. cbn [bind]. rewrite E2. cbn [bind]. clear E1 E2.
    match goal with |- context [post_step c ?q] => set (s2 := q) end.
    destruct (post_step_char c s2 (s_x s)) as (s' & Ep & R); unfold s2 in *; sstall; auto; try apply W.
    { discriminate. }
    destruct R as (X1 & X2 & X3 & X4 & X5 & X6 & X7 & X8 & X9 & X10 & X11 & X12 & X13 & X14 & X15 & X16 &
                   X17 & X18 & X19 & X20 & X21 & X22 & X23 & X24 & X25 & X26 & X27 & Rows).
    exists s'. split; [exact Ep|].
    assert (Hin : c_bsize c <> s_N s -> length ind = s_M s /\
         forall m, m < s_M s -> nth_error ind m = Some (skipn (c_bsize c) (ind_next c o s m))) by auto.
    split.
    { constructor; rewrite ?X6, ?X7; try (apply W).
      - rewrite X1. destruct Rx' as [A1 A2]. split. { rewrite map_length; auto. }
        intros k row. rewrite nth_error_map. destruct (nth_error x' k) eqn:E; cbn; intros H; inversion H.
        rewrite map_length. eauto.
      - rewrite X2; auto.
      - rewrite X3; apply W.
      - auto. - auto.
      - rewrite X4. unfold add_at. rewrite mapi_length. apply W.
      - auto. - auto.
      - rewrite X14. apply W.
      - rewrite X13. apply W.
      - intros m. rewrite X13. apply W.
      - intros Hb. rewrite X17. destruct (Hin Hb) as [L1 L2]. split; [auto|].
        destruct (ind_rows c o s W P Hb) as [_ Hir]. cbv zeta in Hir.
        split.
        + intros k row Ek.
          assert (Hk : k < s_M s) by (rewrite <- L1; eapply nth_error_lt; eauto).
          assert (H0 : 0 < s_M s) by lia.
          rewrite (L2 k Hk) in Ek. inversion Ek; subst row.
          pose proof (L2 0 H0) as E0. destruct ind as [|i0 ind']; cbn in E0; inversion E0; subst i0.
          cbn [shape1]. rewrite !skipn_length.
          destruct (Hir k Hk) as (_ & Lk & _). destruct (Hir 0 H0) as (_ & L0 & _). rewrite Lk, L0. auto.
        + intros k row j Ek Hj.
          assert (Hk : k < s_M s) by (rewrite <- L1; eapply nth_error_lt; eauto).
          rewrite (L2 k Hk) in Ek. inversion Ek; subst row.
          destruct (Hir k Hk) as (_ & _ & Lt). apply Lt.
          rewrite <- (firstn_skipn (c_bsize c)). apply in_or_app; auto.
      - rewrite X18. auto.
      - rewrite X19. apply W.
      - auto. }
    split.
    { rewrite X6, X7, X3, X8, X9, X10, X11, X12, X13, X14, X19, X22, X5. repeat split; auto.
      f_equal. rewrite npoints_const with (b := c_bsize c).
      - f_equal. clear - Exs Gc W. destruct (gather_rows _ _ _ _ _ _ Gc (w_actlt _ _ W) (w_x _ _ W)) as (Y & E & L & _).
        congruence.
      - intros k rr Ek. destruct (gather_rows _ _ _ _ _ _ Gc (w_actlt _ _ W) (w_x _ _ W)) as (Y & E & L & HY).
        rewrite Exs in E. inversion E; subst Y.
        assert (Hk : k < length (s_active s)) by (rewrite <- L; eapply nth_error_lt; eauto).
        destruct (Hact k Hk) as (m & Em & Hm).
        destruct (row_at_Some c s m W Hm) as (r & _ & Ex & _).
        destruct (HY _ _ _ Em Ex) as (yr & Y1 & Y2). rewrite Ek in Y1. inversion Y1; subst.
        rewrite (takeM_length _ _ _ _ Y2). auto. }
    split. { intros. rewrite X17. auto. }
    split. { intros Hb m Hm. rewrite X17. apply (proj2 (Hin Hb)); auto. }
    split; [|split].
    - exists cp, d. rewrite X20, X21. repeat (split; [auto|]).
      intros k m r Em Hr.
      assert (Hm : m < s_M s) by (apply W; eapply nth_error_In; eauto).
      destruct (row_at_lt _ _ _ Hr) as (_ & Ex & Ee & Ea & Ebe & Ebp & Enf & Eud & Efm & Ebce & Ebcp).
      destruct (w_al _ _ W) as [_ Wa]. pose proof (Wa _ _ Ea) as La.
      destruct (r_a r) as [|a [|]] eqn:Era; try discriminate.
      destruct (Hrow k m _ _ a Em Ex Ee Ea) as (xb & er' & T1 & T2 & T3 & T4 & T5).
      destruct (Hsel _ _ Em) as [S1 S2]. rewrite S1 in *. 
      destruct (Hxp _ _ _ Em Ex) as (xpr & Y1 & Y2). rewrite S2 in Y2.
      assert (Edk : nth_error d k = Some (rowop (c_vsub c) xpr (c_ccrow c (map (c_f c) xb) xb a))).
      { unfold d. rewrite map2_nth, Y1, T5. auto. }
      destruct (Hup _ _ _ _ Em Ex Edk) as (xpr' & xr' & U1 & U2 & U3 & U4).
      rewrite S2 in U1, U3. rewrite Y2 in U1. inversion U1; subst xpr'.
      unfold run_move. rewrite Era, T1. cbn [bind]. rewrite T2. cbn [bind]. rewrite Y2. cbn [bind].
      rewrite U3. cbn [bind].
      assert (Ha : In m (s_active s)) by (eapply nth_error_In; eauto).
      destruct Hnb' as [Hn | Hn]. { rewrite Hn in Ha. contradiction. }
      eexists _, _, _. 
      destruct (Rows m (mkrow xr' er' [a] (r_be r) (r_bp r) (r_nfe r + length (run_sel c o s m)) (r_ud r)
                     (r_fmin r) (r_bce r) (r_bcp r)) (r_x r)) as (r' & P1 & P2).
      { unfold row_at. sst. rewrite U4, T3, Ea, Ebe, Ebp, Eud, Efm, Ebce, Ebcp.
        rewrite add_at_nth, Enf. cbn [option_map].
        replace (existsb (Nat.eqb m) (s_active s)) with true by (symmetry; apply existsb_eqb; auto).
        rewrite run_sel_length, Hn; auto. }
      { auto. }
      exists r'. split; [reflexivity|]. split; [exact T5|]. split; [exact Edk|]. split; [|auto].
      exact P1.
    - intros m r Hm Hr.
      destruct (row_at_lt _ _ _ Hr) as (_ & Ex & Ee & Ea & Ebe & Ebp & Enf & Eud & Efm & Ebce & Ebcp).
      destruct (Rows m r (r_x r)) as (r' & P1 & P2); auto.
      { unfold row_at. sst. rewrite Hun, Hinact, Ex, Ee, Ea, Ebe, Ebp, Eud, Efm, Ebce, Ebcp by auto.
        rewrite add_at_nth, Enf. cbn [option_map].
        assert (existsb (Nat.eqb m) (s_active s) = false) as ->.
        { apply not_true_iff_false. rewrite existsb_eqb. auto. }
        destruct r; auto. }
      eauto.
    - rewrite X15, X18. split; [|split; [auto|split; [auto|]]].
      + exists xs. split; [auto|]. destruct (gather_rows _ _ _ _ _ _ Gc (w_actlt _ _ W) (w_x _ _ W)) as (Y & E & L & HY).
        rewrite Exs in E. inversion E; subst Y. split; [auto|].
        intros k m xr Em Ex. destruct (HY _ _ _ Em Ex) as (yr & Y1 & Y2).
        destruct (Hsel _ _ Em) as [S1 S2]. rewrite S1 in Y2. eauto.
      + intros Hsv p Hp. destruct (V3 Hsv p Hp) as (p' & A1 & A2 & A3). exists p'. split; [auto|]. split; [|auto].
        intros k m xr pr Em Ex Epr. destruct (Hsel _ _ Em) as [S1 S2]. rewrite <- S1. eauto.
  Qed.
End Run.
