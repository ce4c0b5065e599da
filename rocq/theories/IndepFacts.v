(** * Runs do not influence one another *)
From Coq Require Import String List Arith Bool Permutation Lia.
From Verif Require Import Scalar ScalarFacts Np NpFacts State Pdyn PdynFacts PdynStep PdynRun Exec PdynOk BestFacts TermSpec TermFacts RunFacts IndepSpec.
Import ListNotations.
Open Scope nat_scope.
Open Scope list_scope.

Section Indep.
  Context {K V : Type} {O : KOps K} {OL : KOrd K}.
  Notation F := (fl K).
  Notation st := (st K V).
  Notation cfg := (cfg K V).
  Notation orc := (orc V).

  Lemma mirrors_row : forall (s : st) m t, mirrors s m t -> row_at t 0 = row_at s m.
  Proof.
    intros s m t H. destruct H. unfold row_at.
    rewrite mi_x, mi_energy, mi_alpha, mi_be, mi_bp, mi_bce, mi_bcp, mi_nfe, mi_fmin, mi_udiff. auto.
  Qed.

  Lemma row_mirrors : forall (c : cfg) (s : st) m t r, wf c s -> wf c t -> s_M t = 1 -> s_N t = s_N s -> m < s_M s ->
    row_at s m = Some r -> row_at t 0 = Some r ->
    nth_error (s_ind t) 0 = nth_error (s_ind s) m ->
    (s_sigma t = s_sigma s /\ s_lamda t = s_lamda s /\ s_dt t = s_dt s) ->
    (s_t t = s_t s /\ s_it t = s_it s) -> mirrors s m t.
  Proof.
    intros c s m t r W Wt HM HN Hm Hr Ht Hi Hp Htm.
    destruct (row_at_lt _ _ _ Hr) as (_ & A1 & A2 & A3 & A4 & A5 & A6 & A7 & A8 & A9 & A10).
    destruct (row_at_lt _ _ _ Ht) as (_ & B1 & B2 & B3 & B4 & B5 & B6 & B7 & B8 & B9 & B10).
    constructor; auto; congruence.
  Qed.

  Lemma ind_mirror : forall (c : cfg) (s : st) m t (o o' : orc), wf c s -> wf c t -> mirrors s m t ->
    o_perm o' 0 = o_perm o m -> c_bsize c <> s_N s -> ind_next c o' t 0 = ind_next c o s m.
  Proof.
    intros c s m t o o' W Wt H Hp Hb. unfold ind_next.
    destruct (w_ind _ _ W Hb) as (A1 & A2 & _).
    assert (Hb' : c_bsize c <> s_N t) by (rewrite (mi_N _ _ _ H); auto).
    destruct (w_ind _ _ Wt Hb') as (B1 & B2 & _).
    pose proof (mi_ind _ _ _ H) as Hi. pose proof (mi_m _ _ _ H) as Hm.
    rewrite <- A1 in Hm. destruct (nth_error_lt_Some _ _ _ Hm) as [row Er]. rewrite Er in Hi.
    assert (shape1 (s_ind t) = shape1 (s_ind s)) as ->. { rewrite <- (A2 _ _ Er). symmetry. apply (B2 _ _ Hi). }
    assert (E1 : nth 0 (s_ind t) [] = row) by (apply nth_error_nth; auto).
    assert (E2 : nth m (s_ind s) [] = row) by (apply nth_error_nth; auto).
    rewrite E1, E2, Hp. auto.
  Qed.

  Lemma run_move_ext : forall (c : cfg) l d g sl slp z z' r, (forall n, z n = z' n) ->
    run_move c l d g sl slp z r = run_move c l d g sl slp z' r.
  Proof.
    intros. unfold run_move. destruct (r_a r) as [|a [|]]; auto.
    destruct (takeM (r_x r) sl); auto. cbn [bind]. destruct (put1 sl (r_e r) (map (c_f c) a0)); auto. cbn [bind].
    destruct (takeM (r_x r) slp) as [xp|]; auto. cbn [bind].
    assert (E : forall dd, mapi (fun n v => cbo_update c v l d g (c_noise c d v (z n))) dd =
                           mapi (fun n v => cbo_update c v l d g (c_noise c d v (z' n))) dd).
    { intros dd. unfold mapi. generalize 0. induction dd; intros; cbn; auto. rewrite H, IHdd. auto. }
    rewrite E. auto.
  Qed.

  Theorem step_mirrors : forall (c : cfg) (s : st) log m t logt k (o o' : orc),
    exec c s log -> exec c t logt -> plain c (s_N s) -> mirrors s m t ->
    nth_error (s_active s) k = Some m -> s_active t = [0] ->
    perms_valid o s -> o_perm o' 0 = o_perm o m -> (forall n, o_z o' 0 n = o_z o k n) ->
    exists s' t', step c o s = Ok s' /\ step c o' t = Ok t' /\ perms_valid o' t /\ mirrors s' m t' /\
      row_of (s_cons t') 0 = row_of (s_cons s') k /\ row_of (s_drift t') 0 = row_of (s_drift s') k.
  Proof.
    intros c s log m t logt k o o' E Et G H Hk Ht P Hp Hz.
    pose proof (exec_wf _ _ _ E) as W. pose proof (exec_wf _ _ _ Et) as Wt.
    assert (P' : perms_valid o' t).
    { intros j Hj. rewrite (mi_M _ _ _ H) in Hj. assert (j = 0) by lia. subst j. rewrite Hp, (mi_N _ _ _ H).
      apply P. apply H. }
    destruct G as [G1 G2].
    assert (G1' : cc_shape c (s_N t)) by (rewrite (mi_N _ _ _ H); exact G1).
    destruct (step_char c o s W (perms_valid_ok _ _ P) G1 G2) as
      (s' & HS & W' & (M1 & N1 & Al1 & Sg1 & La1 & D1 & T1 & I1 & _) & Hi1 & Hi2 & (cp & d & Ec & Ed & _ & _ & Hact) & _).
    destruct (step_char c o' t Wt (perms_valid_ok _ _ P') G1' G2) as
      (t' & HSt & Wt' & (M1' & N1' & Al1' & Sg1' & La1' & D1' & T1' & I1' & _) & Hi1' & Hi2' & (cp' & d' & Ec' & Ed' & _ & _ & Hact') & _).
    exists s', t'. split; auto. split; auto. split; auto.
    pose proof (mirrors_row _ _ _ H) as Hr.
    pose proof (mi_m _ _ _ H) as Hm.
    destruct (row_at_Some c s m W Hm) as (r & Er & _).
    destruct (Hact _ _ _ Hk Er) as (r1 & cpr & dr & r' & Q1 & Q2 & Q3 & Q4 & Q5).
    rewrite Er in Hr.
    assert (Hk0 : nth_error (s_active t) 0 = Some 0) by (rewrite Ht; auto).
    destruct (Hact' _ _ _ Hk0 Hr) as (r1' & cpr' & dr' & r'' & Q1' & Q2' & Q3' & Q4' & Q5').
    destruct (mi_par _ _ _ H) as (Pa1 & Pa2 & Pa3). destruct (mi_time _ _ _ H) as (Tm1 & Tm2).
    assert (Hsel : run_sel c o' t 0 = run_sel c o s m /\ run_selp c o' t 0 = run_selp c o s m).
    { unfold run_sel, run_selp. rewrite (mi_N _ _ _ H). destruct (c_bsize c =? s_N s) eqn:Eb; auto.
      apply Nat.eqb_neq in Eb. rewrite (ind_mirror c s m t o o'); auto. }
    destruct Hsel as [Hs1 Hs2]. rewrite Hs1, Hs2, Pa1, Pa2, Pa3, (run_move_ext c _ _ _ _ _ _ (o_z o k) r Hz), Q1 in Q1'.
    inversion Q1'; subst r1' cpr' dr'. rewrite Q4 in Q4'. inversion Q4'; subst r''.
    split; [|rewrite Ec, Ec', Ed, Ed'; cbn [row_of]; split; congruence].
    apply (row_mirrors c s' m t' r'); auto; try congruence.
    - rewrite M1'. apply H.
    - rewrite N1', N1. apply H.
    - destruct (Nat.eq_dec (c_bsize c) (s_N s)) as [Hb|Hb].
      + rewrite (Hi1 Hb), Hi1'. apply H. rewrite (mi_N _ _ _ H); auto.
      + rewrite (Hi2 Hb m Hm), Hi2'; [|rewrite (mi_N _ _ _ H); auto | rewrite (mi_M _ _ _ H); lia].
        rewrite (ind_mirror c s m t o o'); auto.
    - rewrite Sg1', La1', D1', Sg1, La1, D1; auto.
    - rewrite T1', I1', T1, I1, Tm1, Tm2, Pa3. auto.
  Qed.

  (** criteria depend on the data of the run only *)
  Lemma holds_mirror : forall (c : cfg) s m t k, mirrors s m t -> builtin k -> holds c t k 0 = holds c s k m.
  Proof.
    intros c s m t k H B. destruct H. destruct k as [| | |[]| |]; cbn in *; try contradiction;
      rewrite ?mi_fmin, ?mi_udiff, ?mi_nfe; auto; destruct mi_time as [E1 E2]; rewrite ?E1, ?E2; auto.
  Qed.

  Lemma meets_mirror : forall (c : cfg) s m t, mirrors s m t -> Forall builtin (c_crit c) ->
    meets_some c t 0 = meets_some c s m.
  Proof.
    intros c s m t H B. unfold meets_some. induction B; cbn; auto. rewrite (holds_mirror c s m t x); auto. congruence.
  Qed.

  Lemma term_mirrors : forall (c : cfg) s m t b s' bt t', mirrors s m t ->
    terminate c s = Ok (b, s') -> terminate c t = Ok (bt, t') -> mirrors s' m t'.
  Proof.
    intros c s m t b s' bt t' H H1 H2. apply terminate_char in H1, H2.
    destruct H1 as (a1 & r1 & -> & _). destruct H2 as (a2 & r2 & -> & _). destruct H.
    destruct s, t. constructor; cbn in *; auto.
  Qed.

  Theorem term_agrees : forall (c : cfg) s log m t logt b s2 bt t2,
    exec c s log -> exec c t logt -> mirrors s m t -> Forall builtin (c_crit c) ->
    terminate c s = Ok (b, s2) -> terminate c t = Ok (bt, t2) ->
    mirrors s2 m t2 /\ (In m (s_active s2) <-> s_active t2 = [0]) /\ (~ In m (s_active s2) <-> s_active t2 = []) /\
    (bt = true <-> ~ In m (s_active s2)).
  Proof.
    intros c s log m t logt b s2 bt t2 E Et H B H1 H2. split; [eapply term_mirrors; eauto|].
    pose proof (in_active_spec c s b s2 m (exec_wf _ _ _ E) H1) as A.
    destruct (terminate_spec c t bt t2 (exec_wf _ _ _ Et) H2) as (A2 & A3 & _).
    rewrite (mi_M _ _ _ H) in *. cbn [seq filter] in A2. rewrite (meets_mirror c s m t) in A2; auto.
    pose proof (mi_m _ _ _ H).
    assert (A3' : bt = true <-> meets_some c s m = true).
    { rewrite A3. rewrite <- (meets_mirror c s m t); auto. split; intros HH; [apply HH; lia|].
      intros j Hj. assert (j = 0) by lia. subst; auto. }
    destruct (meets_some c s m) eqn:Em; cbn in A2; rewrite A2, A, A3'.
    - split; [split; [intros [_ X]; discriminate | discriminate]|]. split; split; auto; intros _ [_ X]; discriminate.
    - split; [tauto|]. split; [split; [tauto|discriminate]|]. split; [discriminate|]. intros X. exfalso. apply X; auto.
  Qed.

  (** construction *)
  Lemma nth_repeat : forall A (a : A) n m, m < n -> nth_error (repeat a n) m = Some a.
  Proof. intros A a n. induction n; intros [|m] H; cbn; auto; try lia. apply IHn. lia. Qed.

  Theorem init_mirrors : forall (c : cfg) x0 row m chk al sg la dt perm0 perm1 names extra save s t,
    is_array (length x0) (shape1 x0) x0 -> nth_error x0 m = Some row -> perm1 0 = perm0 m ->
    init c x0 chk al sg la dt perm0 names extra save = Ok s ->
    init c [row] chk al sg la dt perm1 names extra save = Ok t ->
    mirrors s m t /\ s_active t = [0] /\ In m (s_active s).
  Proof.
    intros c x0 row m chk al sg la dt perm0 perm1 names extra save s t [_ HA] Hrow Hperm H1 H2.
    assert (Hm : m < length x0) by (eapply nth_error_lt; eauto).
    assert (HN : shape1 [row] = shape1 x0).
    { cbn. rewrite Forall_forall in HA. apply HA. eapply nth_error_In; eauto. }
    unfold init in H1, H2. apply bind_ok in H1, H2. destruct H1 as (bp & B1 & H1). destruct H2 as (bpt & B2 & H2).
    injection H1 as E1. injection H2 as E2.
    match type of E1 with init_history _ _ _ ?s1 = _ => destruct (init_history_char names extra save s1) as (ts & h & E & _ & _) end.
    rewrite E in E1. clear E. rewrite <- E1. clear E1 s.
    match type of E2 with init_history _ _ _ ?s1 = _ => destruct (init_history_char names extra save s1) as (ts2 & h2 & E & _ & _) end.
    rewrite E in E2. clear E. rewrite <- E2. clear E2 t.
    split; [|split].
    - constructor; sst; rewrite ?HN; auto; try (cbn; cbn in HN; rewrite ?HN, ?nth_repeat by lia; reflexivity).
      + destruct (mapM_nth _ _ _ _ _ _ _ B1 Hrow) as (b1 & X1 & X2).
        assert (Hrow' : nth_error [row] 0 = Some row) by auto.
        destruct (mapM_nth _ _ _ _ _ _ _ B2 Hrow') as (b2 & Y1 & Y2). cbv beta in *. congruence.
      + destruct m; auto.
      + cbn in HN. rewrite HN. destruct (c_bsize c =? shape1 x0). { destruct m; auto. }
        rewrite !nth_error_map, nth_error_seq. rewrite (proj2 (Nat.ltb_lt _ _) Hm). cbn. congruence.
    - sst. reflexivity.
    - sst. apply in_seq. lia.
  Qed.

  (** whole optimisations *)
  Theorem loop_mirrors : forall (A : KAddMono K) (c : cfg) sched s log m t logt n s',
    exec c s log -> exec c t logt -> mirrors s m t ->
    no_nan c -> plain c (s_N s) ->
    (forall v, c_pp c (c_pp c v) = c_pp c v) ->
    (forall row, c_norm c (map2 (c_vsub c) row row) = Fin k0) ->
    Forall positive_tol (c_crit c) ->
    param_sched sched -> runwise_sched sched -> (forall q q', sched q = Ok q' -> nonneg_dt q') -> nonneg_dt s ->
    loop c sched s n s' ->
    (exists t', loop c sched t n t' /\ mirrors s' m t') \/
    (exists n' t' t2, n' < n /\ loop c sched t n' t' /\ terminate c t' = Ok (true, t2) /\ same_result c s' m t').
  Proof.
    intros A c sched s log m t logt n s' E Et H NN G Hpp Hnorm Htol PS RS Hsd Hdt L.
    assert (HB : Forall builtin (c_crit c)).
    { eapply Forall_impl; [|exact Htol]. intros k Hk. destruct k; cbn in *; auto. }
    enough (Q : (exists t', loop c sched t n t' /\ mirrors s' m t') \/
      (exists n' t' t2 q n1 b1 a1, n' < n /\ loop c sched t n' t' /\ terminate c t' = Ok (true, t2) /\
         loop c sched s n' q /\ loop c sched q n1 s' /\ 
         terminate c q = Ok (b1, a1) /\ ~ In m (s_active a1) /\ same_result c s' m t')).
    { destruct Q as [Q|(n' & t' & t2 & q & n1 & b1 & a1 & Q1 & Q2 & Q3 & _ & _ & _ & _ & Q4)]; eauto 10. }
    induction L.
    - left. exists t. split; auto. constructor.
    - destruct (loop_exec _ _ _ _ _ _ E PS L) as (log1 & E1 & M1 & N1).
      assert (G1 : plain c (s_N s1)) by (rewrite N1; auto).
      pose proof (ex_term c _ _ _ _ E1 H0) as E2.
      destruct (term_frame _ _ _ _ H0) as (F1 & F2 & _).
      assert (G2 : plain c (s_N s2)) by (rewrite F2; auto).
      destruct IHL as [(t1 & Lt & Hmi) | (n' & t' & t2 & q & n1 & b1 & a1 & Q1 & Q2 & Q3 & Q4 & Q5 & Q6 & Q7 & Q8)].
      + destruct (loop_exec _ _ _ _ _ _ Et PS Lt) as (logt1 & Et1 & Mt1 & Nt1).
        destruct (terminate_total c t1 (exec_wf _ _ _ Et1) HB) as (bt & t2 & HTt).
        destruct (term_agrees c s1 log1 m t1 logt1 _ _ _ _ E1 Et1 Hmi HB H0 HTt) as (Hmi2 & Ha & Hna & Hbt).
        destruct (in_dec Nat.eq_dec m (s_active s2)) as [Hi|Hi].
        * left. destruct (In_nth_error _ _ Hi) as [k Hk].
          destruct (step_mirrors c s2 _ m t2 _ k o {| o_z := fun _ => o_z o k; o_perm := fun _ => o_perm o m |} E2
                      (ex_term c _ _ _ _ Et1 HTt) G2 Hmi2 Hk (proj1 Ha Hi) H1 eq_refl (fun n => eq_refl))
            as (s3' & t3 & S1 & S2 & P' & Hmi3 & _).
          assert (s3' = s3) by congruence. subst s3'.
          destruct (RS _ _ _ _ Hmi3 H3) as (t4 & S4 & Hmi4).
          exists t4. split; auto. eapply loop_iter; eauto.
          destruct bt; auto. exfalso. apply Hbt; auto.
        * right. assert (bt = true) by (apply Hbt; auto). subst bt.
          pose proof (frozen_step c s2 _ o s3 m E2 NN G2 H1 H2) as Hf. rewrite F1 in Hf.
          specialize (Hf (mi_m _ _ _ Hmi) Hi). destruct Hf as (X1 & X2 & X3 & X4 & X5 & _).
          exists n, t1, t2, s1, 1, false, s2. split; [lia|]. split; auto. split; auto. split; auto.
          split. { eapply loop_iter; [apply loop_start| eauto ..]. }
          split; auto. split; auto.
          clear - X1 X2 X3 X4 X5 Hmi H3 H0 Hpp PS.
          pose proof (PS _ _ H3) as PC. destruct PC as (al & sg & la & d & _ & ->).
          destruct Hmi. unfold same_result. sst.
          apply terminate_char in H0. destruct H0 as (act & re & -> & _). ssti X1. ssti X2. ssti X3. ssti X4. ssti X5.
          rewrite X1, X2, X3, X4, X5, <- mi_x. repeat split; auto.
          destruct (nth_error (s_x t1) 0); cbn; auto. rewrite map_map. f_equal. apply map_ext. auto.
      + right. exists n', t', t2, q, (S n1), b1, a1.
        assert (Lq : loop c sched q (S n1) s4) by (eapply loop_iter; eauto).
        assert (Hni : ~ In m (s_active s2)).
        { intros Hi. apply Q7. destruct (loop_exec _ _ _ _ _ _ E PS Q4) as (logq & Eq & Mq & Nq).
          eapply (active_shrinks A c sched q logq 0 n1 q s1 b1 false a1 s2); eauto; try (rewrite ?Nq; auto).
          - eapply (loop_dt c sched s); eauto.
          - constructor. }
        split; [lia|]. split; auto. split; auto. split; auto. split; auto. split; auto. split; auto.
        pose proof (frozen_step c s2 _ o s3 m E2 NN G2 H1 H2) as Hf. rewrite F1, M1 in Hf.
        specialize (Hf (mi_m _ _ _ H) Hni). destruct Hf as (X1 & X2 & X3 & X4 & X5 & _).
        pose proof (PS _ _ H3) as PC. destruct PC as (al & sg & la & d & _ & ->).
        unfold same_result in *. sst.
        apply terminate_char in H0. destruct H0 as (act & re & -> & _). ssti X1. ssti X2. ssti X3. ssti X4. ssti X5.
        destruct Q8 as (Y1 & Y2 & Y3 & Y4 & Y5).
        rewrite X1, X2, X3, X4, X5. repeat split; auto.
        rewrite Y1. destruct (nth_error (s_x s1) m); cbn; auto. rewrite map_map. f_equal. apply map_ext. auto.
  Qed.
End Indep.
