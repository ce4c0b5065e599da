(** * Runs of the variants do not influence one another while all are active *)
From Coq Require Import String List Arith Bool Permutation Lia.
From Verif Require Import Scalar ScalarFacts Np NpFacts State Pdyn PdynFacts PdynStep PdynRun PdynOk Exec BcFacts BestFacts StepFrame
  Memory MemSpec MemFacts MemFacts2 MemFacts3 MemMove RegSched Variant VarSpec VarFacts VarMove RegVar VarExactSpec VarExact AdamFacts IndepSpec IndepFacts VarIndepSpec.
Import ListNotations.
Open Scope nat_scope.
Open Scope list_scope.

Section VarIndep.
  Context {K V : Type} {O : KOps K}.
  Notation F := (fl K).
  Notation st := (st K V).
  Notation cfg := (cfg K V).
  Notation orc := (orc V).

  Lemma tw_ind_next : forall (c : cfg) (s : st) m t (o o' : orc) k, wf c s -> wf c t -> twins s m t ->
    same_draws k m o o' -> c_bsize c <> s_N s -> ind_next c o' t 0 = ind_next c o s m.
  Proof.
    intros c s m t o o' k W Wt H [Hp _] Hb. unfold ind_next.
    destruct (w_ind _ _ W Hb) as (A1 & A2 & _).
    assert (Hb' : c_bsize c <> s_N t) by (rewrite (tw_N _ _ _ H); auto).
    destruct (w_ind _ _ Wt Hb') as (B1 & B2 & _).
    pose proof (tw_ind _ _ _ H) as Hi. pose proof (tw_m _ _ _ H) as Hm.
    rewrite <- A1 in Hm. destruct (nth_error_lt_Some _ _ _ Hm) as [row Er]. rewrite Er in Hi.
    assert (shape1 (s_ind t) = shape1 (s_ind s)) as ->. { rewrite <- (A2 _ _ Er). symmetry. apply (B2 _ _ Hi). }
    assert (E1 : nth 0 (s_ind t) [] = row) by (apply nth_error_nth; auto).
    assert (E2 : nth m (s_ind s) [] = row) by (apply nth_error_nth; auto).
    rewrite E1, E2, Hp. auto.
  Qed.

  Lemma tw_sel : forall (c : cfg) (s : st) m t (o o' : orc) k, wf c s -> wf c t -> twins s m t ->
    same_draws k m o o' -> run_sel c o' t 0 = run_sel c o s m /\ run_selp c o' t 0 = run_selp c o s m.
  Proof.
    intros c s m t o o' k W Wt H D. unfold run_sel, run_selp. rewrite (tw_N _ _ _ H).
    destruct (c_bsize c =? s_N s) eqn:Eb; auto. apply Nat.eqb_neq in Eb. rewrite (tw_ind_next c s m t o o' k); auto.
  Qed.

  Lemma tw_perms : forall (s : st) m t (o o' : orc) k, twins s m t -> same_draws k m o o' -> perms_valid o s -> perms_valid o' t.
  Proof.
    intros s m t o o' k H [Hp _] P j Hj. rewrite (tw_M _ _ _ H) in Hj. assert (j = 0) by lia. subst j.
    rewrite Hp, (tw_N _ _ _ H). apply P. apply H.
  Qed.

  Lemma tw_own : forall (c : cfg) (s : st) m t (o o' : orc) k cp cp', wf c s -> wf c t -> twins s m t -> same_draws k m o o' ->
    own_consensus c o s m cp -> own_consensus c o' t 0 cp' -> cp' = cp.
  Proof.
    intros c s m t o o' k cp cp' W Wt H D (xr & a & xb & A1 & A2 & A3 & A4) (xr' & a' & xb' & B1 & B2 & B3 & B4).
    rewrite (tw_x _ _ _ H), A1 in B1. injection B1 as <-. rewrite (tw_alpha _ _ _ H), A2 in B2. injection B2 as <-.
    rewrite (proj1 (tw_sel c s m t o o' k W Wt H D)), A3 in B3. injection B3 as <-. rewrite A4 in B4. injection B4 as <-. reflexivity.
  Qed.

  Lemma tw_cell : forall (s : st) m t n, twins s m t -> cell (s_x t) 0 n = cell (s_x s) m n.
  Proof. intros s m t n H. unfold cell. rewrite (tw_x _ _ _ H). reflexivity. Qed.

  (** rows of the same length with the same cells *)
  Lemma rows_eq : forall A M N (X : arr A) M' X' m m', rect M N X -> rect M' N X' -> m < M -> m' < M' ->
    (forall n, n < N -> cell X' m' n = cell X m n) -> nth_error X' m' = nth_error X m.
  Proof.
    intros A M N X M' X' m m' R R' Hm Hm' H.
    destruct (nth_error_lt_Some _ X m) as [r Er]. { rewrite (proj1 R); auto. }
    destruct (nth_error_lt_Some _ X' m') as [r' Er']. { rewrite (proj1 R'); auto. }
    rewrite Er, Er'. f_equal. pose proof (proj2 R _ _ Er) as L. pose proof (proj2 R' _ _ Er') as L'.
    apply nth_error_ext. intros n. destruct (Nat.lt_ge_cases n N) as [Hn|Hn].
    - specialize (H n Hn). unfold cell in H. rewrite Er, Er' in H. exact H.
    - rewrite !(proj2 (nth_error_None _ _)); auto; lia.
  Qed.

  (** what a step does to the batch indices *)
  Lemma regular_ind : forall E (inner : cfg -> orc -> st -> E -> res (st * E)) Q G, regular inner Q G ->
    forall (c : cfg) o s e s' e', G c -> wf c s -> perm_ok o s -> s_active s <> [] -> Q (s_M s) (s_N s) e ->
    vstep inner c o (s, e) = Ok (s', e') ->
    (c_bsize c = s_N s -> s_ind s' = s_ind s) /\
    (c_bsize c <> s_N s -> forall m, m < s_M s -> nth_error (s_ind s') m = Some (skipn (c_bsize c) (ind_next c o s m))).
  Proof.
    intros E inner Q G REG c o s e s' e' HG W P HA HQ HS.
    apply vstep_inv in HS. destruct HS as (s0 & s2 & E1 & E2 & E3).
    destruct (pre_cons_full c o s W P) as (s0' & sc & ci & pi & cps & CO).
    rewrite (co_pre _ _ _ _ _ _ _ _ CO) in E1. injection E1 as ->.
    destruct (REG c o s s0 sc ci pi cps e s2 e' HG W P HA CO HQ E2) as (x' & d & fc & nf & -> & _).
    destruct (pre_step_char c o s W P) as (ci' & pi' & ind & Epre & _ & _ & _ & I1 & I2).
    rewrite (co_pre _ _ _ _ _ _ _ _ CO) in Epre. injection Epre as ->.
    pose proof (co_cons _ _ _ _ _ _ _ _ CO) as EC. apply compute_consensus_frame in EC. destruct EC as (cep & en & cp' & fc' & nf' & ->).
    apply post_step_frame in E3. destruct E3 as (x2 & ud & fm & bcp & bce & be & bp & s5 & Et & ->).
    apply track_frame in Et. destruct Et as (ti & ts & h & ->). sst.
    split. { intros; apply I1; auto. } intros Hb. apply (I2 Hb).
  Qed.

  Section Generic.
    Context {E : Type} (inner : cfg -> orc -> st -> E -> res (st * E)) (attr : st -> E)
      (Q : nat -> nat -> E -> Prop) (G : cfg -> Prop) (RE : E -> nat -> E -> Prop) (A : st -> Prop).
    Hypothesis REG : regular inner Q G.
    Hypothesis QA : forall (c : cfg) (s : st), wf c s -> Q (s_M s) (s_N s) (attr s).
    Hypothesis AA : forall s s' : st, s_active s' = s_active s -> s_M s' = s_M s -> A s -> A s'.

    Definition local_move : Prop := forall (c : cfg) n s e log n' t e' logt m k o o' s1 e1 t1 e1', G c ->
      vexec inner attr c n (s, e) log -> vexec inner attr c n' (t, e') logt -> A s -> s_active t = [0] ->
      twins s m t -> RE e m e' -> nth_error (s_active s) k = Some m -> same_draws k m o o' -> perms_valid o s -> perms_valid o' t ->
      vstep inner c o (s, e) = Ok (s1, e1) -> vstep inner c o' (t, e') = Ok (t1, e1') ->
      (forall i, i < s_N s -> cell (s_x t1) 0 i = cell (s_x s1) m i) /\ RE e1 m e1'.
    Hypothesis LOC : local_move.

    Lemma vstep_twins : forall (c : cfg) n s e log n' t e' logt m k o o' s1 e1 t1 e1', G c ->
      vexec inner attr c n (s, e) log -> vexec inner attr c n' (t, e') logt -> A s -> s_active t = [0] ->
      twins s m t -> RE e m e' -> nth_error (s_active s) k = Some m -> same_draws k m o o' -> perms_valid o s ->
      vstep inner c o (s, e) = Ok (s1, e1) -> vstep inner c o' (t, e') = Ok (t1, e1') ->
      twins s1 m t1 /\ RE e1 m e1' /\ s_active s1 = s_active s /\ s_active t1 = [0] /\ s_M s1 = s_M s /\ s_N s1 = s_N s.
    Proof.
      intros c n s e log n' t e' logt m k o o' s1 e1 t1 e1' HG Hs Ht HA Hact T R Hk D P H1 H2.
      pose proof (tw_perms _ _ _ _ _ _ T D P) as P'.
      destruct (LOC _ _ _ _ _ _ _ _ _ _ _ _ _ _ _ _ _ HG Hs Ht HA Hact T R Hk D P P' H1 H2) as [HX RE1].
      destruct (vexec_inv _ _ _ _ REG QA c _ _ _ _ HG Hs) as [W HQ]. destruct (vexec_inv _ _ _ _ REG QA c _ _ _ _ HG Ht) as [Wt HQt].
      assert (N1 : s_active s <> []) by (intros Z; rewrite Z in Hk; destruct k; discriminate).
      assert (N2 : s_active t <> []) by (rewrite Hact; discriminate).
      destruct (vstep_good _ _ _ REG c o s e s1 e1 HG W (perms_valid_ok _ _ P) N1 HQ H1) as [G1 _].
      destruct (vstep_good _ _ _ REG c o' t e' t1 e1' HG Wt (perms_valid_ok _ _ P') N2 HQt H2) as [G2 _].
      destruct (regular_ind _ _ _ _ REG c o s e s1 e1 HG W (perms_valid_ok _ _ P) N1 HQ H1) as [I1 I2].
      destruct (regular_ind _ _ _ _ REG c o' t e' t1 e1' HG Wt (perms_valid_ok _ _ P') N2 HQt H2) as [J1 J2].
      destruct (tw_sel c s m t o o' k W Wt T D) as [S1 _].
      destruct G1 as (W1 & (A1 & A2 & A3 & A4 & A5 & A6 & A7 & A8 & A9 & _) & _ & Row).
      destruct G2 as (Wt1 & (B1 & B2 & B3 & B4 & B5 & B6 & B7 & B8 & B9 & _) & _ & Rowt).
      pose proof (tw_m _ _ _ T) as Hm. pose proof (tw_M _ _ _ T) as HM. pose proof (tw_N _ _ _ T) as HN.
      destruct (row_at_Some c s m W Hm) as (r & Er & _).
      destruct (row_at_Some c t 0 Wt ltac:(lia)) as (rt & Ert & _).
      destruct (row_at_lt _ _ _ Er) as (_ & C1 & C2 & C3 & C4 & C5 & C6 & C7 & C8 & C9 & C10).
      destruct (row_at_lt _ _ _ Ert) as (_ & D1 & D2 & D3 & D4 & D5 & D6 & D7 & D8 & D9 & D10).
      assert (Exx : nth_error (s_x t1) 0 = nth_error (s_x s1) m).
      { apply (rows_eq _ (s_M s1) (s_N s1) (s_x s1) (s_M t1) (s_x t1)); try lia. apply W1.
        rewrite A2, <- HN, <- B2. apply Wt1. intros i Hi. apply HX. lia. }
      destruct (Row _ _ Er) as (xr & er & nf & r' & Q1 & _ & Q2 & Q3). destruct (Rowt _ _ Ert) as (xt & et & nft & rt' & U1 & _ & U2 & U3).
      destruct (Q1 (nth_error_In _ _ Hk)) as (xb & V1 & V2). destruct (U1 ltac:(rewrite Hact; left; auto)) as (xbt & Y1 & Y2).
      rewrite (tw_x _ _ _ T), C1 in D1. injection D1 as D1. rewrite (tw_energy _ _ _ T), C2 in D2. injection D2 as D2.
      rewrite (tw_be _ _ _ T), C4 in D4. injection D4 as D4. rewrite (tw_bp _ _ _ T), C5 in D5. injection D5 as D5.
      rewrite S1, <- D1, V1 in Y1. injection Y1 as <-. rewrite S1, <- D2, V2 in Y2. injection Y2 as <-.
      destruct (row_at_lt _ _ _ Q3) as (_ & F1 & F2 & F3 & F4 & F5 & F6 & F7 & F8 & F9 & F10).
      destruct (row_at_lt _ _ _ U3) as (_ & K1 & K2 & K3 & K4 & K5 & K6 & K7 & K8 & K9 & K10).
      unfold run_post in Q2, U2. cbn [r_x r_e r_a r_be r_bp r_nfe] in Q2, U2. rewrite <- D1, <- D4, <- D5 in U2.
      destruct (argmin er) as [am|]; [|discriminate]. cbn [bind] in Q2, U2.
      destruct (take1 (r_x r) (fst am)) as [p|]; [|discriminate]. cbn [bind] in Q2, U2.
      destruct (take1 er (fst am)) as [ev|]; [|discriminate]. cbn [bind] in Q2, U2.
      injection Q2 as <-. injection U2 as <-. cbn [r_x r_e r_a r_be r_bp r_nfe r_ud r_fmin r_bce r_bcp] in *.
      assert (Ex2 : map (c_pp c) xt = map (c_pp c) xr) by congruence.
      split; [|repeat split; auto; congruence].
      destruct (tw_par _ _ _ T) as (Pa1 & Pa2 & Pa3). destruct (tw_time _ _ _ T) as (Tm1 & Tm2).
      constructor; try congruence; try lia.
      - rewrite B3, A3. apply T.
      - destruct (Nat.eq_dec (c_bsize c) (s_N s)) as [Hb|Hb].
        + rewrite (I1 Hb), J1 by congruence. apply T.
        + rewrite (I2 Hb m Hm), J2 by (congruence || lia). rewrite (tw_ind_next c s m t o o' k); auto.
      - repeat split; congruence.
      - split; congruence.
    Qed.

    Theorem vsteps_twins : forall (c : cfg) k m os os' n s e log n' t e' logt s1 e1 t1 e1', G c ->
      vexec inner attr c n (s, e) log -> vexec inner attr c n' (t, e') logt -> A s -> s_active t = [0] ->
      twins s m t -> RE e m e' -> nth_error (s_active s) k = Some m -> Forall2 (same_draws k m) os os' -> Forall (fun o => perms_valid o s) os ->
      vsteps inner c os (s, e) = Ok (s1, e1) -> vsteps inner c os' (t, e') = Ok (t1, e1') ->
      twins s1 m t1 /\ RE e1 m e1'.
    Proof.
      intros c k m os os' n s e log n' t e' logt s1 e1 t1 e1' HG Hs Ht HA Hact T R Hk D. revert n s e log n' t e' logt Hs Ht HA Hact T R Hk.
      induction D as [|o o' os os' HD D IH]; intros n s e log n' t e' logt Hs Ht HA Hact T R Hk P H1 H2.
      - cbn in H1, H2. injection H1 as <- <-. injection H2 as <- <-. auto.
      - cbn [vsteps] in H1, H2. apply bind_ok in H1. destruct H1 as ([s2 e2] & H1 & H1'). apply bind_ok in H2. destruct H2 as ([t2 e2'] & H2 & H2').
        inversion P as [|? ? P1 P2]; subst.
        destruct (vstep_twins _ _ _ _ _ _ _ _ _ _ _ _ _ _ _ _ _ HG Hs Ht HA Hact T R Hk HD P1 H1 H2) as (T2 & R2 & Ea & Eat & EM & EN).
        eapply (IH (S n) s2 e2 _ (S n') t2 e2'); eauto.
        + eapply vx_step; eauto. intros Z; rewrite Z in Hk; destruct k; discriminate.
        + eapply vx_step; eauto. eapply tw_perms; eauto. rewrite Hact; discriminate.
        + rewrite Ea; auto.
        + revert P2. apply Forall_impl. intros a Pa j Hj. rewrite EN. apply Pa. lia.
    Qed.
  End Generic.

  Lemma ea_keep : forall s s' : st, s_active s' = s_active s -> s_M s' = s_M s -> everything_active s -> everything_active s'.
  Proof. unfold everything_active. intros; congruence. Qed.

  Lemma cell_some : forall (c : cfg) s m i, wf c s -> m < s_M s -> i < s_N s -> exists v, cell (s_x s) m i = Some v.
  Proof.
    intros c s m i W Hm Hi. destruct (nth_error_lt_Some _ (s_x s) m) as [r Er]. { rewrite (proj1 (w_x _ _ W)); auto. }
    unfold cell. rewrite Er. apply nth_error_lt_Some. rewrite (proj2 (w_x _ _ W) _ _ Er). auto.
  Qed.

  Lemma ea_one : forall (s : st) m (t : st), twins s m t -> s_active t = [0] -> everything_active t.
  Proof. intros s m t T H. unfold everything_active. rewrite H, (tw_M _ _ _ T). reflexivity. Qed.

  Lemma ea_k : forall (c : cfg) s k m, wf c s -> everything_active s -> nth_error (s_active s) k = Some m -> k = m.
  Proof.
    intros c s k m W HA Hk. rewrite (all_active c s W HA), nth_error_seq in Hk. destruct (k <? s_M s); [|discriminate].
    injection Hk as <-. reflexivity.
  Qed.

  (** the terms of the move do not depend on the other runs *)
  Lemma tw_terms : forall (c : cfg) s m t v cp z, twins s m t -> kick c t v cp z = kick c s v cp z /\ pull c t v cp = pull c s v cp.
  Proof. intros c s m t v cp z T. destruct (tw_par _ _ _ T) as (A1 & A2 & A3). unfold kick, pull. rewrite A1, A2, A3. auto. Qed.

  Lemma dc_local : forall g eps, local_move (dc_inner (Some g) eps) (fun _ => tt) one_consensus_point (fun _ _ _ => True) (everything_active (K := K) (V := V)).
  Proof.
    intros g eps c n s e log n' t e' logt m k o o' s1 e1 t1 e1' C1 Hs Ht HA Hact T _ Hk D P P' H1 H2. split; auto. intros i Hi.
    destruct (vexec_inv _ _ _ _ (dc_regular (Some g) eps) attr_unit c _ _ _ _ I Hs) as [W _].
    destruct (vexec_inv _ _ _ _ (dc_regular (Some g) eps) attr_unit c _ _ _ _ I Ht) as [Wt _].
    pose proof (ea_k _ _ _ _ W HA Hk) as ->.
    destruct (cell_some c s m i W (tw_m _ _ _ T) Hi) as [v Hv].
    destruct (dc_move _ _ _ _ _ _ _ _ _ _ C1 Hs P HA H1 m i v Hv) as (cp & w & O1 & O2 & O3).
    pose proof (ea_one _ _ _ T Hact) as HAt. rewrite <- (tw_cell _ _ _ _ T) in Hv.
    destruct (dc_move _ _ _ _ _ _ _ _ _ _ C1 Ht P' HAt H2 0 i v Hv) as (cp' & w' & O1' & O2' & O3').
    rewrite (tw_own _ _ _ _ _ _ _ _ _ W Wt T D O1 O1') in *.
    rewrite (proj2 D), (proj1 (tw_terms c s m t v cp _ T)), (proj2 (tw_terms c s m t v cp v T)) in O2'.
    rewrite (proj2 (proj2 (tw_par _ _ _ T))), O2 in O2'. injection O2' as <-. congruence.
  Qed.

  Lemma hyper_local : forall S, local_move (hyper_inner S) (fun _ => tt) one_consensus_point (fun _ _ _ => True) (everything_active (K := K) (V := V)).
  Proof.
    intros S c n s e log n' t e' logt m k o o' s1 e1 t1 e1' C1 Hs Ht HA Hact T _ Hk D P P' H1 H2. split; auto. intros i Hi.
    destruct (vexec_inv _ _ _ _ (hyper_regular S) attr_unit c _ _ _ _ C1 Hs) as [W _].
    destruct (vexec_inv _ _ _ _ (hyper_regular S) attr_unit c _ _ _ _ C1 Ht) as [Wt _].
    pose proof (ea_k _ _ _ _ W HA Hk) as ->.
    destruct (cell_some c s m i W (tw_m _ _ _ T) Hi) as [v Hv].
    destruct (hyper_move _ _ _ _ _ _ _ _ _ C1 Hs P HA H1 m i v Hv) as (cp & O1 & O3).
    pose proof (ea_one _ _ _ T Hact) as HAt. rewrite <- (tw_cell _ _ _ _ T) in Hv.
    destruct (hyper_move _ _ _ _ _ _ _ _ _ C1 Ht P' HAt H2 0 i v Hv) as (cp' & O1' & O3').
    rewrite (tw_own _ _ _ _ _ _ _ _ _ W Wt T D O1 O1') in *.
    rewrite (proj2 D), (proj1 (tw_terms c s m t v cp _ T)) in O3'. destruct (tw_par _ _ _ T) as (A1 & A2 & A3).
    rewrite A1, A3 in O3'. congruence.
  Qed.

  Lemma reg_local : forall f reg pow la solve eps,
    local_move (reg_inner (reg_call f reg pow) solve eps) (reg_attr la) (reg_cond f reg pow la) (fun _ _ _ => True) (everything_active (K := K) (V := V)).
  Proof.
    intros f reg pow la solve eps c n s e log n' t e' logt m k o o' s1 e1 t1 e1' [PC C1] Hs Ht HA Hact T _ Hk D P P' H1 H2. split; auto. intros i Hi.
    destruct (vexec_inv _ _ _ _ (reg_regular f reg pow la solve eps) (reg_attr_ok la) c _ _ _ _ (conj PC C1) Hs) as [W _].
    destruct (vexec_inv _ _ _ _ (reg_regular f reg pow la solve eps) (reg_attr_ok la) c _ _ _ _ (conj PC C1) Ht) as [Wt _].
    pose proof (ea_k _ _ _ _ W HA Hk) as ->. pose proof (tw_m _ _ _ T) as Hm. pose proof (tw_M _ _ _ T) as HM.
    destruct (cell_some c s m i W Hm Hi) as [v Hv].
    destruct (reg_move _ _ _ _ _ _ _ _ _ _ _ _ _ _ PC C1 Hs P ltac:(lia) HA H1 m i v Hv) as (cp & w & O1 & O2 & O3).
    pose proof (ea_one _ _ _ T Hact) as HAt. rewrite <- (tw_cell _ _ _ _ T) in Hv.
    destruct (reg_move _ _ _ _ _ _ _ _ _ _ _ _ _ _ PC C1 Ht P' ltac:(lia) HAt H2 0 i v Hv) as (cp' & w' & O1' & O2' & O3').
    rewrite (tw_own _ _ _ _ _ _ _ _ _ W Wt T D O1 O1') in *. cbv zeta in O2, O2'.
    rewrite (proj2 D), (proj1 (tw_terms c s m t v cp _ T)), (proj2 (tw_terms c s m t v cp v T)) in O2'.
    rewrite (proj2 (proj2 (tw_par _ _ _ T))) in O2'. assert (w' = w) as ->; [|congruence].
    destruct solve as [g|]; [rewrite O2 in O2'; injection O2' as <-; reflexivity | congruence].
  Qed.

  Lemma mirror_local : forall gc gr,
    local_move (mirror_inner gc) (mirror_attr gr) (fun c => one_consensus_point c /\ c_corr c = NoCorr)
      (fun y m y' => nth_error y' 0 = nth_error y m) (fun _ => True).
  Proof.
    intros gc gr c n s y log n' t y' logt m k o o' s1 y1 t1 y1' [C1 NC] Hs Ht _ Hact T HY Hk D P P' H1 H2.
    destruct (mirror_inv _ _ _ _ _ _ _ Hs) as [W Ry]. destruct (mirror_inv _ _ _ _ _ _ _ Ht) as [Wt Ryt].
    pose proof (tw_m _ _ _ T) as Hm. pose proof (tw_M _ _ _ T) as HM. pose proof (tw_N _ _ _ T) as HN.
    destruct (tw_sel c s m t o o' k W Wt T D) as [_ S2].
    assert (Hx : forall i, i < s_N s -> cell (s_x t1) 0 i = cell (s_x s1) m i /\ cell y1' 0 i = cell y1 m i).
    { intros i Hi. destruct (cell_some c s m i W Hm Hi) as [v Hv].
      destruct (nth_error_lt_Some _ y m) as [yr Eyr]. { rewrite (proj1 Ry); auto. }
      destruct (nth_error_lt_Some _ yr i) as [yv Eyv]. { rewrite (proj2 Ry _ _ Eyr); auto. }
      assert (Cy : cell y m i = Some yv) by (unfold cell; rewrite Eyr; auto).
      assert (Cy' : cell y' 0 i = Some yv) by (unfold cell; rewrite HY, Eyr; auto).
      destruct (mirror_move _ _ _ _ _ _ _ _ _ _ C1 NC Hs P H1 k m i v yv Hk Hv Cy) as (w & A1 & A2 & A3).
      rewrite <- (tw_cell _ _ _ _ T) in Hv.
      destruct (mirror_move _ _ _ _ _ _ _ _ _ _ C1 NC Ht P' H2 0 0 i v yv ltac:(rewrite Hact; reflexivity) Hv Cy') as (w' & B1 & B2 & B3).
      rewrite S2 in B3. assert (w' = w) as ->; [|split; congruence].
      destruct (last_index i (run_selp c o s m)) as [j|]; [|congruence].
      destruct A3 as (cp & O1 & A3). destruct B3 as (cp' & O1' & B3). rewrite (tw_own _ _ _ _ _ _ _ _ _ W Wt T D O1 O1') in *.
      rewrite (proj2 D), (proj1 (tw_terms c s m t v cp _ T)) in B3. destruct (tw_par _ _ _ T) as (Z1 & Z2 & Z3). rewrite Z2, Z3 in B3. congruence. }
    split. { intros; apply Hx; auto. }
    assert (N1 : s_active s <> []) by (intros Z; rewrite Z in Hk; destruct k; discriminate).
    assert (Hs1 : vexec (mirror_inner gc) (mirror_attr gr) c (S n) (s1, y1) (log ++ evaluated s s1)) by (eapply vx_step; eauto).
    assert (Ht1 : vexec (mirror_inner gc) (mirror_attr gr) c (S n') (t1, y1') (logt ++ evaluated t t1)) by (eapply vx_step; eauto; rewrite Hact; discriminate).
    destruct (mirror_inv _ _ _ _ _ _ _ Hs1) as [W1 Ry1]. destruct (mirror_inv _ _ _ _ _ _ _ Ht1) as [Wt1 Ryt1].
    destruct (vstep_good _ _ _ (mirror_regular gc) c o s y s1 y1 I W (perms_valid_ok _ _ P) N1 Ry H1) as [(_ & (M1 & Nn1 & _) & _) _].
    destruct (vstep_good _ _ _ (mirror_regular gc) c o' t y' t1 y1' I Wt (perms_valid_ok _ _ P') ltac:(rewrite Hact; discriminate) Ryt H2) as [(_ & (M2 & Nn2 & _) & _) _].
    rewrite M1, Nn1 in Ry1. rewrite M2, Nn2, HN in Ryt1.
    apply (rows_eq _ _ _ _ _ _ _ _ Ry1 Ryt1); try lia. intros i Hi. apply Hx; auto.
  Qed.

  Theorem dc_indep : forall g eps (c : cfg) m os os' n s u log n' t u' logt s1 u1 t1 u1', one_consensus_point c ->
    vexec (dc_inner (Some g) eps) (fun _ => tt) c n (s, u) log -> vexec (dc_inner (Some g) eps) (fun _ => tt) c n' (t, u') logt ->
    everything_active s -> s_active t = [0] -> twins s m t ->
    Forall2 (same_draws m m) os os' -> Forall (fun o => perms_valid o s) os ->
    vsteps (dc_inner (Some g) eps) c os (s, u) = Ok (s1, u1) -> vsteps (dc_inner (Some g) eps) c os' (t, u') = Ok (t1, u1') ->
    twins s1 m t1.
  Proof.
    intros g eps c m os os' n s u log n' t u' logt s1 u1 t1 u1' C1 Hs Ht HA Hact T D P H1 H2.
    destruct (vexec_inv _ _ _ _ (dc_regular (Some g) eps) attr_unit c _ _ _ _ I Hs) as [W _].
    assert (REG : regular (dc_inner (Some g) eps) (fun _ _ (u : unit) => True) one_consensus_point).
    { intros c0 o0 s0 s2 sc ci pi cp e s3 e2 _. apply (dc_regular (Some g) eps c0 o0 s0 s2 sc ci pi cp e s3 e2 I). }
    refine (proj1 (vsteps_twins _ _ _ _ _ _ REG attr_unit ea_keep (dc_local g eps) c m m os os' _ _ _ _ _ _ _ _ _ _ _ _ C1 Hs Ht HA Hact T I _ D P H1 H2)).
    rewrite (all_active c s W HA), nth_error_seq. destruct (Nat.ltb_spec m (s_M s)); auto. pose proof (tw_m _ _ _ T). lia.
  Qed.

  Theorem hyper_indep : forall S (c : cfg) m os os' n s u log n' t u' logt s1 u1 t1 u1', one_consensus_point c ->
    vexec (hyper_inner S) (fun _ => tt) c n (s, u) log -> vexec (hyper_inner S) (fun _ => tt) c n' (t, u') logt ->
    everything_active s -> s_active t = [0] -> twins s m t ->
    Forall2 (same_draws m m) os os' -> Forall (fun o => perms_valid o s) os ->
    vsteps (hyper_inner S) c os (s, u) = Ok (s1, u1) -> vsteps (hyper_inner S) c os' (t, u') = Ok (t1, u1') ->
    twins s1 m t1.
  Proof.
    intros S c m os os' n s u log n' t u' logt s1 u1 t1 u1' C1 Hs Ht HA Hact T D P H1 H2.
    destruct (vexec_inv _ _ _ _ (hyper_regular S) attr_unit c _ _ _ _ C1 Hs) as [W _].
    refine (proj1 (vsteps_twins _ _ _ _ _ _ (hyper_regular S) attr_unit ea_keep (hyper_local S) c m m os os' _ _ _ _ _ _ _ _ _ _ _ _ C1 Hs Ht HA Hact T I _ D P H1 H2)).
    rewrite (all_active c s W HA), nth_error_seq. destruct (Nat.ltb_spec m (s_M s)); auto. pose proof (tw_m _ _ _ T). lia.
  Qed.

  Theorem reg_indep : forall f reg pow la solve eps (c : cfg) m os os' n s ob log n' t ob' logt s1 ob1 t1 ob1',
    penalised f reg pow la c -> one_consensus_point c ->
    vexec (reg_inner (reg_call f reg pow) solve eps) (reg_attr la) c n (s, ob) log ->
    vexec (reg_inner (reg_call f reg pow) solve eps) (reg_attr la) c n' (t, ob') logt ->
    everything_active s -> s_active t = [0] -> twins s m t ->
    Forall2 (same_draws m m) os os' -> Forall (fun o => perms_valid o s) os ->
    vsteps (reg_inner (reg_call f reg pow) solve eps) c os (s, ob) = Ok (s1, ob1) ->
    vsteps (reg_inner (reg_call f reg pow) solve eps) c os' (t, ob') = Ok (t1, ob1') ->
    twins s1 m t1.
  Proof.
    intros f reg pow la solve eps c m os os' n s u log n' t u' logt s1 u1 t1 u1' PC C1 Hs Ht HA Hact T D P H1 H2.
    destruct (vexec_inv _ _ _ _ (reg_regular f reg pow la solve eps) (reg_attr_ok la) c _ _ _ _ (conj PC C1) Hs) as [W _].
    refine (proj1 (vsteps_twins _ _ _ _ _ _ (reg_regular f reg pow la solve eps) (reg_attr_ok la) ea_keep (reg_local f reg pow la solve eps) c m m os os' _ _ _ _ _ _ _ _ _ _ _ _ (conj PC C1) Hs Ht HA Hact T I _ D P H1 H2)).
    rewrite (all_active c s W HA), nth_error_seq. destruct (Nat.ltb_spec m (s_M s)); auto. pose proof (tw_m _ _ _ T). lia.
  Qed.

  Theorem mirror_indep : forall gc gr (c : cfg) k m os os' n s y log n' t y' logt s1 y1 t1 y1',
    one_consensus_point c -> c_corr c = NoCorr ->
    vexec (mirror_inner gc) (mirror_attr gr) c n (s, y) log -> vexec (mirror_inner gc) (mirror_attr gr) c n' (t, y') logt ->
    nth_error (s_active s) k = Some m -> s_active t = [0] -> twins s m t -> nth_error y' 0 = nth_error y m ->
    Forall2 (same_draws k m) os os' -> Forall (fun o => perms_valid o s) os ->
    vsteps (mirror_inner gc) c os (s, y) = Ok (s1, y1) -> vsteps (mirror_inner gc) c os' (t, y') = Ok (t1, y1') ->
    twins s1 m t1 /\ nth_error y1' 0 = nth_error y1 m.
  Proof.
    intros gc gr c k m os os' n s y log n' t y' logt s1 y1 t1 y1' C1 NC Hs Ht Hk Hact T HY D P H1 H2.
    assert (REG : regular (mirror_inner gc) (fun M N (y : arr V) => rect M N y) (fun c => one_consensus_point c /\ c_corr c = NoCorr)).
    { intros c0 o0 s0 s2 sc ci pi cp e s3 e2 _. apply (mirror_regular gc c0 o0 s0 s2 sc ci pi cp e s3 e2 I). }
    assert (KA : forall s s' : st, s_active s' = s_active s -> s_M s' = s_M s -> True -> True) by auto.
    exact (vsteps_twins _ _ _ _ _ _ REG (attr_mirror gr) KA (mirror_local gc gr) c k m os os' _ _ _ _ _ _ _ _ _ _ _ _ (conj C1 NC) Hs Ht I Hact T HY Hk D P H1 H2).
  Qed.

  Lemma adam_local : forall vsq vquot p z,
    local_move (adam_inner vsq vquot p) (adam_attr z) one_consensus_point
      (fun mv r mv' => nth_error (fst mv') 0 = nth_error (fst mv) r /\ nth_error (snd mv') 0 = nth_error (snd mv) r) (fun _ => True).
  Proof.
    intros vsq vquot p z c n s [mo vo] log n' t [mo' vo'] logt m k o o' s1 [mo1 vo1] t1 [mo1' vo1'] C1 Hs Ht _ Hact T [HM1 HV1] Hk D P P' H1 H2.
    cbn [fst snd] in *.
    destruct (vexec_inv _ _ _ _ (adam_regular vsq vquot p) (attr_adam z) c _ _ _ _ I Hs) as [W [Rm Rv]].
    destruct (vexec_inv _ _ _ _ (adam_regular vsq vquot p) (attr_adam z) c _ _ _ _ I Ht) as [Wt [Rmt Rvt]]. cbn [fst snd] in *.
    pose proof (tw_m _ _ _ T) as Hm. pose proof (tw_M _ _ _ T) as HM. pose proof (tw_N _ _ _ T) as HN.
    assert (N1 : s_active s <> []) by (intros Z; rewrite Z in Hk; destruct k; discriminate).
    assert (N2 : s_active t <> []) by (rewrite Hact; discriminate).
    destruct (adam_step_char _ _ _ _ _ _ _ _ _ _ _ W P C1 N1 Rm Rv H1) as (_ & _ & d & _ & A).
    destruct (adam_step_char _ _ _ _ _ _ _ _ _ _ _ Wt P' C1 N2 Rmt Rvt H2) as (_ & _ & d' & _ & B).
    destruct (tw_sel c s m t o o' k W Wt T D) as [S1 S2].
    assert (Hx : forall i, i < s_N s -> cell (s_x t1) 0 i = cell (s_x s1) m i /\ cell mo1' 0 i = cell mo1 m i /\ cell vo1' 0 i = cell vo1 m i).
    { intros i Hi. destruct (A k m i Hk Hi) as [_ A1]. destruct (B 0 0 i ltac:(rewrite Hact; reflexivity) ltac:(lia)) as [_ B1].
      rewrite S2 in B1. unfold cell in A1, B1 |- *. rewrite (tw_x _ _ _ T), HM1, HV1 in B1. fold (cell (s_x s) m i) in *.
      destruct (last_index i (run_selp c o s m)) as [j|].
      - destruct A1 as (xv & mv & vv & dv & X1 & X2 & X3 & _ & (xr & xb & a & cv & E1 & E2 & E3 & E4 & E5) & A1).
        destruct B1 as (xv' & mv' & vv' & dv' & Y1 & Y2 & Y3 & _ & (xr' & xb' & a' & cv' & F1 & F2 & F3 & F4 & F5) & B1).
        assert (xv' = xv) as -> by congruence. assert (mv' = mv) as -> by congruence. assert (vv' = vv) as -> by congruence.
        assert (cv' = cv) as ->.
        { rewrite E1 in F1. injection F1 as <-. rewrite (tw_alpha _ _ _ T), E2 in F2. injection F2 as <-. rewrite S1, E3 in F3. injection F3 as <-. congruence. }
        assert (dv' = dv) as -> by congruence. destruct (tw_par _ _ _ T) as (Pa1 & Pa2 & Pa3). destruct (tw_time _ _ _ T) as (_ & Tm).
        cbv zeta in A1, B1. rewrite Pa1, Pa2, Pa3, Tm, (proj2 D) in B1. destruct A1 as (Q1 & Q2 & Q3). destruct B1 as (Q1' & Q2' & Q3').
        repeat split; congruence.
      - destruct A1 as (Q1 & Q2 & Q3). destruct B1 as (Q1' & Q2' & Q3'). repeat split; congruence. }
    split. { intros; apply Hx; auto. }
    destruct (vstep_good _ _ _ (adam_regular vsq vquot p) c o s (mo, vo) s1 (mo1, vo1) I W (perms_valid_ok _ _ P) N1 (conj Rm Rv) H1) as [_ [R1 R2]].
    destruct (vstep_good _ _ _ (adam_regular vsq vquot p) c o' t (mo', vo') t1 (mo1', vo1') I Wt (perms_valid_ok _ _ P') N2 (conj Rmt Rvt) H2) as [_ [R1t R2t]].
    cbn [fst snd] in *. rewrite HN in R1t, R2t.
    split.
    - apply (rows_eq _ _ _ _ _ _ _ _ R1 R1t); try lia. intros i Hi. apply Hx; auto.
    - apply (rows_eq _ _ _ _ _ _ _ _ R2 R2t); try lia. intros i Hi. apply Hx; auto.
  Qed.

  Theorem adam_indep : forall vsq vquot p z (c : cfg) k m os os' n s mo vo log n' t mo' vo' logt s1 mo1 vo1 t1 mo1' vo1',
    one_consensus_point c ->
    vexec (adam_inner vsq vquot p) (adam_attr z) c n (s, (mo, vo)) log -> vexec (adam_inner vsq vquot p) (adam_attr z) c n' (t, (mo', vo')) logt ->
    nth_error (s_active s) k = Some m -> s_active t = [0] -> twins s m t ->
    nth_error mo' 0 = nth_error mo m -> nth_error vo' 0 = nth_error vo m ->
    Forall2 (same_draws k m) os os' -> Forall (fun o => perms_valid o s) os ->
    vsteps (adam_inner vsq vquot p) c os (s, (mo, vo)) = Ok (s1, (mo1, vo1)) ->
    vsteps (adam_inner vsq vquot p) c os' (t, (mo', vo')) = Ok (t1, (mo1', vo1')) ->
    twins s1 m t1 /\ nth_error mo1' 0 = nth_error mo1 m /\ nth_error vo1' 0 = nth_error vo1 m.
  Proof.
    intros vsq vquot p z c k m os os' n s mo vo log n' t mo' vo' logt s1 mo1 vo1 t1 mo1' vo1' C1 Hs Ht Hk Hact T HM HV D P H1 H2.
    assert (REG : regular (adam_inner vsq vquot p) (fun M N (mv : arr V * arr V) => rect M N (fst mv) /\ rect M N (snd mv)) one_consensus_point).
    { intros c0 o0 s0 s2 sc ci pi cp e s3 e2 _. apply (adam_regular vsq vquot p c0 o0 s0 s2 sc ci pi cp e s3 e2 I). }
    assert (KA : forall s s' : st, s_active s' = s_active s -> s_M s' = s_M s -> True -> True) by auto.
    exact (vsteps_twins _ _ _ _ _ _ REG (attr_adam z) KA (adam_local vsq vquot p z) c k m os os' _ _ _ _ _ _ _ _ _ _ _ _ C1 Hs Ht I Hact T (conj HM HV) Hk D P H1 H2).
  Qed.

  (** construction *)
  Theorem init_twins : forall (c : cfg) x0 row m chk al sg la dt perm0 perm1 names extra save s t,
    is_array (length x0) (shape1 x0) x0 -> nth_error x0 m = Some row -> perm1 0 = perm0 m ->
    init c x0 chk al sg la dt perm0 names extra save = Ok s ->
    init c [row] chk al sg la dt perm1 names extra save = Ok t ->
    twins s m t /\ s_active t = [0] /\ everything_active s /\
    (forall gr, nth_error (mirror_attr gr t) 0 = nth_error (mirror_attr gr s) m) /\
    (forall z, nth_error (fst (adam_attr z t)) 0 = nth_error (fst (adam_attr z s)) m /\ nth_error (snd (adam_attr z t)) 0 = nth_error (snd (adam_attr z s)) m).
  Proof.
    intros c x0 row m chk al sg la dt perm0 perm1 names extra save s t H1 H2 H3 Hs Ht.
    destruct (init_mirrors _ _ _ _ _ _ _ _ _ _ _ _ _ _ _ _ H1 H2 H3 Hs Ht) as (Mi & Ha & _).
    split. { destruct Mi; constructor; auto. } split; auto.
    split.
    { unfold init in Hs. apply bind_ok in Hs. destruct Hs as (u & _ & Hs). cbv zeta in Hs.
      match type of Hs with context [init_history ?a ?b ?c ?d] => destruct (init_history_char a b c d) as (ts & h & E' & _); rewrite E' in Hs end.
      injection Hs as <-. unfold everything_active. sst. apply seq_length. }
    assert (E : nth_error (s_x t) 0 = nth_error (s_x s) m) by apply Mi.
    split; intros; unfold mirror_attr, adam_attr; cbn [fst snd]; rewrite ?nth_error_map, ?E; auto.
  Qed.
End VarIndep.
