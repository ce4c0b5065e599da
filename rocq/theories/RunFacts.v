(** * Frozen runs, persistence of termination, evaluation counters *)
From Coq Require Import String List Arith Bool Lia.
From Verif Require Import Scalar ScalarFacts Np NpFacts State Pdyn PdynFacts PdynStep PdynRun Exec PdynOk BestFacts TermSpec TermFacts.
Import ListNotations.
Open Scope nat_scope.
Open Scope list_scope.

Section Frozen.
  Context {K V : Type} {O : KOps K} {OL : KOrd K}.
  Notation F := (fl K).
  Notation st := (st K V).
  Notation cfg := (cfg K V).
  Notation orc := (orc V).

  Lemma exec_step_good : forall (c : cfg) s log (o : orc), exec c s log -> plain c (s_N s) -> perms_valid o s ->
    exists s', step c o s = Ok s'.
  Proof.
    intros c s log o E [G1 G2] P.
    destruct (step_char c o s (exec_wf _ _ _ E) (perms_valid_ok _ _ P) G1 G2) as (s' & H & _). eauto.
  Qed.

  (** a run that is not active *)
  Theorem frozen_step : forall (c : cfg) s log (o : orc) s' m, exec c s log -> no_nan c -> plain c (s_N s) ->
    perms_valid o s -> step c o s = Ok s' -> m < s_M s -> ~ In m (s_active s) ->
    nth_error (s_x s') m = option_map (map (c_pp c)) (nth_error (s_x s) m) /\
    nth_error (s_energy s') m = nth_error (s_energy s) m /\
    nth_error (s_be s') m = nth_error (s_be s) m /\
    nth_error (s_bp s') m = nth_error (s_bp s) m /\
    nth_error (s_nfe s') m = nth_error (s_nfe s) m /\
    nth_error (s_alpha s') m = nth_error (s_alpha s) m.
  Proof.
    intros c s log o s' m E NN [G1 G2] P HS Hm Hi.
    pose proof (exec_wf _ _ _ E) as W.
    destruct (step_char c o s W (perms_valid_ok _ _ P) G1 G2) as (s1 & HS1 & W' & Fr & _ & _ & _ & Hin & _).
    assert (s1 = s') by congruence. subst s1.
    destruct (row_at_Some c s m W Hm) as (r & Er & _).
    destruct (Hin m r Hi Er) as (r' & Hp & Er').
    destruct (exec_best _ _ _ NN E m r Er) as (I1 & I2 & _ & _).
    destruct (row_at_lt _ _ _ Er) as (_ & Ex & Ee & Ea & Ebe & Ebp & Enf & _).
    destruct (row_at_lt _ _ _ Er') as (_ & Ex' & Ee' & Ea' & Ebe' & Ebp' & Enf' & _).
    assert (Hn : forall e, In e (r_e r) -> is_nan e = false) by (intros; apply I1; auto).
    pose proof (run_post_be _ _ _ _ Hp Hn I2) as (R1 & R2 & R3 & R4 & R5).
    unfold run_post in Hp. cbv zeta in Hp.
    apply bind_ok in Hp. destruct Hp as ([j v] & A1 & Hp).
    apply bind_ok in Hp. destruct Hp as (p & A2 & Hp).
    apply bind_ok in Hp. destruct Hp as (e & A3 & Hp). cbn [fst snd] in *.
    assert (Hnlt : fltb e (r_be r) = false).
    { apply fleb_not_lt. apply I1. apply take1_ok in A3. eapply nth_error_In; eauto. }
    rewrite Hnlt in Hp. inversion Hp; subst r'. cbn in *.
    rewrite Ex', Ee', Ea', Ebe', Ebp', Enf', Ex, Ee, Ea, Ebe, Ebp, Enf. repeat split; auto.
  Qed.

  (** x is post-processed after each step *)
  Lemma step_x_processed : forall (c : cfg) s (o : orc) s' m xr v, wf c s -> perm_ok o s -> step c o s = Ok s' ->
    (forall v, c_pp c (c_pp c v) = c_pp c v) ->
    nth_error (s_x s') m = Some xr -> In v xr -> c_pp c v = v.
  Proof.
    intros c s o s' m xr v W P HS Hpp Hx Hv.
    destruct (step_ok_char c o s s' W P HS) as (W' & (EM & _) & _ & HR).
    assert (Hm : m < s_M s). { rewrite <- EM. rewrite <- (proj1 (w_x _ _ W')). eapply nth_error_lt; eauto. }
    destruct (row_at_Some c s m W Hm) as (r & Er & _).
    destruct (HR m r Er) as (xr0 & er & nf & r' & _ & _ & Hp & Er').
    destruct (row_at_lt _ _ _ Er') as (_ & Ex' & _).
    unfold run_post in Hp. cbv zeta in Hp.
    apply bind_ok in Hp. destruct Hp as ([j w] & A1 & Hp).
    apply bind_ok in Hp. destruct Hp as (p & A2 & Hp).
    apply bind_ok in Hp. destruct Hp as (e & A3 & Hp). inversion Hp; subst r'. cbn in Ex'.
    rewrite Hx in Ex'. inversion Ex'; subst xr. apply in_map_iff in Hv. destruct Hv as (v0 & <- & _). auto.
  Qed.

  Theorem frozen_positions : forall (c : cfg) s log (o o' : orc) s' s'' m, exec c s log -> no_nan c -> plain c (s_N s) ->
    (forall v, c_pp c (c_pp c v) = c_pp c v) ->
    perms_valid o s -> step c o s = Ok s' -> perms_valid o' s' -> step c o' s' = Ok s'' ->
    m < s_M s -> ~ In m (s_active s') ->
    nth_error (s_x s'') m = nth_error (s_x s') m.
  Proof.
    intros c s log o o' s' s'' m E NN G Hpp P HS P' HS' Hm Hi.
    pose proof (exec_wf _ _ _ E) as W.
    destruct (step_ok_char c o s s' W (perms_valid_ok _ _ P) HS) as (W' & (EM & EN & _) & _).
    pose proof (ex_step c _ _ _ _ E P HS) as E'.
    assert (Hm' : m < s_M s') by lia. assert (G' : plain c (s_N s')) by (rewrite EN; auto).
    destruct (frozen_step c s' _ o' s'' m E' NN G' P' HS' Hm' Hi) as (Hx & _).
    rewrite Hx. destruct (nth_error (s_x s') m) as [xr|] eqn:Ex; auto. cbn. f_equal.
    rewrite <- (map_id xr) at 2. apply map_ext_in. intros v Hv.
    eapply (step_x_processed c s o s' m xr v); eauto using perms_valid_ok.
  Qed.

  (** fmin is the minimum of the energies once a step has been made *)
  Definition proc_inv (c : cfg) (s : st) : Prop :=
    (forall m r, row_at s m = Some r -> r_fmin r = PInf \/ exists j, argmin (r_e r) = Ok (j, r_fmin r)) /\
    ((forall m u, nth_error (s_udiff s) m = Some u -> u = PInf) \/
     (forall m xr v, nth_error (s_x s) m = Some xr -> In v xr -> c_pp c v = v)).

  Lemma run_post_fmin : forall (c : cfg) xo r r', run_post c xo r = Ok r' ->
    r_e r' = r_e r /\ exists j, argmin (r_e r') = Ok (j, r_fmin r').
  Proof.
    intros c xo r r' Hp. unfold run_post in Hp. cbv zeta in Hp.
    apply bind_ok in Hp. destruct Hp as ([j v] & A1 & Hp).
    apply bind_ok in Hp. destruct Hp as (p & A2 & Hp).
    apply bind_ok in Hp. destruct Hp as (e & A3 & Hp). inversion Hp; subst r'. cbn. split; auto. eauto.
  Qed.

  Lemma exec_proc : forall (c : cfg) s log, (forall v, c_pp c (c_pp c v) = c_pp c v) -> exec c s log -> proc_inv c s.
  Proof.
    intros c s log Hpp E. induction E.
    - destruct H as (x0 & chk & al & sg & la & dt & perm0 & names & extra & save & Hx & HN & Hb & Hp & Hs & H).
      unfold init in H. apply bind_ok in H. destruct H as (bp & Ebp & H). injection H as E0.
      match type of E0 with init_history _ _ _ ?s1 = _ => destruct (init_history_char names extra save s1) as (ts & h & E & _ & _) end.
      rewrite E in E0. clear E. rewrite <- E0. clear E0 s. split.
      + intros m r Hr. apply row_at_lt in Hr. ssti Hr.
        destruct Hr as (_ & _ & _ & _ & _ & _ & _ & _ & Hf & _).
        apply nth_error_In, repeat_spec in Hf. auto.
      + left. sst. intros m u Hu. apply nth_error_In, repeat_spec in Hu. auto.
    - pose proof (exec_wf _ _ _ E) as W. pose proof (perms_valid_ok _ _ H) as P. split.
      + intros m r' Hr'. destruct (step_ok_char c o s s' W P H0) as (W' & (EM & _) & _ & HR).
        assert (Hm : m < s_M s).
        { rewrite <- EM. rewrite <- (proj1 (w_x _ _ W')). apply row_at_lt in Hr'. apply Hr'. }
        destruct (row_at_Some c s m W Hm) as (r & Er & _).
        destruct (HR m r Er) as (xr0 & er & nf & r'' & _ & _ & Hp & Er'').
        rewrite Hr' in Er''. inversion Er''; subst r''. right. apply run_post_fmin in Hp. apply Hp.
      + right. intros. eapply step_x_processed; eauto.
    - apply terminate_char in H. destruct H as (act & re & -> & _). destruct IHE as [I1 I2]. split.
      + intros m r Hr. apply (I1 m r). destruct s; auto.
      + destruct s; auto.
    - destruct H as (al & sg & la & d & Hal & ->). destruct IHE as [I1 I2]. split.
      + intros m r Hr. pose proof (exec_wf _ _ _ E) as W.
        assert (Hm : m < s_M s).
        { rewrite <- (proj1 (w_x _ _ W)). apply row_at_lt in Hr. destruct s; apply Hr. }
        destruct (row_at_Some c s m W Hm) as (r0 & Er0 & _).
        specialize (I1 m r0 Er0).
        destruct (row_at_lt _ _ _ Er0) as (_ & _ & E2 & _ & _ & _ & _ & _ & E3 & _).
        apply row_at_lt in Hr. ssti Hr. destruct Hr as (_ & _ & F2 & _ & _ & _ & _ & _ & F3 & _).
        assert (r_e r = r_e r0) by congruence. assert (r_fmin r = r_fmin r0) by congruence.
        rewrite H, H0. auto.
      + destruct s; auto.
    - destruct (reset_char s) as (ts & h & -> & _). destruct IHE as [I1 I2]. split.
      + intros m r Hr. apply (I1 m r). destruct s; auto.
      + destruct s; auto.
  Qed.

  Lemma nfe_step : forall (c : cfg) s (o : orc) s' m n, wf c s -> perm_ok o s -> plain c (s_N s) -> step c o s = Ok s' ->
    nth_error (s_nfe s) m = Some n ->
    nth_error (s_nfe s') m = Some (if in_dec Nat.eq_dec m (s_active s) then n + c_bsize c else n).
  Proof.
    intros c s o s' m n W P [G1 G2] HS Hn.
    destruct (step_char c o s W P G1 G2) as (s1 & HS1 & W' & Fr & _ & _ & (cp & d & _ & _ & _ & _ & Hact) & Hin & _).
    assert (s1 = s') by congruence. subst s1.
    assert (Hm : m < s_M s). { rewrite <- (w_nfe _ _ W). eapply nth_error_lt; eauto. }
    destruct (row_at_Some c s m W Hm) as (r & Er & _ & _ & _ & _ & _ & Enf).
    assert (n = r_nfe r) by congruence. subst n.
    assert (Post : forall xo r1 r', run_post c xo r1 = Ok r' -> r_nfe r' = r_nfe r1).
    { intros xo r1 r' Hp. unfold run_post in Hp. cbv zeta in Hp.
      apply bind_ok in Hp. destruct Hp as ([j v] & A1 & Hp).
      apply bind_ok in Hp. destruct Hp as (p & A2 & Hp).
      apply bind_ok in Hp. destruct Hp as (e & A3 & Hp). inversion Hp; subst r'. auto. }
    destruct (in_dec Nat.eq_dec m (s_active s)) as [Hi|Hi].
    - destruct (In_nth_error _ _ Hi) as [k Ek].
      destruct (Hact k m r Ek Er) as (r1 & cpr & dr & r' & Hmv & _ & _ & Hp & Er').
      destruct (row_at_lt _ _ _ Er') as (_ & _ & _ & _ & _ & _ & E7 & _). rewrite E7. f_equal.
      rewrite (Post _ _ _ Hp). unfold run_move in Hmv.
      destruct (r_a r) as [|a [|]]; try discriminate.
      apply bind_ok in Hmv. destruct Hmv as (xb & _ & Hmv).
      apply bind_ok in Hmv. destruct Hmv as (er & _ & Hmv).
      apply bind_ok in Hmv. destruct Hmv as (xp & _ & Hmv).
      apply bind_ok in Hmv. destruct Hmv as (xr & _ & Hmv). inversion Hmv; subst. cbn.
      rewrite run_sel_length; auto.
    - destruct (Hin m r Hi Er) as (r' & Hp & Er').
      destruct (row_at_lt _ _ _ Er') as (_ & _ & _ & _ & _ & _ & E7 & _). rewrite E7, (Post _ _ _ Hp). auto.
  Qed.

  (** ** Termination is permanent *)

  Lemma fleb_add : forall (A : KAddMono K) (T t : F) d, fleb T t = true -> kltb d k0 = false -> fleb T (fadd t (Fin d)) = true.
  Proof.
    intros A T t d H1 H2. eapply fleb_trans; eauto.
    apply fleb_spec in H1. destruct H1 as (_ & Ht & _).
    destruct t as [a| | |]; cbn in *; try discriminate; auto.
    rewrite (kadd_mono a d); auto.
  Qed.

  Lemma holds_persists : forall (A : KAddMono K) (c : cfg) s log b s2 (o : orc) s3 k m,
    exec c s log -> no_nan c -> plain c (s_N s) ->
    (forall v, c_pp c (c_pp c v) = c_pp c v) ->
    (forall row, c_norm c (map2 (c_vsub c) row row) = Fin k0) ->
    terminate c s = Ok (b, s2) -> perms_valid o s2 -> step c o s2 = Ok s3 ->
    nonneg_dt s -> positive_tol k -> m < s_M s -> ~ In m (s_active s2) ->
    holds c s k m = true -> holds c s3 k m = true.
  Proof.
    intros A c s log b s2 o s3 k m E NN G Hpp Hnorm HT P HS Hdt Htol Hm Hi Hh.
    pose proof (ex_term c _ _ _ _ E HT) as E2.
    pose proof (exec_wf _ _ _ E2) as W2.
    destruct (term_frame _ _ _ _ HT) as (F1 & F2 & F3 & F4 & F5 & F6 & F7 & F8 & F9 & F10 & F11 & _).
    assert (G' : plain c (s_N s2)) by (rewrite F2; auto).
    destruct G' as [G1 G2].
    destruct (step_char c o s2 W2 (perms_valid_ok _ _ P) G1 G2) as (s3' & HS' & W3 & Fr & _ & _ & _ & Hin & _).
    assert (s3' = s3) by congruence. subst s3'.
    destruct Fr as (M3 & N3 & A3 & Sg3 & L3 & D3 & T3 & I3 & _).
    assert (Hm2 : m < s_M s2) by lia.
    destruct (row_at_Some c s2 m W2 Hm2) as (r & Er & _).
    destruct (Hin m r Hi Er) as (r' & Hp & Er').
    destruct (row_at_lt _ _ _ Er) as (_ & Ex & Ee & Ea & Ebe & Ebp & Enf & Eud & Efm & _).
    destruct (row_at_lt _ _ _ Er') as (_ & Ex' & Ee' & Ea' & Ebe' & Ebp' & Enf' & Eud' & Efm' & _).
    pose proof (exec_proc c s2 log Hpp E2) as [Pf Pu].
    destruct k; cbn [holds] in *; try contradiction.
    - rewrite Efm'. rewrite <- F8, Efm in Hh.
      destruct (Pf m r Er) as [Hf | (j & Ej)]. { rewrite Hf in Hh. destruct tol; discriminate. }
      apply run_post_fmin in Hp. destruct Hp as (R1 & j' & R2). rewrite R1, Ej in R2. inversion R2. congruence.
    - rewrite Eud'. rewrite <- F9, Eud in Hh.
      destruct Pu as [Pu|Pu]. { rewrite (Pu _ _ Eud) in Hh. destruct tol; discriminate. }
      assert (Hr : r_ud r' = c_norm c (map2 (c_vsub c) (map (c_pp c) (r_x r)) (r_x r))).
      { unfold run_post in Hp. cbv zeta in Hp.
        apply bind_ok in Hp. destruct Hp as ([j v] & A1 & Hp).
        apply bind_ok in Hp. destruct Hp as (p & A2 & Hp).
        apply bind_ok in Hp. destruct Hp as (e & A4 & Hp). inversion Hp; subst r'. auto. }
      rewrite Hr. replace (map (c_pp c) (r_x r)) with (r_x r).
      + rewrite Hnorm. auto.
      + symmetry. rewrite <- map_id. apply map_ext_in. intros. eapply Pu; eauto.
    - assert (G3 : plain c (s_N s2)) by (split; auto).
      pose proof (nfe_step c s2 o s3 m (r_nfe r) W2 (perms_valid_ok _ _ P) G3 HS Enf) as Hn.
      rewrite Hn. rewrite <- F6, Enf in Hh.
      destruct (in_dec Nat.eq_dec m (s_active s2)); [contradiction|auto].
    - destruct n; auto. rewrite I3, F3. apply Nat.leb_le. apply Nat.leb_le in Hh. lia.
    - destruct Hdt as (d & Ed & Hd). rewrite T3, F5, F4, Ed. apply fleb_add; auto.
  Qed.

  Theorem terminated_stays : forall (A : KAddMono K) (c : cfg) s log b s2 (o : orc) s3 s4 b' s5,
    exec c s log -> no_nan c -> plain c (s_N s) ->
    (forall v, c_pp c (c_pp c v) = c_pp c v) ->
    (forall row, c_norm c (map2 (c_vsub c) row row) = Fin k0) ->
    Forall positive_tol (c_crit c) ->
    terminate c s = Ok (b, s2) -> perms_valid o s2 -> step c o s2 = Ok s3 -> params_changed s3 s4 ->
    terminate c s4 = Ok (b', s5) -> nonneg_dt s ->
    incl (s_active s5) (s_active s2).
  Proof.
    intros A c s log b s2 o s3 s4 b' s5 E NN G Hpp Hnorm Htol HT P HS HP HT' Hdt m Hm.
    pose proof (ex_term c _ _ _ _ E HT) as E2. pose proof (ex_step c _ _ _ _ E2 P HS) as E3.
    pose proof (ex_params c _ _ _ E3 HP) as E4.
    apply (in_active_spec c s4 b' s5 m (exec_wf _ _ _ E4) HT') in Hm. destruct Hm as [Hm Hno].
    pose proof (term_frame _ _ _ _ HT) as (F1 & _).
    pose proof (step_ok_char c o s2 s3 (exec_wf _ _ _ E2) (perms_valid_ok _ _ P) HS) as (_ & (M3 & _) & _).
    pose proof (params_frame _ _ HP) as (P1 & P2 & P3 & P4 & P5 & P6 & P7 & P8 & P9 & P10 & P11).
    destruct (in_dec Nat.eq_dec m (s_active s2)) as [|Hi]; auto. exfalso.
    assert (Hms : meets_some c s m = true).
    { destruct (meets_some c s m) eqn:Em; auto. exfalso. apply Hi.
      apply (in_active_spec c s b s2 m (exec_wf _ _ _ E) HT). split; [lia|auto]. }
    unfold meets_some in Hms. apply existsb_exists in Hms. destruct Hms as (k & Hk & Hh).
    rewrite Forall_forall in Htol. specialize (Htol k Hk).
    assert (Hh3 : holds c s3 k m = true) by (eapply (holds_persists A c s log b s2 o s3 k m); eauto; lia).
    assert (Hh4 : holds c s4 k m = true).
    { destruct k; cbn [holds positive_tol] in *; try contradiction; rewrite ?P8, ?P9, ?P6, ?P3, ?P4; auto. }
    assert (meets_some c s4 m = true); [|congruence].
    unfold meets_some. apply existsb_exists. eauto.
  Qed.

  Lemma loop_exec : forall (c : cfg) sched s log n s', exec c s log -> param_sched sched -> loop c sched s n s' ->
    exists log', exec c s' log' /\ s_M s' = s_M s /\ s_N s' = s_N s.
  Proof.
    intros c sched s log n s' E PS L. induction L.
    - eauto.
    - destruct IHL as (l1 & E1 & M1 & N1). pose proof (ex_term c _ _ _ _ E1 H) as E2.
      pose proof (ex_step c _ _ _ _ E2 H0 H1) as E3. pose proof (PS _ _ H2) as PC.
      pose proof (ex_params c _ _ _ E3 PC) as E4.
      eexists. split; [exact E4|].
      pose proof (term_frame _ _ _ _ H) as (F1 & F2 & _).
      pose proof (step_ok_char c o s2 s3 (exec_wf _ _ _ E2) (perms_valid_ok _ _ H0) H1) as (_ & (M3 & N3 & _) & _).
      pose proof (params_frame _ _ PC) as (P1 & P2 & _). split; congruence.
  Qed.

  Lemma loop_dt : forall (c : cfg) sched s log n s', exec c s log -> param_sched sched -> loop c sched s n s' ->
    (forall q q', sched q = Ok q' -> nonneg_dt q') -> nonneg_dt s ->
    nonneg_dt s'.
  Proof. intros. destruct H1; eauto. Qed.

  (** along a whole optimisation *)
  Theorem active_shrinks : forall (A : KAddMono K) (c : cfg) sched s log n1 n2 q1 q2 b1 b2 a1 a2,
    exec c s log -> no_nan c -> plain c (s_N s) ->
    (forall v, c_pp c (c_pp c v) = c_pp c v) ->
    (forall row, c_norm c (map2 (c_vsub c) row row) = Fin k0) ->
    Forall positive_tol (c_crit c) ->
    param_sched sched ->
    (forall q q', sched q = Ok q' -> nonneg_dt q') -> nonneg_dt s ->
    loop c sched s n1 q1 -> loop c sched q1 n2 q2 ->
    terminate c q1 = Ok (b1, a1) -> terminate c q2 = Ok (b2, a2) ->
    incl (s_active a2) (s_active a1).
  Proof.
    intros A c sched s log n1 n2 q1 q2 b1 b2 a1 a2 E NN G Hpp Hnorm Htol PS Hsd Hdt L1 L2 HT1.
    destruct (loop_exec _ _ _ _ _ _ E PS L1) as (log1 & E1 & M1 & N1).
    pose proof (loop_dt _ _ _ _ _ _ E PS L1 Hsd Hdt) as Hdt1.
    assert (G1 : plain c (s_N q1)) by (rewrite N1; auto).
    revert b2 a2. induction L2; intros b2 a2 HT2.
    - rewrite HT1 in HT2. inversion HT2. apply incl_refl.
    - eapply incl_tran; [|eapply IHL2; eauto].
      destruct (loop_exec _ _ _ _ _ _ E1 PS L2) as (log2 & E2 & M2 & N2).
      eapply (terminated_stays A c s1 log2 false s2 o s3 s4 b2 a2); eauto.
      + rewrite N2. auto.
      + eapply (loop_dt c sched q1); eauto.
  Qed.

  (** ** Evaluation budget *)

  Theorem budget : forall (c : cfg) sched s log n s' B, exec c s log -> plain c (s_N s) -> param_sched sched ->
    In (CMaxEval B) (c_crit c) ->
    (forall m e, nth_error (s_nfe s) m = Some e -> e <= B) ->
    loop c sched s n s' -> forall m e, nth_error (s_nfe s') m = Some e -> e <= B.
  Proof.
    intros c sched s log n s' B E G PS HB H0 L. induction L; auto.
    intros m e He.
    destruct (loop_exec _ _ _ _ _ _ E PS L) as (log1 & E1 & M1 & N1).
    pose proof (ex_term c _ _ _ _ E1 H) as E2. pose proof (exec_wf _ _ _ E2) as W2.
    pose proof (term_frame _ _ _ _ H) as (F1 & F2 & _ & _ & _ & F6 & _).
    pose proof (PS _ _ H3) as PC. pose proof (params_frame _ _ PC) as (P1 & P2 & _ & _ & _ & P6 & _).
    rewrite P6 in He.
    assert (G2 : plain c (s_N s2)) by (rewrite F2, N1; auto).
    pose proof (step_ok_char c o s2 s3 W2 (perms_valid_ok _ _ H1) H2) as (W3 & (M3 & _) & _).
    assert (Hm : m < s_M s2). { rewrite <- M3, <- (w_nfe _ _ W3). eapply nth_error_lt; eauto. }
    destruct (row_at_Some c s2 m W2 Hm) as (r & Er & _ & _ & _ & _ & _ & Enf).
    rewrite (nfe_step c s2 o s3 m (r_nfe r)) in He; auto using perms_valid_ok.
    rewrite F6 in Enf. pose proof (IHL m _ Enf) as Hle.
    destruct (in_dec Nat.eq_dec m (s_active s2)) as [Hi|Hi]; inversion He; subst; auto.
    apply (in_active_spec c s1 _ s2 m (exec_wf _ _ _ E1) H) in Hi. destruct Hi as [_ Hno].
    unfold meets_some in Hno.
    assert (Hh : holds c s1 (CMaxEval B) m = false).
    { destruct (holds c s1 (CMaxEval B) m) eqn:Eh; auto.
      assert (existsb (fun k => holds c s1 k m) (c_crit c) = true); [|congruence].
      apply existsb_exists. eauto. }
    cbn [holds] in Hh. rewrite Enf in Hh. apply Nat.ltb_ge in Hh. lia.
  Qed.

  Theorem budget_used_up : forall (c : cfg) s log b s' B m e, exec c s log ->
    c_crit c = [CMaxEval B] -> terminate c s = Ok (b, s') -> m < s_M s ->
    ~ In m (s_active s') -> nth_error (s_nfe s) m = Some e -> B < e + c_bsize c.
  Proof.
    intros c s log b s' B m e E HC HT Hm Hi He.
    destruct (meets_some c s m) eqn:Em.
    - unfold meets_some in Em. rewrite HC in Em. cbn [existsb holds] in Em. rewrite He in Em.
      rewrite orb_false_r in Em. apply Nat.ltb_lt in Em. auto.
    - exfalso. apply Hi. apply (in_active_spec c s b s' m (exec_wf _ _ _ E) HT). auto.
  Qed.

  (** ** The counters add up *)

  Lemma list_sum_split : forall (l l' : list nat) act b, length l' = length l -> NoDup act ->
    (forall m, In m act -> m < length l) ->
    (forall m n, nth_error l m = Some n -> nth_error l' m = Some (if in_dec Nat.eq_dec m act then n + b else n)) ->
    list_sum l' = list_sum l + length act * b.
  Proof.
    intros l. induction l as [|a l IH] using rev_ind; intros l' act b Hl Hnd Hlt Hn.
    - destruct l'; [|discriminate]. destruct act as [|m act]; auto. exfalso. specialize (Hlt m). cbn in Hlt. intuition lia.
    - rewrite app_length in Hl. cbn in Hl.
      destruct (exists_last (l := l')) as (l1 & a' & ->). { intros ->. cbn in Hl. lia. }
      rewrite app_length in Hl. cbn in Hl.
      assert (Hl1 : length l1 = length l) by lia.
      assert (Ha : a' = if in_dec Nat.eq_dec (length l) act then a + b else a).
      { specialize (Hn (length l) a). rewrite !nth_error_app2 in Hn by lia. rewrite Hl1, Nat.sub_diag in Hn.
        cbn in Hn. assert (Some a = Some a) by auto. apply Hn in H. congruence. }
      assert (Hn' : forall act', (forall m, m < length l -> (In m act <-> In m act')) ->
          forall m n, nth_error l m = Some n -> nth_error l1 m = Some (if in_dec Nat.eq_dec m act' then n + b else n)).
      { intros act' Heq m n Hm. assert (m < length l) by (eapply nth_error_lt; eauto).
        specialize (Hn m n). rewrite !nth_error_app1 in Hn by lia. rewrite (Hn Hm).
        specialize (Heq m H). destruct (in_dec Nat.eq_dec m act); destruct (in_dec Nat.eq_dec m act'); tauto. }
      rewrite !list_sum_app. cbn [list_sum fold_right]. rewrite !Nat.add_0_r.
      destruct (in_dec Nat.eq_dec (length l) act) as [Hi|Hi].
      + destruct (in_split _ _ Hi) as (u & v & ->). apply NoDup_remove in Hnd. destruct Hnd as [Hnd Hni].
        rewrite (IH l1 (u ++ v) b); auto.
        * rewrite !app_length. cbn. subst a'. lia.
        * intros m Hm. specialize (Hlt m). rewrite app_length in Hlt. cbn in Hlt.
          assert (m < length l + 1). { apply Hlt. apply in_app_or in Hm. apply in_or_app. cbn. tauto. }
          assert (m <> length l). { intros ->. contradiction. } lia.
        * apply Hn'. intros m Hm. rewrite !in_app_iff. cbn. split; [|tauto]. intros [?|[?|?]]; auto. lia.
      + rewrite (IH l1 act b); auto. { subst a'. lia. }
        * intros m Hm. specialize (Hlt m Hm). rewrite app_length in Hlt. cbn in Hlt.
          assert (m <> length l). { intros ->. contradiction. } lia.
        * apply Hn'. tauto.
  Qed.

  Lemma evaluated_length : forall (c : cfg) s (o : orc) s', wf c s -> perm_ok o s -> step c o s = Ok s' ->
    length (evaluated s s') = length (s_active s) * c_bsize c.
  Proof.
    intros c s o s' W P HS.
    destruct (step_ok_char c o s s' W P HS) as (_ & _ & (xs & Exs & Lxs & Hxs) & _).
    unfold evaluated. rewrite Exs.
    assert (H : forall (act : list nat) (ys : arr V), length ys = length act ->
      (forall k row, nth_error ys k = Some row -> length row = c_bsize c) ->
      length (concat (map2 (fun m row => map (pair m) row) act ys)) = length act * c_bsize c).
    { induction act; intros ys Hl Hr; destruct ys; cbn in *; try discriminate; auto.
      rewrite app_length, map_length, IHact; auto. rewrite (Hr 0 l); auto. intros. apply (Hr (S k)). auto. }
    apply H; auto. intros k row Hk.
    assert (Hka : k < length (s_active s)) by (rewrite <- Lxs; eapply nth_error_lt; eauto).
    destruct (nth_error_lt_Some _ _ _ Hka) as [m Em].
    assert (Hm : m < s_M s) by (apply W; eapply nth_error_In; eauto).
    destruct (row_at_Some c s m W Hm) as (r & _ & Ex & _).
    destruct (Hxs _ _ _ Em Ex) as (xb & E1 & E2). rewrite Hk in E1. inversion E1; subst.
    rewrite (takeM_length _ _ _ _ E2). apply run_sel_length; auto.
  Qed.

  Definition count_inv (s : st) (log : list (nat * V)) : Prop :=
    list_sum (s_nfe s) = s_fcalls s /\
    (s_fcalls s = length log \/ s_fcalls s = s_M s * s_N s + length log).

  Lemma list_sum_repeat : forall n m, list_sum (repeat n m) = m * n.
  Proof. induction m; cbn; auto. Qed.

  Theorem exec_counts : forall (c : cfg) s log, exec c s log -> plain c (s_N s) -> count_inv s log.
  Proof.
    intros c s log E. induction E; intros G.
    - destruct H as (x0 & chk & al & sg & la & dt & perm0 & names & extra & save & Hx & HN & Hb & Hp & Hs & H).
      unfold init in H. apply bind_ok in H. destruct H as (bp & Ebp & H). injection H as E0.
      match type of E0 with init_history _ _ _ ?s1 = _ => destruct (init_history_char names extra save s1) as (ts & h & E & _ & _) end.
      rewrite E in E0. clear E. rewrite <- E0. clear E0 G s. unfold count_inv. sst. rewrite list_sum_repeat.
      destruct chk; cbn; lia.
    - pose proof (exec_wf _ _ _ E) as W. pose proof (perms_valid_ok _ _ H) as P.
      pose proof (step_ok_char c o s s' W P H0) as (W' & (M' & N' & _) & _).
      assert (G0 : plain c (s_N s)) by (rewrite <- N'; auto).
      destruct (IHE G0) as [I1 I2].
      destruct G0 as [G1 G2].
      destruct (step_char c o s W P G1 G2) as (s1 & HS1 & _ & Fr & _).
      assert (s1 = s') by congruence. subst s1.
      destruct Fr as (_ & _ & _ & _ & _ & _ & _ & _ & _ & _ & _ & _ & Fc).
      unfold count_inv. rewrite app_length, (evaluated_length c s o s'), M', N' by auto.
      rewrite Fc. split; [|lia].
      rewrite <- I1. apply list_sum_split.
      + rewrite (w_nfe _ _ W'), (w_nfe _ _ W). auto.
      + apply incr_NoDup. apply W.
      + intros. rewrite (w_nfe _ _ W). apply W; auto.
      + intros m n Hn. eapply nfe_step; eauto. split; auto.
    - apply terminate_char in H. destruct H as (act & re & -> & _). destruct s; apply IHE; auto.
    - destruct H as (al & sg & la & d & Hal & ->). destruct s; apply IHE; auto.
    - destruct (reset_char s) as (ts & h & Er & _). rewrite Er in *. destruct s; apply IHE; auto.
  Qed.
End Frozen.
