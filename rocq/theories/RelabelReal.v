(** * Relabelled runs of CBO over the reals *)
From Coq Require Import String List Arith Bool Reals Permutation Lia Lra.
From Verif Require Import Scalar Np NpFacts State Pdyn PdynFacts PdynStep PdynRun PdynOk Exec TermSpec RunFacts MoveFacts BestFacts RVec RVecFacts
  Consensus ConsSpec ConsFacts PostProc Cbo CboSpec CboFacts AbsorbFacts TwinSpec TwinFacts SymFacts RelabelSpec RelabelFacts.
Import ListNotations.
Open Scope R_scope.

Lemma argmin_from_nan : forall (l : list (fl R)) i bi bv, (is_nan bv = true \/ exists e, In e l /\ is_nan e = true) -> is_nan (snd (argmin_from i bi bv l)) = true.
Proof.
  induction l as [|a l IH]; cbn; intros i bi bv H.
  - destruct H as [H|(e & [] & _)]; auto.
  - destruct (is_nan bv) eqn:Eb; [cbn; auto|]. destruct (is_nan a) eqn:Ea; [cbn; auto|].
    destruct H as [H|(e & [->|He] & H)]; try congruence. destruct (fltb a bv); apply IH; eauto.
Qed.

Lemma argmin_nan : forall (l : list (fl R)) am, argmin l = Ok am -> (exists e, In e l /\ is_nan e = true) -> snd am = NaN.
Proof.
  intros [|a l] am H He; [discriminate|]. cbn in H. injection H as H.
  assert (N : is_nan (snd am) = true). { rewrite <- H. apply argmin_from_nan. destruct He as (e & [->|He] & Hn); eauto. }
  destruct (snd am); cbn in N; congruence.
Qed.

Lemma has_nan_dec : forall l : list (fl R), (exists e, In e l /\ is_nan e = true) \/ (forall e, In e l -> is_nan e = false).
Proof.
  induction l as [|a l [(e & He & Hn)|IH]]; [right; intros e []|left; exists e; cbn; auto|].
  destruct (is_nan a) eqn:Ea; [left; exists a; cbn; auto|right; intros e [<-|He]; auto].
Qed.


Lemma argmin_value_perm : forall (l l' : list (fl R)) am am', Permutation l l' -> argmin l = Ok am -> argmin l' = Ok am' -> snd am' = snd am.
Proof.
  intros l l' [j v] [j' v'] P H H'. destruct (has_nan_dec l) as [HN|HN].
  - rewrite (argmin_nan _ _ H HN). apply (argmin_nan _ _ H'). destruct HN as (e & He & Hn). exists e. split; auto. eapply Permutation_in; eauto.
  - assert (HN' : forall e, In e l' -> is_nan e = false) by (intros e He; apply HN; eapply Permutation_in; [apply Permutation_sym; eauto|auto]).
    destruct (argmin_le l j v HN H) as (_ & L). destruct (argmin_le l' j' v' HN' H') as (_ & L').
    assert (I : In v l) by (eapply nth_error_In; apply argmin_nth; eauto).
    assert (I' : In v' l') by (eapply nth_error_In; apply argmin_nth; eauto).
    assert (A : fleb v v' = true) by (apply L; eapply Permutation_in; [apply Permutation_sym; eauto|auto]).
    assert (B : fleb v' v = true) by (apply L'; eapply Permutation_in; eauto).
    cbn [snd]. clear - A B. destruct v as [x| | |], v' as [y| | |]; cbn in *; try congruence.
    f_equal. apply negb_true_iff in A, B. apply Rltb_false in A, B. lra.
Qed.

Lemma floats_list_inj : forall l l' : list (list R), map floats l = map floats l' -> l = l'.
Proof.
  assert (FI : forall u v : list R, floats u = floats v -> u = v).
  { induction u as [|a u IH]; destruct v; cbn; intros E; try discriminate; auto. injection E as -> E. f_equal. auto. }
  induction l as [|u l IH]; destruct l'; cbn; intros E; try discriminate; auto. injection E as E1 E2. f_equal; auto.
Qed.

Section Sym.
  Variables (f : vec -> fl R) (k : noise_model) (pp : vec -> vec) (b : nat) (partial cat : bool) (ks : list (crit R vec)) (save : bool).
  Variable d : nat.
  Let c := cbo_cfg f k pp NoCorr b partial cat ks save.
  Hypothesis Hks : Forall builtin ks.
  Hypothesis Hf : finite_obj d f.
  Hypothesis Hpp : forall p, length p = d -> exists q, pp (floats p) = floats q /\ length q = d.

  Lemma cbo_symmetric : symmetric c (fun v => exists p, v = floats p /\ length p = d) (finite_draws d) (fun s => finite_alpha s /\ finite_parameters s).
  Proof.
    constructor.
    - intros e x a; reflexivity.
    - reflexivity.
    - exact Hks.
    - apply argmin_value_perm.
    - intros s m a X [HA _] Hm Ha HX HP. destruct (HA m Hm) as (a' & Ha'). rewrite Ha in Ha'. injection Ha' as ->.
      destruct (choose_points (fun q => length q = d) X HP) as (Y & -> & HY).
      assert (LY : (1 <= length Y)%nat) by (destruct Y; [exfalso; apply HX; reflexivity|cbn; lia]).
      exists (floats (gibbs_point a' (map f (map floats Y)) d Y)).
      split; [exact (ccrow_finite f k pp b partial cat ks save d Y a' Hf LY HY)|]. split; [eexists; split; [reflexivity|apply gibbs_point_length]|].
      intros X' PX. destruct (Permutation_map_inv _ _ (Permutation_sym PX)) as (Y' & -> & PY).
      etransitivity; [|exact (ccrow_finite f k pp b partial cat ks save d Y a' Hf LY HY)]. cbn [c cbo_cfg c_f c_ccrow].
      apply (perm_invariant a' _ _ d).
      + eapply finite_admissible; eauto.
      + split; auto. rewrite !map_length; auto.
      + split; [rewrite !map_length; auto|]. intros q Hq. apply HY. eapply Permutation_in; [apply Permutation_sym; exact PY|auto].
      + rewrite !map_map. assert (EC : forall Z : list (list R), combine (map (fun x => f (floats x)) Z) Z = map (fun x => (f (floats x), x)) Z).
        { induction Z as [|z Z IH]; cbn; auto. rewrite IH. auto. }
        rewrite !EC. apply Permutation_map. auto.
    - intros s o kk n cp v [_ (la & dt & sg & HP)] HO (cq & -> & Lc) (x & -> & Lx). destruct (HO kk n) as (z & -> & Lz).
      pose proof (moved_floats f k pp b partial cat ks save s la dt sg cq x z HP) as MF. fold c in MF. rewrite MF.
      eexists. split; [reflexivity|]. apply length_rmove; auto.
    - intros v (p & -> & Lp). destruct (Hpp p Lp) as (q & H1 & H2). exists q. split; auto.
    - intros l l' m m' Hl Hl' Hm Hm' P LL. destruct (choose_points _ l Hl) as (X & -> & HX). destruct (choose_points _ l' Hl') as (X' & -> & HX').
      destruct (choose_points _ m Hm) as (Z & -> & HZ). destruct (choose_points _ m' Hm') as (Z' & -> & HZ').
      cbn [c cbo_cfg c_norm c_vsub] in *.
      assert (ES : forall Y Y', map2 (map2 fsub) (map floats Y) (map floats Y') = map floats (map2 vsub Y Y')).
      { induction Y as [|y Y IH]; destruct Y'; cbn; auto. rewrite IH. f_equal. apply floats_sub. }
      rewrite !ES in *. pose proof (Permutation_length P) as LP. rewrite !map_length in LP.
      assert (P2 : Permutation (map2 vsub X X') (map2 vsub Z Z')).
      { destruct (Permutation_map_inv _ _ P) as (Y & EY & PY). apply floats_list_inj in EY. rewrite EY. apply Permutation_sym. exact PY. }
      rewrite !fnorm_concat, !map_length, <- LP. do 3 f_equal. apply Rsum_perm. apply Permutation_map. apply Permutation_sym. auto.
    - intros s s' H1 H2 H3 H4 H5 [HA (la & dt & sg & Q1 & Q2 & Q3 & Q4)]. split.
      + intros m Hm. rewrite H1. apply HA. congruence.
      + exists la, dt, sg. repeat split; congruence.
  Qed.

  Theorem cbo_relabelled : forall p r s s', relabelled_runs p r c (finite_state d) (finite_draws d) s s' -> relabelled p r s s'.
  Proof. intros p r s s' H. exact (proj2 (proj2 (proj2 (proj2 (relabelled_gen p r c _ _ _ cbo_symmetric s s' H))))). Qed.

  Theorem cbo_relabelled_terminate : forall p r s s' b1 b2 s1 s1', relabelled_runs p r c (finite_state d) (finite_draws d) s s' ->
    terminate c s = Ok (b1, s1) -> terminate c s' = Ok (b2, s1') -> b1 = b2.
  Proof.
    intros p r s s' b1 b2 s1 s1' H H1 H2. destruct (relabelled_gen p r c _ _ _ cbo_symmetric s s' H) as ((l & l' & E & E') & _ & _ & _ & RL).
    exact (proj2 (term_relabel p r c _ _ _ cbo_symmetric s s' b1 b2 s1 s1' (exec_wf _ _ _ E) (exec_wf _ _ _ E') RL H1 H2)).
  Qed.

  Theorem cbo_relabelled_execs : forall p r s s', relabelled_runs p r c (finite_state d) (finite_draws d) s s' ->
    exists log log', exec c s log /\ exec c s' log'.
  Proof. intros p r s s' H. exact (proj1 (relabelled_gen p r c _ _ _ cbo_symmetric s s' H)). Qed.
End Sym.

(** the best particles may be different ones, of the same energy *)
Lemma relabelled_best : forall (f : vec -> fl R) k (pp : vec -> vec) b partial cat ks save d p r s s' m v v',
  let c := cbo_cfg f k pp NoCorr b partial cat ks save in
  Forall builtin ks -> finite_obj d f -> (forall q, length q = d -> exists q', pp (floats q) = floats q' /\ length q' = d) -> no_nan c ->
  relabelled_runs p r c (finite_state d) (finite_draws d) s s' ->
  nth_error (s_bp s) m = Some v -> nth_error (s_bp s') m = Some v' -> nth_error (s_be s) m = Some PInf \/ f v' = f v.
Proof.
  intros f k pp b partial cat ks save d p r s s' m v v' c H1 H2 H3 NN H Hv Hv'.
  pose proof (cbo_relabelled f k pp b partial cat ks save d H1 H2 H3 p r s s' H) as RL.
  destruct (cbo_relabelled_execs f k pp b partial cat ks save d H1 H2 H3 p r s s' H) as (l & l' & E & E').
  assert (Lm : (m < length (s_be s))%nat). { pose proof (exec_wf _ _ _ E) as W. rewrite (w_be _ _ W), <- (w_bp _ _ W). eapply nth_error_lt; eauto. }
  destruct (nth_error_lt_Some _ _ _ Lm) as (be & Hbe).
  assert (Hbe' : nth_error (s_be s') m = Some be) by (rewrite (rl_be _ _ _ _ RL); auto).
  destruct (best_pair c s l m be v NN E Hbe Hv) as [-> | (_ & B1)]; auto.
  destruct (best_pair c s' l' m be v' NN E' Hbe' Hv') as [-> | (_ & B2)]; auto. right. cbn in B1, B2. congruence.
Qed.
