(** * What a successful step does not touch *)
From Coq Require Import String List Arith Bool Lia.
From Verif Require Import Scalar Np NpFacts State Pdyn PdynFacts PdynStep PdynRun Exec PdynOk.
Import ListNotations.
Open Scope nat_scope.
Open Scope list_scope.

Section Frame.
  Context {K V : Type} {O : KOps K}.
  Notation F := (fl K).
  Notation st := (st K V).
  Notation cfg := (cfg K V).
  Notation orc := (orc V).

  Lemma maybe_save_frame : forall (c : cfg) (s s' : st), maybe_save_points c s = Ok s' ->
    exists cep, s' = set_cep cep s.
  Proof.
    unfold maybe_save_points; intros. destruct (c_savepts c).
    - destruct (s_cep s).
      + apply bind_ok in H. destruct H as (xs & _ & H). apply bind_ok in H. destruct H as (p' & _ & H).
        inversion H; subst. eauto.
      + inversion H; subst. eauto.
    - inversion H; subst. exists (s_cep s'). destruct s'; auto.
  Qed.

  Lemma compute_consensus_frame : forall (c : cfg) (s s' : st), compute_consensus c s = Ok s' ->
    exists cep e cp fc nf, s' = set_energy e (set_cons (Some cp) (set_fcalls fc (set_nfe nf (set_cep cep s)))).
  Proof.
    unfold compute_consensus; intros. apply bind_ok in H. destruct H as (s0 & E0 & H).
    apply maybe_save_frame in E0. destruct E0 as (cep & ->).
    apply bind_ok in H. destruct H as (xs & _ & H). unfold eval_f in H.
    apply bind_ok in H. destruct H as (al & _ & H). apply bind_ok in H. destruct H as (cpt & _ & H).
    apply bind_ok in H. destruct H as (en & _ & H). inversion H. eexists _, _, _, _, _. reflexivity.
  Qed.

  Lemma cbo_step_frame : forall (c : cfg) (o : orc) (s s' : st), cbo_step c o s = Ok s' ->
    exists x d cep e cp fc nf,
      s' = set_x x (set_drift (Some d) (set_energy e (set_cons (Some cp) (set_fcalls fc (set_nfe nf (set_cep cep s)))))).
  Proof.
    unfold cbo_step; intros c o s s' H. apply bind_ok in H. destruct H as (s1 & E1 & H).
    apply compute_consensus_frame in E1. destruct E1 as (cep & e & cp & fc & nf & ->). sstall.
    apply bind_ok in H. destruct H as (xp & _ & H).
    apply bind_ok in H. destruct H as (d0 & _ & H).
    apply bind_ok in H. destruct H as ([d s3] & Hc & H).
    apply correction_ok in Hc. destruct Hc as (fc' & nf' & -> & _).
    apply bind_ok in H. destruct H as (xp' & _ & H).
    apply bind_ok in H. destruct H as (x' & Hx' & H). inversion H.
    exists x', d, cep, e, cp, fc', nf'. destruct s; reflexivity.
  Qed.

  Lemma hist_append_frame : forall k v (s s' : st), hist_append k v s = Ok s' ->
    exists l, hist_get k (s_hist s) = Some l /\ s' = set_hist (hist_set k (l ++ [v]) (s_hist s)) s.
  Proof. unfold hist_append; intros. destruct (hist_get k (s_hist s)); inversion H; eauto. Qed.

  Lemma trk_update_frame : forall (c : cfg) t (s : st) t' s', trk_update c t s = Ok (t', s') -> exists h, s' = set_hist h s.
  Proof.
    intros. destruct t; cbn [trk_update] in H.
    - apply bind_ok in H. destruct H as (s1 & E & H). apply hist_append_frame in E. destruct E as (l & _ & ->). inversion H. eauto.
    - apply bind_ok in H. destruct H as (s1 & E & H). apply hist_append_frame in E. destruct E as (l & _ & ->). inversion H. eauto.
    - apply bind_ok in H. destruct H as (s1 & E & H). apply hist_append_frame in E. destruct E as (l & _ & ->). inversion H. eauto.
    - apply bind_ok in H. destruct H as (s1 & E & H). apply hist_append_frame in E. destruct E as (l & _ & ->). inversion H. eauto.
    - destruct (s_drift s); [|discriminate].
      apply bind_ok in H. destruct H as (s1 & E & H). apply hist_append_frame in E. destruct E as (l & _ & ->). inversion H. eauto.
    - apply bind_ok in H. destruct H as (s1 & E & H). apply hist_append_frame in E. destruct E as (l & _ & ->).
      apply bind_ok in H. destruct H as (s2 & E & H). apply hist_append_frame in E. destruct E as (l2 & _ & ->).
      inversion H. eexists. destruct s; reflexivity.
    - destruct tracking.
      + destruct (attr_of name s).
        * apply bind_ok in H. destruct H as (s1 & E & H). apply hist_append_frame in E. destruct E as (l & _ & ->). inversion H. eauto.
        * inversion H; subst. exists (s_hist s'). destruct s'; auto.
      + inversion H; subst. exists (s_hist s'). destruct s'; auto.
  Qed.

  Lemma trks_update_frame : forall (c : cfg) ts (s : st) ts' s', trks_update c ts s = Ok (ts', s') -> exists h, s' = set_hist h s.
  Proof.
    induction ts; cbn [trks_update]; intros.
    - inversion H; subst. exists (s_hist s'). destruct s'; auto.
    - apply bind_ok in H. destruct H as ([t' s1] & E & H). apply trk_update_frame in E. destruct E as (h & ->).
      cbn [fst snd] in H. apply bind_ok in H. destruct H as ([ts1 s2] & E & H). apply IHts in E. destruct E as (h2 & ->).
      inversion H. exists h2. destruct s; auto.
  Qed.

  Lemma track_frame : forall (c : cfg) (s s' : st), track c s = Ok s' ->
    exists ti ts h, s' = set_trackit ti (set_tracks ts (set_hist h s)).
  Proof.
    unfold track; intros. destruct (s_save s); [discriminate|]. destruct (_ =? 0).
    - apply bind_ok in H. destruct H as ([ts s1] & E & H). apply trks_update_frame in E. destruct E as (h & ->).
      inversion H. eexists _, _, _. reflexivity.
    - inversion H; subst. exists (s_trackit s'), (s_tracks s'), (s_hist s'). destruct s'; auto.
  Qed.

  (** the state that [track] sees *)
  Lemma post_step_frame : forall (c : cfg) (s s' : st), post_step c s = Ok s' ->
    exists x ud fm bcp bce be bp s5,
      track c (set_bp bp (set_be be (set_bce bce (set_bcp bcp (set_fmin fm (set_udiff ud (set_x x s))))))) = Ok s5 /\
      s' = set_it (S (s_it s)) (set_t (fadd (s_t s) (s_dt s)) s5).
  Proof.
    unfold post_step; intros. cbv zeta in H. apply bind_ok in H. destruct H as (s3 & E3 & H).
    apply bind_ok in H. destruct H as (s5 & E5 & H).
    unfold update_best_cur in E3. apply bind_ok in E3. destruct E3 as (am & _ & E3). cbv zeta in E3.
    apply bind_ok in E3. destruct E3 as (p & _ & E3). apply bind_ok in E3. destruct E3 as (e & _ & E3).
    inversion E3; subst s3; clear E3. unfold update_best in E5. ssti E5.
    destruct (s_xold s) as [xo|].
    - ssti E5. eexists _, _, _, _, _, _, _, s5. split.
      + rewrite <- E5. f_equal.
      + inversion H. apply track_frame in E5. destruct E5 as (ti & ts & h & ->). destruct s; reflexivity.
    - ssti E5.
      match type of E5 with track c (set_bp ?bp (set_be ?be (set_bce ?bce (set_bcp ?bcp (set_fmin ?fm (set_x ?x s)))))) = _ =>
        exists x, (s_udiff s), fm, bcp, bce, be, bp, s5; assert (Ex : set_udiff (s_udiff s) (set_x x s) = set_x x s) by (destruct s; reflexivity) end.
      split.
      + rewrite Ex. exact E5.
      + inversion H. apply track_frame in E5. destruct E5 as (ti & ts & h & ->). destruct s; reflexivity.
  Qed.

  Lemma pre_step_frame : forall (c : cfg) (o : orc) (s s1 : st), pre_step c o s = Ok s1 ->
    exists ci pi ind xo, s1 = set_pidx pi (set_cidx ci (set_ind ind (set_xold xo s))).
  Proof.
    intros c o s s1 E1. exists (s_cidx s1), (s_pidx s1), (s_ind s1), (s_xold s1).
    unfold pre_step, set_batch_idx in E1. destruct (_ =? _).
    - unfold set_batch_idx_unbatched in E1. inversion E1. destruct s; reflexivity.
    - unfold set_batch_idx_batched in E1. cbv zeta in E1. apply bind_ok in E1. destruct E1 as (bs & _ & E1).
      inversion E1. destruct s; reflexivity.
  Qed.

  Lemma step_split : forall (c : cfg) (o : orc) (s s' : st), step c o s = Ok s' ->
    exists s1 s2, pre_step c o s = Ok s1 /\ cbo_step c o s1 = Ok s2 /\ post_step c s2 = Ok s'.
  Proof.
    unfold step; intros. apply bind_ok in H. destruct H as (s1 & E1 & H). apply bind_ok in H. destruct H as (s2 & E2 & H).
    eauto.
  Qed.

  Lemma step_idx_frame : forall (c : cfg) (o : orc) (s s' : st), step c o s = Ok s' ->
    exists s1, pre_step c o s = Ok s1 /\ s_cidx s' = s_cidx s1 /\ s_pidx s' = s_pidx s1 /\ s_ind s' = s_ind s1.
  Proof.
    intros c o s s' H. apply step_split in H. destruct H as (s1 & s2 & E1 & E2 & E3). exists s1. split; auto.
    apply cbo_step_frame in E2. destruct E2 as (x & d & cep & e & cp & fc & nf & ->).
    apply post_step_frame in E3. destruct E3 as (x' & ud & fm & bcp & bce & be & bp & s5 & Et & ->).
    apply track_frame in Et. destruct Et as (ti & ts & h & ->). destruct s1; auto.
  Qed.
End Frame.
