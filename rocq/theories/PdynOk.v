(** * Facts about every successful step, whatever the correction and consensus *)

From Coq Require Import String List Arith Bool Lia Permutation.
From Verif Require Import Scalar Np NpFacts State Pdyn PdynFacts PdynStep PdynRun Exec.
Import ListNotations.
Open Scope nat_scope.
Open Scope list_scope.

Lemma bind_ok : forall A B (r : res A) (k : A -> res B) b, bind r k = Ok b -> exists a, r = Ok a /\ k a = Ok b.
Proof. intros. destruct r; cbn in H; try discriminate. eauto. Qed.

Lemma iop2_shape : forall A B (f : A -> B -> A) X Y Z M N, iop2 f X Y = Ok Z -> rect M N X -> rect M N Z.
Proof.
  unfold iop2; intros A B f X Y Z M N H [R1 R2].
  apply bind_ok in H. destruct H as (Y1 & E1 & H). apply bto_length in E1.
  split. { rewrite (mapM_length _ _ _ _ _ H), combine_length. lia. }
  intros k row Hk.
  assert (k < length (combine X Y1)). { rewrite <- (mapM_length _ _ _ _ _ H). eapply nth_error_lt; eauto. }
  destruct (nth_error_lt_Some _ _ _ H0) as [[x y] E].
  destruct (mapM_nth _ _ _ _ _ _ _ H E) as (b & Eb & E2). rewrite Hk in E2. inversion E2; subst b.
  apply bind_ok in Eb. destruct Eb as (y1 & Ey & Eb). cbn [fst snd] in *. inversion Eb.
  rewrite map2_length, (bto_length _ _ _ _ Ey), Nat.min_id.
  rewrite nth_error_combine in E. destruct (nth_error X k) eqn:Ex; try discriminate.
  destruct (nth_error Y1 k); inversion E; subst. eauto.
Qed.

Lemma scatter_shape : forall A i (X Y Z : arr A) M N, scatter i X Y = Ok Z -> rect M N X -> rect M N Z.
Proof.
  intros A i X Y Z M N H R. destruct i as [|rs|rs bs]; cbn [scatter] in H.
  - eapply iop2_shape; eauto.
  - destruct (forallb _ _); try discriminate. apply bind_ok in H. destruct H as (Y1 & E1 & H).
    destruct R as [R1 R2]. split. { rewrite (mapiM_length _ _ _ _ _ H). auto. }
    intros k row Hk.
    assert (k < length X). { rewrite <- (mapiM_length _ _ _ _ _ H). eapply nth_error_lt; eauto. }
    destruct (nth_error_lt_Some _ _ _ H0) as [x E].
    destruct (mapiM_nth _ _ _ _ _ _ _ H E) as (b & Eb & E2). rewrite Hk in E2. inversion E2; subst b.
    destruct (last_index k rs).
    + rewrite (bto_length _ _ _ _ Eb). eauto.
    + inversion Eb; subst; eauto.
  - destruct (forallb _ _ && _); try discriminate. apply bind_ok in H. destruct H as (Y1 & E1 & H).
    destruct R as [R1 R2]. split. { rewrite (mapiM_length _ _ _ _ _ H). auto. }
    intros k row Hk.
    assert (k < length X). { rewrite <- (mapiM_length _ _ _ _ _ H). eapply nth_error_lt; eauto. }
    destruct (nth_error_lt_Some _ _ _ H0) as [x E].
    destruct (mapiM_nth _ _ _ _ _ _ _ H E) as (b & Eb & E2). rewrite Hk in E2. inversion E2; subst b.
    destruct (last_index k rs).
    + rewrite (put1_length _ _ _ _ _ Eb). eauto.
    + inversion Eb; subst; eauto.
Qed.

Section OkStep.
  Context {K V : Type} {O : KOps K}.
  Notation F := (fl K).
  Notation st := (st K V).
  Notation cfg := (cfg K V).
  Notation orc := (orc V).

  Lemma correction_ok : forall (c : cfg) cpt d (s : st) d' s', correction c cpt d s = Ok (d', s') ->
    exists fc nf, s' = set_fcalls fc (set_nfe nf s) /\ length nf = length (s_nfe s).
  Proof.
    unfold correction; intros. destruct (c_corr c).
    - inversion H; subst. exists (s_fcalls s'), (s_nfe s'). split; auto. destruct s'; auto.
    - apply bind_ok in H. destruct H as (z & E1 & H). apply bind_ok in H. destruct H as (d1 & E2 & H).
      inversion H; subst. eexists _, _. split; [reflexivity|]. apply map_length.
  Qed.

  Lemma cbo_step_ok : forall (c : cfg) (o : orc) (s s1 s2 : st) M N,
    compute_consensus c s = Ok s1 -> cbo_step c o s = Ok s2 -> rect M N (s_x s1) ->
    exists x' d fc nf, s2 = set_x x' (set_drift (Some d) (set_fcalls fc (set_nfe nf s1))) /\
      length nf = length (s_nfe s1) /\ rect M N x'.
  Proof.
    unfold cbo_step; intros c o s s1 s2 M N E1 HS R. rewrite E1 in HS. cbn [bind] in HS.
    destruct (s_cons s1) as [cpt|]; [|discriminate].
    apply bind_ok in HS. destruct HS as (xp & _ & HS).
    apply bind_ok in HS. destruct HS as (d0 & _ & HS).
    apply bind_ok in HS. destruct HS as ([d s3] & Hc & HS).
    apply correction_ok in Hc. destruct Hc as (fc & nf & -> & Lnf).
    apply bind_ok in HS. destruct HS as (xp' & _ & HS).
    apply bind_ok in HS. destruct HS as (x' & Hx' & HS). inversion HS as [HS2]. clear HS.
    apply scatter_shape with (M := M) (N := N) in Hx'; [|exact R].
    exists x', d, fc, nf. auto.
  Qed.

  (** what a successful step does, whatever the new positions *)
  Definition good_step (c : cfg) (o : orc) (s s' : st) : Prop :=
    wf c s' /\
      (s_M s' = s_M s /\ s_N s' = s_N s /\ s_alpha s' = s_alpha s /\ s_sigma s' = s_sigma s /\
       s_lamda s' = s_lamda s /\ s_dt s' = s_dt s /\ s_t s' = fadd (s_t s) (s_dt s) /\
       s_it s' = S (s_it s) /\ s_active s' = s_active s /\ s_reason s' = s_reason s /\
       s_save s' = s_save s /\ s_xold s' = Some (s_x s)) /\
      (exists xs, gather (s_cidx s') (s_x s) = Ok xs /\ length xs = length (s_active s) /\
         forall k m xr, nth_error (s_active s) k = Some m -> nth_error (s_x s) m = Some xr ->
           exists xb, nth_error xs k = Some xb /\ takeM xr (run_sel c o s m) = Ok xb) /\
      (forall m r, row_at s m = Some r -> exists xr er nf r',
         (In m (s_active s) -> exists xb, takeM (r_x r) (run_sel c o s m) = Ok xb /\
                                put1 (run_sel c o s m) (r_e r) (map (c_f c) xb) = Ok er) /\
         (~ In m (s_active s) -> er = r_e r) /\
         run_post c (r_x r) (mkrow xr er (r_a r) (r_be r) (r_bp r) nf (r_ud r) (r_fmin r) (r_bce r) (r_bcp r)) = Ok r' /\
         row_at s' m = Some r').

  Lemma inner_ok_char : forall (c : cfg) (o : orc) (s s0 sc : st) x' d fc nf s',
    wf c s -> perm_ok o s -> pre_step c o s = Ok s0 -> compute_consensus c s0 = Ok sc ->
    length nf = length (s_nfe sc) -> rect (s_M s) (s_N s) x' ->
    post_step c (set_x x' (set_drift (Some d) (set_fcalls fc (set_nfe nf sc)))) = Ok s' ->
    good_step c o s s'.
  Proof.
    intros c o s s0 sc x' d fc nf s' W P Epre0 Ecc0 Lnf Hx' HP. unfold good_step.
    destruct (pre_step_char c o s W P) as (ci & pi & ind & Epre & Gc & Gp & Hsel & Hind1 & Hind2).
    rewrite Epre in Epre0. injection Epre0 as <-. clear Epre.
    set (s1 := set_pidx pi (set_cidx ci (set_ind ind (set_xold (Some (s_x s)) s)))) in *.
    pose proof (incr_NoDup _ (w_act _ _ W)) as Hnd.
    assert (Hact : forall k, k < length (s_active s) -> exists m, nth_error (s_active s) k = Some m /\ m < s_M s).
    { intros k Hk. destruct (nth_error_lt_Some _ _ _ Hk) as [m Hm]. exists m. split; auto.
      apply W. eapply nth_error_In; eauto. }
    assert (Hsl : forall k, k < length (s_active s) -> length (sel ci k (s_N s)) = c_bsize c).
    { intros k Hk. destruct (Hact k Hk) as (m & E & Hm). rewrite (proj1 (Hsel _ _ E)).
      apply run_sel_length; auto. }
    destruct (compute_consensus_char c s1) as
      (cep' & en & cp & nb & xs & Ecc & Exs & Esv & Ren & Hcep & Lcp & Hnb & Hrow & Hinact);
      unfold s1 in *; sstall; auto; try apply W.
    { intros. rewrite !Hsl; auto. }
    rewrite Ecc in Ecc0. injection Ecc0 as <-. clear Ecc. ssti Lnf.
    match type of HP with post_step c ?z = _ => set (s2 := z) in * end.
    destruct (post_step_char c s2 (s_x s)) as (s'' & Ep & R); subst s2; sstall; auto; try apply W.
    { discriminate. }
    rewrite Ep in HP. inversion HP; subst s''. clear HP.
    destruct R as (X1 & X2 & X3 & X4 & X5 & X6 & X7 & X8 & X9 & X10 & X11 & X12 & X13 & X14 & X15 & X16 &
                   X17 & X18 & X19 & X20 & X21 & X22 & X23 & X24 & X25 & X26 & X27 & Rows).
    assert (Hin : c_bsize c <> s_N s -> length ind = s_M s /\
         forall m, m < s_M s -> nth_error ind m = Some (skipn (c_bsize c) (ind_next c o s m))) by auto.
    split.
    { constructor; rewrite ?X6, ?X7; try (apply W).
      - rewrite X1. destruct Hx' as [A1 A2]. split. { rewrite map_length; auto. }
        intros k row. rewrite nth_error_map. destruct (nth_error x' k) eqn:E; cbn; intros H; inversion H.
        rewrite map_length. eauto.
      - rewrite X2; auto.
      - rewrite X3; apply W.
      - auto. - auto.
      - rewrite X4, Lnf. unfold add_at. rewrite mapi_length. apply W.
      - auto. - auto.
      - rewrite X14. apply W.
      - rewrite X13. apply W.
      - intros m. rewrite X13. apply W.
      - intros Hb. rewrite X17. destruct (Hin Hb) as [L1 L2]. split; [auto|].
        destruct (ind_rows c o s W P Hb) as [_ Hir]. cbv zeta in Hir.
        split.
        + intros k row Ek.
          assert (Hk : k < s_M s) by (rewrite <- L1; eapply nth_error_lt; eauto).
          assert (H0 : 0 < s_M s) by lia.
          rewrite (L2 k Hk) in Ek. inversion Ek; subst row.
          pose proof (L2 0 H0) as E0. destruct ind as [|i0 ind']; cbn in E0; inversion E0; subst i0.
          cbn [shape1]. rewrite !skipn_length.
          destruct (Hir k Hk) as (_ & Lk & _). destruct (Hir 0 H0) as (_ & L0 & _). rewrite Lk, L0. auto.
        + intros k row j Ek Hj.
          assert (Hk : k < s_M s) by (rewrite <- L1; eapply nth_error_lt; eauto).
          rewrite (L2 k Hk) in Ek. inversion Ek; subst row.
          destruct (Hir k Hk) as (_ & _ & Lt). apply Lt.
          rewrite <- (firstn_skipn (c_bsize c)). apply in_or_app; auto.
      - rewrite X18. auto.
      - rewrite X19. apply W.
      - auto. }
    split.
    { rewrite X6, X7, X3, X8, X9, X10, X11, X12, X13, X14, X19, X22. repeat split; auto. }
    split.
    { rewrite X15. exists xs. split; [auto|].
      destruct (gather_rows _ _ _ _ _ _ Gc (w_actlt _ _ W) (w_x _ _ W)) as (Y & E & L & HY).
      rewrite Exs in E. inversion E; subst Y. split; [auto|].
      intros k m xr Em Ex. destruct (HY _ _ _ Em Ex) as (yr & Y1 & Y2).
      destruct (Hsel _ _ Em) as [S1 S2]. rewrite S1 in Y2. eauto. }
    intros m r Hr.
    destruct (row_at_lt _ _ _ Hr) as (Hm0 & Ex & Ee & Ea & Ebe & Ebp & Enf & Eud & Efm & Ebce & Ebcp).
    rewrite (proj1 (w_x _ _ W)) in Hm0.
    assert (exists xr, nth_error x' m = Some xr) as [xr Exr].
    { apply nth_error_lt_Some. rewrite (proj1 Hx'). auto. }
    assert (exists nfm, nth_error nf m = Some nfm) as [nfm Enfm].
    { apply nth_error_lt_Some. rewrite Lnf. unfold add_at. rewrite mapi_length. rewrite (w_nfe _ _ W). auto. }
    destruct (in_dec Nat.eq_dec m (s_active s)) as [Hi|Hi].
    - destruct (In_nth_error _ _ Hi) as [k Em].
      destruct (w_al _ _ W) as [_ Wa]. pose proof (Wa _ _ Ea) as La.
      destruct (r_a r) as [|a [|]] eqn:Era; try discriminate.
      destruct (Hrow k m _ _ a Em Ex Ee Ea) as (xb & er' & T1 & T2 & T3 & T4 & T5).
      destruct (Hsel _ _ Em) as [S1 S2]. rewrite S1 in *.
      destruct (Rows m (mkrow xr er' [a] (r_be r) (r_bp r) nfm (r_ud r) (r_fmin r) (r_bce r) (r_bcp r)) (r_x r))
        as (r' & P1 & P2); auto.
      { unfold row_at. sst. rewrite Exr, T3, Ea, Ebe, Ebp, Eud, Efm, Ebce, Ebcp, Enfm. auto. }
      exists xr, er', nfm, r'. split; [eauto|]. split; [tauto|]. auto.
    - destruct (Rows m (mkrow xr (r_e r) (r_a r) (r_be r) (r_bp r) nfm (r_ud r) (r_fmin r) (r_bce r) (r_bcp r)) (r_x r))
        as (r' & P1 & P2); auto.
      { unfold row_at. sst. rewrite Hinact, Exr, Ee, Ea, Ebe, Ebp, Eud, Efm, Ebce, Ebcp, Enfm by auto. auto. }
      exists xr, (r_e r), nfm, r'. split; [tauto|]. split; [auto|]. auto.
  Qed.

  Lemma pre_cons_ok : forall (c : cfg) (o : orc) (s : st), wf c s -> perm_ok o s ->
    exists s0 sc, pre_step c o s = Ok s0 /\ compute_consensus c s0 = Ok sc /\ s_x sc = s_x s /\ s_M sc = s_M s /\ s_N sc = s_N s.
  Proof.
    intros c o s W P.
    destruct (pre_step_char c o s W P) as (ci & pi & ind & Epre & Gc & Gp & Hsel & Hind1 & Hind2).
    set (s1 := set_pidx pi (set_cidx ci (set_ind ind (set_xold (Some (s_x s)) s)))) in *.
    pose proof (incr_NoDup _ (w_act _ _ W)) as Hnd.
    assert (Hsl : forall k, k < length (s_active s) -> length (sel ci k (s_N s)) = c_bsize c).
    { intros k Hk. destruct (nth_error_lt_Some _ _ _ Hk) as [m Hm]. rewrite (proj1 (Hsel _ _ Hm)).
      apply run_sel_length; auto. apply W. eapply nth_error_In; eauto. }
    destruct (compute_consensus_char c s1) as
      (cep' & en & cp & nb & xs & Ecc & Exs & Esv & Ren & Hcep & Lcp & Hnb & Hrow & Hinact);
      unfold s1 in *; sstall; auto; try apply W.
    { intros. rewrite !Hsl; auto. }
    eexists _, _. split; [exact Epre |]. split; [exact Ecc |]. sst. auto.
  Qed.

  Theorem step_ok_char : forall (c : cfg) (o : orc) s s',
    wf c s -> perm_ok o s -> step c o s = Ok s' ->
    wf c s' /\
      (s_M s' = s_M s /\ s_N s' = s_N s /\ s_alpha s' = s_alpha s /\ s_sigma s' = s_sigma s /\
       s_lamda s' = s_lamda s /\ s_dt s' = s_dt s /\ s_t s' = fadd (s_t s) (s_dt s) /\
       s_it s' = S (s_it s) /\ s_active s' = s_active s /\ s_reason s' = s_reason s /\
       s_save s' = s_save s /\ s_xold s' = Some (s_x s)) /\
      (exists xs, gather (s_cidx s') (s_x s) = Ok xs /\ length xs = length (s_active s) /\
         forall k m xr, nth_error (s_active s) k = Some m -> nth_error (s_x s) m = Some xr ->
           exists xb, nth_error xs k = Some xb /\ takeM xr (run_sel c o s m) = Ok xb) /\
      (forall m r, row_at s m = Some r -> exists xr er nf r',
         (In m (s_active s) -> exists xb, takeM (r_x r) (run_sel c o s m) = Ok xb /\
                                put1 (run_sel c o s m) (r_e r) (map (c_f c) xb) = Ok er) /\
         (~ In m (s_active s) -> er = r_e r) /\
         run_post c (r_x r) (mkrow xr er (r_a r) (r_be r) (r_bp r) nf (r_ud r) (r_fmin r) (r_bce r) (r_bcp r)) = Ok r' /\
         row_at s' m = Some r').
  Proof.
    intros c o s s' W P HS. unfold step in HS.
    destruct (pre_cons_ok c o s W P) as (s0 & sc & E1 & E2 & Ex & EM & EN).
    rewrite E1 in HS. cbn [bind] in HS. apply bind_ok in HS. destruct HS as (s2 & HS & HP).
    destruct (cbo_step_ok _ _ _ _ _ (s_M s) (s_N s) E2 HS) as (x' & d & fc & nf & Es2 & Lnf & Hx').
    { rewrite Ex. apply W. }
    subst s2. exact (inner_ok_char c o s s0 sc x' d fc nf s' W P E1 E2 Lnf Hx' HP).
  Qed.

  (** ** The other operations of an execution *)

  Lemma is_array_rect : forall A M N (X : arr A), is_array M N X -> rect M N X.
  Proof.
    intros A M N X [H1 H2]. split; auto. intros. rewrite Forall_forall in H2. apply H2.
    eapply nth_error_In; eauto.
  Qed.

  Lemma perms_valid_ok : forall (o : orc) (s : st), perms_valid o s -> perm_ok o s.
  Proof.
    intros o s H m Hm. specialize (H m Hm). split.
    - rewrite (Permutation_length H). apply seq_length.
    - intros j Hj. eapply Permutation_in in Hj; eauto. apply in_seq in Hj. lia.
  Qed.

  Lemma fold_trk_init : forall (ts : list trk) (s : st), exists h, fold_left (fun acc t => trk_init t acc) ts s = set_hist h s /\
    (forall k, (exists v, hist_get k (s_hist s) = Some v) -> exists v, hist_get k h = Some v) /\
    (forall t k, In t ts -> In k (trk_keys t) -> exists v, hist_get k h = Some v).
  Proof.
    induction ts; intros; cbn [fold_left].
    - exists (s_hist s). split. { destruct s; auto. } split; auto. intros; contradiction.
    - assert (exists h1, trk_init a s = set_hist h1 s /\
        (forall k, (exists v, hist_get k (s_hist s) = Some v) -> exists v, hist_get k h1 = Some v) /\
        (forall k, In k (trk_keys a) -> exists v, hist_get k h1 = Some v)) as (h1 & E & Hold & Hnew).
      { destruct a; cbn [trk_init trk_keys]; eexists; (split; [reflexivity|]); split;
          intros k Hk; rewrite ?hist_get_set;
          repeat (match goal with |- context [String.eqb ?a ?b] => destruct (String.eqb_spec a b) end; eauto);
          cbn in Hk; intuition congruence. }
      rewrite E. destruct (IHts (set_hist h1 s)) as (h & E2 & Hold2 & Hnew2).
      exists h. split. { rewrite E2. destruct s; auto. } sstall. split; eauto.
      intros t k [->|Ht] Hk; eauto.
  Qed.

  Lemma init_history_char : forall names extra save (s : st), exists ts h,
    init_history names extra save s =
      set_hist h (set_trackit 0 (set_tracks ts (set_save (match save with Some k => k | None => 1 end) s))) /\
    keys_ok ts h /\
    ts = extra ++ map known_track (match names with Some l => l | None => ["update_norm"; "energy"] end)%string.
  Proof.
    intros. unfold init_history. cbv zeta.
    match goal with |- context [fold_left _ ?ts0 ?s0] => destruct (fold_trk_init ts0 s0) as (h & E & _ & Hk); exists ts0, h end.
    rewrite E. split. { destruct s; reflexivity. } split; [|auto]. intros t k Ht Hkk. eauto.
  Qed.

  Lemma constructed_wf : forall (c : cfg) (s : st), constructed c s -> wf c s.
  Proof.
    intros c s (x0 & chk & al & sg & la & dt & perm0 & names & extra & save & Hx & HN & Hb & Hp & Hs & H).
    unfold init in H. apply bind_ok in H. destruct H as (bp & Ebp & H). inversion H. clear H.
    match goal with |- context [init_history _ _ _ ?s1] => set (s0 := s1) in * end.
    destruct (init_history_char names extra save s0) as (ts & h & E & Hk & _). rewrite E in *.
    pose proof (mapM_length _ _ _ _ _ Ebp) as Lbp. clear E H1.
    assert (Rep : forall A (v : A) n k row m, nth_error (repeat (repeat v n) m) k = Some row -> length row = n).
    { intros. apply nth_error_In in H. apply repeat_spec in H. subst. apply repeat_length. }
    subst s0. constructor; sst; auto; try (rewrite repeat_length; auto).
    - apply is_array_rect; auto.
    - split. apply repeat_length. intros; eauto.
    - split. apply repeat_length. intros k row Hkk. apply nth_error_In, repeat_spec in Hkk. subst; auto.
    - clear. generalize 0. induction (length x0); intros; cbn; constructor. 2: apply IHn.
      intros. apply in_seq in H. lia.
    - intros m Hm. apply in_seq in Hm. lia.
    - intros Hb2. destruct (Nat.eqb_spec (c_bsize c) (shape1 x0)); [tauto|].
      rewrite map_length, seq_length.
      assert (Hr : forall k row, nth_error (map perm0 (seq 0 (length x0))) k = Some row ->
                 Permutation row (seq 0 (shape1 x0))).
      { intros k row Ek. rewrite nth_error_map, nth_error_seq in Ek.
        destruct (Nat.ltb_spec k (length x0)); inversion Ek. apply Hp. auto. }
      split; [auto|]. split.
      + intros k row Ek. destruct (map perm0 (seq 0 (length x0))) eqn:El. { destruct k; discriminate. }
        cbn [shape1]. rewrite (Permutation_length (Hr _ _ Ek)), (Permutation_length (Hr 0 l eq_refl)). auto.
      + intros k row j Ek Hj. apply (Permutation_in _ (Hr _ _ Ek)) in Hj. apply in_seq in Hj. lia.
    - destruct save as [[|n]|]; auto; try lia. congruence.
  Qed.

  Lemma reset_char : forall s : st, exists ts h,
    reset s = set_t (Fin k0) (set_hist h (set_trackit 0 (set_tracks ts (set_save 1 (set_it 0 s))))) /\ keys_ok ts h.
  Proof.
    intros. unfold reset. destruct (init_history_char None [] None (set_it 0 s)) as (ts & h & E & Hk & _).
    rewrite E. exists ts, h. split; auto.
  Qed.

  Lemma reset_wf : forall (c : cfg) (s : st), wf c s -> wf c (reset s).
  Proof.
    intros c s W. destruct (reset_char s) as (ts & h & E & Hk). rewrite E.
    destruct W. destruct s. cbn in *. constructor; sst; auto.
  Qed.

  Lemma sar_char : forall (c : cfg) (s s' : st), select_active_runs c s = Ok s' ->
    exists act reason, s' = set_reason reason (set_active act s) /\ incr act /\
      (forall m, In m act -> m < s_M s) /\ length reason = length (s_reason s).
  Proof.
    unfold select_active_runs; intros. apply bind_ok in H. destruct H as (loc & El & H).
    inversion H. eexists _, _. split; [reflexivity|]. split.
    - unfold np_where. apply where_from_incr.
    - split. + intros m Hm. apply np_where_spec in Hm. apply nth_error_lt in Hm.
      rewrite !map_length, seq_length in Hm. auto.
      + apply mapi_length.
  Qed.

  Lemma terminate_char : forall (c : cfg) (s s' : st) b, terminate c s = Ok (b, s') ->
    exists act reason, s' = set_reason reason (set_active act s) /\ incr act /\
      (forall m, In m act -> m < s_M s) /\ length reason = length (s_reason s).
  Proof.
    unfold terminate; intros. apply bind_ok in H. destruct H as (s1 & E & H). inversion H; subst.
    eapply sar_char; eauto.
  Qed.

  Lemma terminate_wf : forall (c : cfg) (s s' : st) b, terminate c s = Ok (b, s') -> wf c s -> wf c s'.
  Proof.
    intros. apply terminate_char in H. destruct H as (act & reason & -> & H1 & H2 & H3).
    destruct H0. destruct s. cbn in *. constructor; sst; auto. congruence.
  Qed.

  Lemma params_wf : forall (c : cfg) (s s' : st), params_changed s s' -> wf c s -> wf c s'.
  Proof.
    intros c s s' (al & sg & la & d & Hal & ->) W. destruct W. destruct s. cbn in *.
    constructor; sst; auto. apply is_array_rect, Hal.
    destruct w_al as [A1 A2]. split; auto. apply Forall_forall. intros row Hr. apply In_nth_error in Hr. destruct Hr as [k Hk]. eauto.
  Qed.

  Theorem exec_wf : forall (c : cfg) (s : st) log, exec c s log -> wf c s.
  Proof.
    induction 1.
    - apply constructed_wf; auto.
    - eapply step_ok_char; eauto. apply perms_valid_ok; auto.
    - eapply terminate_wf; eauto.
    - eapply params_wf; eauto.
    - apply reset_wf; auto.
  Qed.
End OkStep.
