(** * Changing penalty weights: the values behind the best particle *)
From Coq Require Import String List Arith Bool Permutation Lia.
From Verif Require Import Scalar ScalarFacts Np NpFacts State Pdyn PdynFacts PdynStep PdynRun PdynOk Exec BcFacts StepFrame BestFacts
  Memory MemSpec MemFacts MemFacts2 MemFacts3 RegSched RegFacts Variant VarSpec VarFacts VarMove RegVar PenSpec.
Import ListNotations.
Open Scope nat_scope.
Open Scope list_scope.

Section Step.
  Context {K V : Type} {O : KOps K}.
  Notation F := (fl K).
  Notation st := (st K V).
  Notation cfg := (cfg K V).
  Notation orc := (orc V).

  (** compute_consensus with an objective whose value on the points of run [m] is [g m] *)
  Lemma ccw_char : forall T (obj : arr V -> T -> res (T * arr F)) (c : cfg) (s : st) e0 e1 xs ev (g : nat -> V -> F),
    gather (s_cidx s) (s_x s) = Ok xs -> obj xs e0 = Ok (e1, ev) -> length ev = length (s_active s) ->
    (forall k m xb, nth_error (s_active s) k = Some m -> nth_error xs k = Some xb -> nth_error ev k = Some (map (g m) xb)) ->
    gidx (s_active s) (s_M s) (s_N s) (s_cidx s) -> NoDup (s_active s) ->
    (forall m, In m (s_active s) -> m < s_M s) ->
    rect (s_M s) (s_N s) (s_x s) -> rect (s_M s) (s_N s) (s_energy s) -> rect (s_M s) 1 (s_alpha s) ->
    (forall k k', k < length (s_active s) -> k' < length (s_active s) ->
        length (sel (s_cidx s) k (s_N s)) = length (sel (s_cidx s) k' (s_N s))) ->
    match s_cep s with Some p => rect (s_M s) (s_N s) p | None => True end ->
    exists cep' en cp nb,
      compute_consensus_with obj c s e0 =
        Ok (set_energy en (set_cons (Some cp) (set_fcalls (s_fcalls s + npoints xs)
             (set_nfe (add_at (s_active s) nb (s_nfe s)) (set_cep cep' s)))), e1) /\
      maybe_save_points c s = Ok (set_cep cep' s) /\
      rect (s_M s) (s_N s) en /\
      match cep' with Some p => rect (s_M s) (s_N s) p | None => True end /\
      length cp = length (s_active s) /\
      (forall k, k < length (s_active s) -> nb = length (sel (s_cidx s) k (s_N s))) /\
      (forall k m xr er a, nth_error (s_active s) k = Some m ->
         nth_error (s_x s) m = Some xr -> nth_error (s_energy s) m = Some er ->
         nth_error (s_alpha s) m = Some [a] ->
         exists xb er', takeM xr (sel (s_cidx s) k (s_N s)) = Ok xb /\
           put1 (sel (s_cidx s) k (s_N s)) er (map (g m) xb) = Ok er' /\
           nth_error en m = Some er' /\
           nth_error xs k = Some xb /\
           nth_error cp k = Some (c_ccrow c (map (g m) xb) xb a)) /\
      (forall m, ~ In m (s_active s) -> nth_error en m = nth_error (s_energy s) m).
  Proof.
    intros T obj c s e0 e1 xs ev g Hxs Hobj Hlev Hev Hg Hnd Hlt Hx He Hal Heq Hcep. unfold compute_consensus_with.
    destruct (save_points_char c s eq_refl Hg Hnd Hlt Hx Hcep) as (cep' & Hsp & Hcep' & _).
    rewrite Hsp. cbn [bind]. sst.
    destruct (gather_rows _ _ _ _ _ _ Hg Hlt Hx) as (xs' & Hxs' & Hlx & Hgx). rewrite Hxs in Hxs'. injection Hxs' as <-. rewrite Hxs. cbn [bind].
    rewrite Hobj. cbn [bind fst snd]. sst.
    destruct (takeM_ok _ (s_alpha s) (s_active s)) as [al Hal2].
    { intros m Hm. rewrite (proj1 Hal). auto. }
    rewrite Hal2. cbn [bind].
    pose proof (takeM_length _ _ _ _ Hal2) as Hll.
    pose proof (rect_takeM _ _ _ _ _ _ Hal Hal2) as [_ Hal1].
    assert (Hxk : forall k xb, nth_error xs k = Some xb -> exists m xr, nth_error (s_active s) k = Some m /\
                nth_error (s_x s) m = Some xr /\ takeM xr (sel (s_cidx s) k (s_N s)) = Ok xb).
    { intros k xb Hk. assert (Hka : k < length (s_active s)) by (rewrite <- Hlx; eapply nth_error_lt; eauto).
      destruct (nth_error_lt_Some _ _ _ Hka) as [m Hm].
      assert (Hm2 : m < s_M s) by (apply Hlt; eapply nth_error_In; eauto).
      rewrite <- (proj1 Hx) in Hm2. destruct (nth_error_lt_Some _ _ _ Hm2) as [xr Exr].
      exists m, xr. split; auto. split; auto.
      destruct (Hgx _ _ _ Hm Exr) as (yr & E1 & E2). congruence. }
    destruct (cc_call_rows c ev xs al) as (cp & Hcp & Hlc & Hck).
    { congruence. } { congruence. }
    { intros k er xr E1 E2. destruct (Hxk _ _ E2) as (m & xr0 & Em & _). rewrite (Hev _ _ _ Em E2) in E1. inversion E1. apply map_length. }
    { auto. }
    rewrite Hcp. cbn [bind].
    destruct (scatter_rows _ _ _ _ _ (s_energy s) ev Hg Hnd Hlt He) as (en & Hen & Hr & Ha & Hn).
    { auto. }
    { intros k yr Hk. assert (Hk2 : k < length xs) by (rewrite Hlx, <- Hlev; eapply nth_error_lt; eauto).
      destruct (nth_error_lt_Some _ _ _ Hk2) as [xb Exb]. destruct (Hxk _ _ Exb) as (m & xr & Em & _ & E3).
      rewrite (Hev _ _ _ Em Exb) in Hk. inversion Hk. rewrite map_length. eapply takeM_length; eauto. }
    rewrite Hen. cbn [bind].
    exists cep', en, cp, (shape1 xs). split. { destruct s; reflexivity. }
    split; [auto|]. split; [auto|]. split; [auto|]. split; [congruence|]. split; [|split].
    - intros k Hk. destruct xs as [|x0 xs'] eqn:Exs.
      { cbn in Hlx. lia. }
      cbn [shape1]. destruct (Hxk 0 x0 eq_refl) as (m & xr & E1 & E2 & E3).
      rewrite (takeM_length _ _ _ _ E3). apply Heq; auto. eapply nth_error_lt; eauto.
    - intros k m xr er a Hk Exr Eer Ea.
      destruct (Hgx _ _ _ Hk Exr) as (xb & E1 & E2).
      destruct (Ha k m er (map (g m) xb) Hk Eer) as (er' & E3 & E4).
      { apply Hev; auto. }
      exists xb, er'. repeat split; auto.
      apply Hck. { apply Hev; auto. } { auto. }
      erewrite takeM_nth; eauto.
    - auto.
  Qed.

  (** a step whose energies are the values [g m] of the points of run [m] *)
  Definition good_val (g : nat -> V -> F) (c : cfg) (o : orc) (s s' : st) : Prop :=
    wf c s' /\
      (s_M s' = s_M s /\ s_N s' = s_N s /\ s_active s' = s_active s) /\
      (exists xs, gather (s_cidx s') (s_x s) = Ok xs /\ length xs = length (s_active s) /\
         forall k m xr, nth_error (s_active s) k = Some m -> nth_error (s_x s) m = Some xr ->
           exists xb, nth_error xs k = Some xb /\ takeM xr (run_sel c o s m) = Ok xb) /\
      (forall m r, row_at s m = Some r -> exists xr er nf r',
         (In m (s_active s) -> exists xb, takeM (r_x r) (run_sel c o s m) = Ok xb /\
                                put1 (run_sel c o s m) (r_e r) (map (g m) xb) = Ok er) /\
         (~ In m (s_active s) -> er = r_e r) /\
         run_post c (r_x r) (mkrow xr er (r_a r) (r_be r) (r_bp r) nf (r_ud r) (r_fmin r) (r_bce r) (r_bcp r)) = Ok r' /\
         row_at s' m = Some r').

  Lemma inner_val_char : forall T (obj : arr V -> T -> res (T * arr F)) e0 e1 xs ev (g : nat -> V -> F) (c : cfg) (o : orc) (s s0 sc : st) x' d fc nf s',
    wf c s -> perm_ok o s -> pre_step c o s = Ok s0 -> gather (s_cidx s0) (s_x s0) = Ok xs -> obj xs e0 = Ok (e1, ev) ->
    length ev = length (s_active s) ->
    (forall k m xb, nth_error (s_active s) k = Some m -> nth_error xs k = Some xb -> nth_error ev k = Some (map (g m) xb)) ->
    forall e2, compute_consensus_with obj c s0 e0 = Ok (sc, e2) ->
    length nf = length (s_nfe sc) -> rect (s_M s) (s_N s) x' ->
    post_step c (set_x x' (set_drift (Some d) (set_fcalls fc (set_nfe nf sc)))) = Ok s' ->
    good_val g c o s s' /\ e2 = e1.
  Proof.
    intros T obj e0 e1 xs ev g c o s s0 sc x' d fc nf s' W P Epre0 Hxs Hobj Hlev Hev e2 Ecc0 Lnf Hx' HP. 
    destruct (pre_step_char c o s W P) as (ci & pi & ind & Epre & Gc & Gp & Hsel & Hind1 & Hind2).
    rewrite Epre in Epre0. injection Epre0 as <-. clear Epre.
    set (s1 := set_pidx pi (set_cidx ci (set_ind ind (set_xold (Some (s_x s)) s)))) in *.
    pose proof (incr_NoDup _ (w_act _ _ W)) as Hnd.
    assert (Hact : forall k, k < length (s_active s) -> exists m, nth_error (s_active s) k = Some m /\ m < s_M s).
    { intros k Hk. destruct (nth_error_lt_Some _ _ _ Hk) as [m Hm]. exists m. split; auto.
      apply W. eapply nth_error_In; eauto. }
    assert (Hsl : forall k, k < length (s_active s) -> length (sel ci k (s_N s)) = c_bsize c).
    { intros k Hk. destruct (Hact k Hk) as (m & E & Hm). rewrite (proj1 (Hsel _ _ E)).
      apply run_sel_length; auto. }
    destruct (ccw_char T obj c s1 e0 e1 xs ev g) as
      (cep' & en & cp & nb & Ecc & Esv & Ren & Hcep & Lcp & Hnb & Hrow & Hinact);
      unfold s1 in *; sstall; auto; try apply W.
    { intros. rewrite !Hsl; auto. }
    rewrite Ecc in Ecc0. injection Ecc0 as <- <-. clear Ecc. ssti Lnf. split; [|reflexivity]. unfold good_val.
    assert (Exs : gather ci (s_x s) = Ok xs) by exact Hxs.
    match type of HP with post_step c ?z = _ => set (s2 := z) in * end.
    destruct (post_step_char c s2 (s_x s)) as (s'' & Ep & R); subst s2; sstall; auto; try apply W.
    { discriminate. }
    rewrite Ep in HP. inversion HP; subst s''. clear HP.
    destruct R as (X1 & X2 & X3 & X4 & X5 & X6 & X7 & X8 & X9 & X10 & X11 & X12 & X13 & X14 & X15 & X16 &
                   X17 & X18 & X19 & X20 & X21 & X22 & X23 & X24 & X25 & X26 & X27 & Rows).
    assert (Hin : c_bsize c <> s_N s -> length ind = s_M s /\
         forall m, m < s_M s -> nth_error ind m = Some (skipn (c_bsize c) (ind_next c o s m))) by auto.
    split.
    { constructor; rewrite ?X6, ?X7; try (apply W).
      - rewrite X1. destruct Hx' as [A1 A2]. split. { rewrite map_length; auto. }
        intros k row. rewrite nth_error_map. destruct (nth_error x' k) eqn:E; cbn; intros H; inversion H.
        rewrite map_length. eauto.
      - rewrite X2; auto.
      - rewrite X3; apply W.
      - auto. - auto.
      - rewrite X4, Lnf. unfold add_at. rewrite mapi_length. apply W.
      - auto. - auto.
      - rewrite X14. apply W.
      - rewrite X13. apply W.
      - intros m. rewrite X13. apply W.
      - intros Hb. rewrite X17. destruct (Hin Hb) as [L1 L2]. split; [auto|].
        destruct (ind_rows c o s W P Hb) as [_ Hir]. cbv zeta in Hir.
        split.
        + intros k row Ek.
          assert (Hk : k < s_M s) by (rewrite <- L1; eapply nth_error_lt; eauto).
          assert (H0 : 0 < s_M s) by lia.
          rewrite (L2 k Hk) in Ek. inversion Ek; subst row.
          pose proof (L2 0 H0) as E0. destruct ind as [|i0 ind']; cbn in E0; inversion E0; subst i0.
          cbn [shape1]. rewrite !skipn_length.
          destruct (Hir k Hk) as (_ & Lk & _). destruct (Hir 0 H0) as (_ & L0 & _). rewrite Lk, L0. auto.
        + intros k row j Ek Hj.
          assert (Hk : k < s_M s) by (rewrite <- L1; eapply nth_error_lt; eauto).
          rewrite (L2 k Hk) in Ek. inversion Ek; subst row.
          destruct (Hir k Hk) as (_ & _ & Lt). apply Lt.
          rewrite <- (firstn_skipn (c_bsize c)). apply in_or_app; auto.
      - rewrite X18. auto.
      - rewrite X19. apply W.
      - auto. }
    split.
    { rewrite X6, X7, X13. repeat split; auto. }
    split.
    { rewrite X15. exists xs. split; [auto|].
      destruct (gather_rows _ _ _ _ _ _ Gc (w_actlt _ _ W) (w_x _ _ W)) as (Y & E & L & HY).
      rewrite Exs in E. inversion E; subst Y. split; [auto|].
      intros k m xr Em Ex. destruct (HY _ _ _ Em Ex) as (yr & Y1 & Y2).
      destruct (Hsel _ _ Em) as [S1 S2]. rewrite S1 in Y2. eauto. }
    intros m r Hr.
    destruct (row_at_lt _ _ _ Hr) as (Hm0 & Ex & Ee & Ea & Ebe & Ebp & Enf & Eud & Efm & Ebce & Ebcp).
    rewrite (proj1 (w_x _ _ W)) in Hm0.
    assert (exists xr, nth_error x' m = Some xr) as [xr Exr].
    { apply nth_error_lt_Some. rewrite (proj1 Hx'). auto. }
    assert (exists nfm, nth_error nf m = Some nfm) as [nfm Enfm].
    { apply nth_error_lt_Some. rewrite Lnf. unfold add_at. rewrite mapi_length. rewrite (w_nfe _ _ W). auto. }
    destruct (in_dec Nat.eq_dec m (s_active s)) as [Hi|Hi].
    - destruct (In_nth_error _ _ Hi) as [k Em].
      destruct (w_al _ _ W) as [_ Wa]. pose proof (Wa _ _ Ea) as La.
      destruct (r_a r) as [|a [|]] eqn:Era; try discriminate.
      destruct (Hrow k m _ _ a Em Ex Ee Ea) as (xb & er' & T1 & T2 & T3 & T4 & T5).
      destruct (Hsel _ _ Em) as [S1 S2]. rewrite S1 in *.
      destruct (Rows m (mkrow xr er' [a] (r_be r) (r_bp r) nfm (r_ud r) (r_fmin r) (r_bce r) (r_bcp r)) (r_x r))
        as (r' & P1 & P2); auto.
      { unfold row_at. sst. rewrite Exr, T3, Ea, Ebe, Ebp, Eud, Efm, Ebce, Ebcp, Enfm. auto. }
      exists xr, er', nfm, r'. split; [eauto|]. split; [tauto|]. auto.
    - destruct (Rows m (mkrow xr (r_e r) (r_a r) (r_be r) (r_bp r) nfm (r_ud r) (r_fmin r) (r_bce r) (r_bcp r)) (r_x r))
        as (r' & P1 & P2); auto.
      { unfold row_at. sst. rewrite Hinact, Exr, Ee, Ea, Ebe, Ebp, Eud, Efm, Ebce, Ebcp, Enfm by auto. auto. }
      exists xr, (r_e r), nfm, r'. split; [tauto|]. split; [auto|]. auto.
  Qed.
End Step.
