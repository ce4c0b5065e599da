(** * Independent noise: steps and executions *)
From Coq Require Import String List Arith Bool Lia.
From Verif Require Import Scalar ScalarFacts Np NpFacts State Pdyn PdynFacts PdynStep PdynRun PdynOk Exec BcFacts StepFrame
  MemFacts MemFacts2 Variant VarSpec VarFacts VarMove KickNoise KickSpec KickFacts.
Import ListNotations.
Open Scope nat_scope.
Open Scope list_scope.

Section KickStep.
  Context {K V : Type} {O : KOps K}.
  Notation F := (fl K).
  Notation st := (st K V).
  Notation cfg := (cfg K V).
  Notation orc := (orc V).

  (** a step whose inner step starts from the ensembles [x1] instead of [s_x s] *)
  Definition good_kick (c : cfg) (o : orc) (s : st) (x1 : arr V) (s' : st) : Prop :=
    wf c s' /\
      (s_M s' = s_M s /\ s_N s' = s_N s /\ s_it s' = S (s_it s) /\ s_active s' = s_active s /\ s_xold s' = Some (s_x s)) /\
      (forall m r r1, row_at s m = Some r -> nth_error x1 m = Some r1 -> exists xr er nf r',
         (In m (s_active s) -> exists xb, takeM r1 (run_sel c o s m) = Ok xb /\
                                put1 (run_sel c o s m) (r_e r) (map (c_f c) xb) = Ok er) /\
         (~ In m (s_active s) -> er = r_e r) /\
         run_post c (r_x r) (mkrow xr er (r_a r) (r_be r) (r_bp r) nf (r_ud r) (r_fmin r) (r_bce r) (r_bcp r)) = Ok r' /\
         row_at s' m = Some r').

  Lemma kick_ok_char : forall (c : cfg) (o : orc) (s s0 sc : st) x1 x' d s',
    wf c s -> perm_ok o s -> rect (s_M s) (s_N s) x1 -> pre_step c o s = Ok s0 -> compute_consensus c (set_x x1 s0) = Ok sc ->
    rect (s_M s) (s_N s) x' -> post_step c (set_x x' (set_drift (Some d) sc)) = Ok s' ->
    good_kick c o s x1 s'.
  Proof.
    intros c o s s0 sc x1 x' d s' W P Rx1 Epre0 Ecc0 Hx' HP. unfold good_kick.
    destruct (pre_step_char c o s W P) as (ci & pi & ind & Epre & Gc & Gp & Hsel & Hind1 & Hind2).
    rewrite Epre in Epre0. injection Epre0 as <-. clear Epre.
    set (s1 := set_x x1 (set_pidx pi (set_cidx ci (set_ind ind (set_xold (Some (s_x s)) s))))) in *.
    pose proof (incr_NoDup _ (w_act _ _ W)) as Hnd.
    assert (Hact : forall k, k < length (s_active s) -> exists m, nth_error (s_active s) k = Some m /\ m < s_M s).
    { intros k Hk. destruct (nth_error_lt_Some _ _ _ Hk) as [m Hm]. exists m. split; auto.
      apply W. eapply nth_error_In; eauto. }
    assert (Hsl : forall k, k < length (s_active s) -> length (sel ci k (s_N s)) = c_bsize c).
    { intros k Hk. destruct (Hact k Hk) as (m & E & Hm). rewrite (proj1 (Hsel _ _ E)).
      apply run_sel_length; auto. }
    destruct (compute_consensus_char c s1) as
      (cep' & en & cp & nb & xs & Ecc & Exs & Esv & Ren & Hcep & Lcp & Hnb & Hrow & Hinact);
      unfold s1 in *; sstall; auto; try apply W.
    { intros. rewrite !Hsl; auto. }
    rewrite Ecc in Ecc0. injection Ecc0 as <-. clear Ecc.
    match type of HP with post_step c ?z = _ => set (s2 := z) in * end.
    destruct (post_step_char c s2 (s_x s)) as (s'' & Ep & R); subst s2; sstall; auto; try apply W.
    { discriminate. }
    rewrite Ep in HP. inversion HP; subst s''. clear HP.
    destruct R as (X1 & X2 & X3 & X4 & X5 & X6 & X7 & X8 & X9 & X10 & X11 & X12 & X13 & X14 & X15 & X16 &
                   X17 & X18 & X19 & X20 & X21 & X22 & X23 & X24 & X25 & X26 & X27 & Rows).
    assert (Hin : c_bsize c <> s_N s -> length ind = s_M s /\
         forall m, m < s_M s -> nth_error ind m = Some (skipn (c_bsize c) (ind_next c o s m))) by auto.
    split.
    { constructor; rewrite ?X6, ?X7; try (apply W).
      - rewrite X1. destruct Hx' as [A1 A2]. split. { rewrite map_length; auto. }
        intros k row. rewrite nth_error_map. destruct (nth_error x' k) eqn:E; cbn; intros H; inversion H.
        rewrite map_length. eauto.
      - rewrite X2; auto.
      - rewrite X3; apply W.
      - auto. - auto.
      - rewrite X4. unfold add_at. rewrite mapi_length. apply W.
      - auto. - auto.
      - rewrite X14. apply W.
      - rewrite X13. apply W.
      - intros m. rewrite X13. apply W.
      - intros Hb. rewrite X17. destruct (Hin Hb) as [L1 L2]. split; [auto|].
        destruct (ind_rows c o s W P Hb) as [_ Hir]. cbv zeta in Hir.
        split.
        + intros k row Ek.
          assert (Hk : k < s_M s) by (rewrite <- L1; eapply nth_error_lt; eauto).
          assert (H0 : 0 < s_M s) by lia.
          rewrite (L2 k Hk) in Ek. inversion Ek; subst row.
          pose proof (L2 0 H0) as E0. destruct ind as [|i0 ind']; cbn in E0; inversion E0; subst i0.
          cbn [shape1]. rewrite !skipn_length.
          destruct (Hir k Hk) as (_ & Lk & _). destruct (Hir 0 H0) as (_ & L0 & _). rewrite Lk, L0. auto.
        + intros k row j Ek Hj.
          assert (Hk : k < s_M s) by (rewrite <- L1; eapply nth_error_lt; eauto).
          rewrite (L2 k Hk) in Ek. inversion Ek; subst row.
          destruct (Hir k Hk) as (_ & _ & Lt). apply Lt.
          rewrite <- (firstn_skipn (c_bsize c)). apply in_or_app; auto.
      - rewrite X18. auto.
      - rewrite X19. apply W.
      - auto. }
    split. { rewrite X6, X7, X12, X13, X22. repeat split; auto. }
    intros m r r1 Hr Er1.
    destruct (row_at_lt _ _ _ Hr) as (Hm0 & Ex & Ee & Ea & Ebe & Ebp & Enf & Eud & Efm & Ebce & Ebcp).
    rewrite (proj1 (w_x _ _ W)) in Hm0.
    assert (exists xr, nth_error x' m = Some xr) as [xr Exr].
    { apply nth_error_lt_Some. rewrite (proj1 Hx'). auto. }
    destruct (nth_error_lt_Some _ (add_at (s_active s) nb (s_nfe s)) m) as [nfm Enfm].
    { unfold add_at. rewrite mapi_length. rewrite (w_nfe _ _ W). auto. }
    destruct (in_dec Nat.eq_dec m (s_active s)) as [Hi|Hi].
    - destruct (In_nth_error _ _ Hi) as [k Em].
      destruct (w_al _ _ W) as [_ Wa]. pose proof (Wa _ _ Ea) as La.
      destruct (r_a r) as [|a [|]] eqn:Era; try discriminate.
      destruct (Hrow k m _ _ a Em Er1 Ee Ea) as (xb & er' & T1 & T2 & T3 & T4 & T5).
      destruct (Hsel _ _ Em) as [S1 S2]. rewrite S1 in *.
      destruct (Rows m (mkrow xr er' [a] (r_be r) (r_bp r) nfm (r_ud r) (r_fmin r) (r_bce r) (r_bcp r)) (r_x r))
        as (r' & P1 & P2); auto.
      { unfold row_at. sst. rewrite Exr, T3, Ea, Ebe, Ebp, Eud, Efm, Ebce, Ebcp, Enfm. auto. }
      exists xr, er', nfm, r'. split; [eauto|]. split; [tauto|]. auto.
    - destruct (Rows m (mkrow xr (r_e r) (r_a r) (r_be r) (r_bp r) nfm (r_ud r) (r_fmin r) (r_bce r) (r_bcp r)) (r_x r))
        as (r' & P1 & P2); auto.
      { unfold row_at. sst. rewrite Hinact, Exr, Ee, Ea, Ebe, Ebp, Eud, Efm, Ebce, Ebcp, Enfm by auto. auto. }
      exists xr, (r_e r), nfm, r'. split; [tauto|]. split; [auto|]. auto.
  Qed.

  Lemma dc_inner_inv : forall G eps (c : cfg) o s u s2 u2 M N, dc_inner G eps c o s u = Ok (s2, u2) -> rect M N (s_x s) ->
    exists sc cp x' d, compute_consensus c s = Ok sc /\ s_cons sc = Some cp /\ s2 = set_x x' (set_drift (Some d) sc) /\ rect M N x' /\
      bc2 (c_vsub c) (s_x s) cp = Ok d.
  Proof.
    intros G eps c o s u s2 u2 M N H R. unfold dc_inner in H. apply bind_ok in H. destruct H as (sc & Ec & H).
    pose proof (compute_consensus_frame _ _ _ Ec) as (cep & e & cp & fc & nf & Esc).
    assert (Hc : s_cons sc = Some cp) by (rewrite Esc; reflexivity). assert (Hx : s_x sc = s_x s) by (rewrite Esc; reflexivity).
    unfold the_cons in H. rewrite Hc in H. cbn [bind] in H. apply bind_ok in H. destruct H as (d & Hd & H). rewrite Hx in Hd.
    exists sc, cp. destruct G as [g|].
    - apply bind_ok in H. destruct H as (a & _ & H). apply bind_ok in H. destruct H as (xt & _ & H).
      apply bind_ok in H. destruct H as (w & _ & H). apply bind_ok in H. destruct H as (x' & Hx' & H). injection H as <- <-.
      exists x', d. split; auto. split; auto. split; auto. split; auto. eapply iop2_shape; eauto. rewrite Hx. auto.
    - apply bind_ok in H. destruct H as (xt & _ & H). injection H as <- <-.
      exists (s_x sc), d. split; auto. split; auto. split. { destruct sc; auto. } split; auto. rewrite Hx. auto.
  Qed.

  Definition cons_ready (s : st) : Prop := forall cp, s_cons s = Some cp -> cons_shape (s_M s) cp.

  (** one step of DriftConstrainedCBO with independent noise *)
  Theorem dck_step : forall fuel p zs G eps (c : cfg) o s k s' k', one_consensus_point c -> wf c s -> perm_ok o s -> s_active s <> [] -> cons_ready s ->
    vstep (dck_inner fuel p zs G eps) c o (s, k) = Ok (s', k') ->
    cons_ready s' /\ k' = S k /\ exists x1,
      (if fltb (Fin k0) (k_sig p) then match s_cons s with Some cp => kick_loop fuel p c (s_dt s) (zs k) 0 (s_x s) cp = Some (Ok x1) | None => x1 = s_x s end
       else x1 = s_x s) /\ rect (s_M s) (s_N s) x1 /\ good_kick c o s x1 s'.
  Proof.
    intros fuel p zs G eps c o s k s' k' C1 W P HA CR H. apply vstep_inv in H. destruct H as (s0 & s2 & E1 & E2 & E3).
    pose proof (pre_step_frame _ _ _ _ E1) as (ci & pi & ind & xo & Es0).
    assert (Hf : s_cons s0 = s_cons s /\ s_dt s0 = s_dt s /\ s_x s0 = s_x s /\ s_M s0 = s_M s /\ s_N s0 = s_N s /\ s_active s0 = s_active s) by (rewrite Es0; repeat split).
    destruct Hf as (F1 & F2 & F3 & F4 & F5 & F6).
    unfold dck_inner in E2. destruct (indep_noise fuel p c (zs k) s0) as [r|] eqn:Ei; [|discriminate].
    apply bind_ok in E2. destruct E2 as (s1 & -> & E2). apply bind_ok in E2. destruct E2 as ([s2' u] & E2 & E4). cbn [fst] in E4. injection E4 as -> <-.
    assert (exists x1, s1 = set_x x1 s0 /\ rect (s_M s) (s_N s) x1 /\
      (if fltb (Fin k0) (k_sig p) then match s_cons s with Some cp => kick_loop fuel p c (s_dt s) (zs k) 0 (s_x s) cp = Some (Ok x1) | None => x1 = s_x s end
       else x1 = s_x s)) as (x1 & -> & Rx1 & Hx1).
    { unfold indep_noise in Ei. rewrite F1, F2, F3 in Ei. destruct (fltb _ _).
      - destruct (s_cons s) as [cp|].
        + destruct (kick_loop _ _ _ _ _ _ _ _) as [[x1|]|] eqn:El; try discriminate. injection Ei as <-. exists x1. split; auto. split; auto.
          eapply kick_rect_exit; eauto. apply W.
        + injection Ei as <-. exists (s_x s). split. { rewrite <- F3. destruct s0; auto. } split; auto. apply W.
      - injection Ei as <-. exists (s_x s). split. { rewrite <- F3. destruct s0; auto. } split; auto. apply W. }
    destruct (dc_inner_inv _ _ _ _ _ _ _ _ _ _ E2 Rx1) as (sc & cp & x' & d & Ecc & Ecp & -> & Rx' & Ed).
    pose proof (kick_ok_char c o s s0 sc x1 x' d s' W P Rx1 E1 Ecc Rx' E3) as GK.
    split; [|split; [auto|exists x1; auto]].
    (* the consensus *)
    assert (Hcp : s_cons s' = Some cp).
    { apply post_step_frame in E3. destruct E3 as (x & ud & fm & bcp & bce & be & bp & s5 & Et & ->).
      apply track_frame in Et. destruct Et as (ti & ts & h & ->). sst. auto. }
    intros cp' Hcp'. rewrite Hcp in Hcp'. injection Hcp' as <-.
    destruct GK as (_ & (GM & _) & _). rewrite GM.
    destruct (pre_step_char c o s W P) as (ci' & pi' & ind' & Epre & Gc & Gp & Hsel & Hind1 & Hind2).
    rewrite Epre in E1. injection E1 as <-.
    set (sk := set_x x1 (set_pidx pi' (set_cidx ci' (set_ind ind' (set_xold (Some (s_x s)) s))))) in *.
    pose proof (incr_NoDup _ (w_act _ _ W)) as Hnd.
    assert (Hsl : forall k, k < length (s_active s) -> length (sel ci' k (s_N s)) = c_bsize c).
    { intros j Hj. destruct (nth_error_lt_Some _ _ _ Hj) as [m Hm]. rewrite (proj1 (Hsel _ _ Hm)).
      apply run_sel_length; auto. apply W. eapply nth_error_In; eauto. }
    destruct (compute_consensus_char c sk) as
      (cep' & en & cp2 & nb & xs & Ecc2 & Exs & Esv & Ren & Hcep & Lcp & Hnb & Hrow & Hinact);
      unfold sk in *; sstall; auto; try apply W.
    { intros. rewrite !Hsl; auto. }
    rewrite Ecc2 in Ecc. injection Ecc as <-. ssti Ecp. injection Ecp as <-.
    assert (Rc : rect (length (s_active s)) 1 cp2).
    { split. auto. intros j row Hj. assert (Hka : j < length (s_active s)) by (rewrite <- Lcp; eapply nth_error_lt; eauto).
      destruct (nth_error_lt_Some _ _ _ Hka) as [m Em].
      assert (Hm : m < s_M s) by (apply W; eapply nth_error_In; eauto).
      destruct (row_at_Some c s m W Hm) as (r & _ & Ex & Ee & Ea & _).
      pose proof (proj2 (w_al _ _ W) _ _ Ea) as La. destruct (r_a r) as [|a [|]] eqn:Era; try discriminate.
      destruct (nth_error_lt_Some _ x1 m) as [r1 Er1]. { rewrite (proj1 Rx1). auto. }
      destruct (Hrow _ _ _ _ _ Em Er1 Ee Ea) as (xb & er' & T1 & T2 & T3 & T4 & T5).
      rewrite Hj in T4 || rewrite Hj in T5. first [injection T4 as -> | injection T5 as ->]. apply C1. }
    assert (HA1 : 1 <= length (s_active s)) by (destruct (s_active s); cbn; [congruence | lia]).
    assert (HA2 : length (s_active s) <= s_M s).
    { rewrite <- (seq_length (s_M s) 0). apply NoDup_incl_length. auto.
      intros m Hm. apply in_seq. pose proof (w_actlt _ _ W m Hm). lia. }
    assert (HN : 1 <= s_N s) by apply W.
    destruct (bc2_ok_inv _ _ _ _ _ _ _ _ _ _ _ Rx1 Rc ltac:(lia) HA1 Ed) as (CM & _ & _).
    destruct (compat_le _ _ (conj HA1 HA2) CM) as [_ E]. split.
    - intros r Hr. apply In_nth_error in Hr. destruct Hr as [j Hj]. pose proof (proj2 Rc _ _ Hj) as L. destruct r as [|q [|]]; try discriminate. eauto.
    - rewrite (proj1 Rc). auto.
  Qed.

  Lemma constructed_no_cons : forall (c : cfg) (s : st), constructed c s -> s_cons s = None.
  Proof.
    intros c s (x0 & b & al & sg & la & dt & perm & names & extra & sv & _ & _ & _ & _ & _ & HI). unfold init in HI.
    apply bind_ok in HI. destruct HI as (bp & _ & HI). injection HI as <-.
    match goal with |- s_cons (init_history ?a ?b ?c ?d) = _ => destruct (init_history_char a b c d) as (ts & h & -> & _) end. reflexivity.
  Qed.

  (** reachable states *)
  Theorem dck_inv : forall fuel p zs G eps (c : cfg) n s k log, one_consensus_point c ->
    vexec (dck_inner fuel p zs G eps) (fun _ => 0) c n (s, k) log -> wf c s /\ cons_ready s /\ k = n.
  Proof.
    intros fuel p zs G eps c n s k log C1 H. remember (s, k) as q eqn:Eq. revert s k Eq.
    induction H; intros s1 k1 Eq; injection Eq as <- <-.
    - pose proof (constructed_wf _ _ H) as W. split; auto. split; auto. intros cp Hcp. exfalso.
      rewrite (constructed_no_cons _ _ H) in Hcp. discriminate.
    - destruct (IHvexec _ _ eq_refl) as (W & CR & ->).
      destruct (dck_step _ _ _ _ _ _ _ _ _ _ _ C1 W (perms_valid_ok _ _ H0) H1 CR H2) as (CR' & -> & x1 & _ & _ & GK). split; [apply GK|]. auto.
    - destruct (IHvexec _ _ eq_refl) as (W & CR & ->). split. eapply terminate_wf; eauto.
      apply terminate_char in H0. destruct H0 as (act & reason & -> & _). auto.
    - destruct (IHvexec _ _ eq_refl) as (W & CR & ->). split. eapply params_wf; eauto.
      destruct H0 as (al & sg & la & d & _ & ->). auto.
    - destruct (IHvexec _ _ eq_refl) as (W & CR & ->). split. apply reset_wf; auto.
      destruct (reset_char s) as (ts & h & -> & _). auto.
  Qed.

  Lemma full_row : forall (c : cfg) o s m (row : list V) (er er' : list F) xb, c_bsize c = s_N s -> length row = s_N s -> length er = s_N s ->
    takeM row (run_sel c o s m) = Ok xb -> put1 (run_sel c o s m) er (map (c_f c) xb) = Ok er' -> er' = map (c_f c) row.
  Proof.
    intros c o s m row er er' xb Hb L1 L2 H1 H2. unfold run_sel in *. rewrite Hb, Nat.eqb_refl in *. rewrite <- L1, takeM_all in H1. injection H1 as <-.
    rewrite <- L2, put1_all in H2. injection H2 as <-; auto. rewrite map_length. lia.
  Qed.

  (** what a step evaluates and remembers, with full batches *)
  Theorem dck_full : forall fuel p zs G eps (c : cfg) n s k log o s' k' cp, one_consensus_point c -> c_bsize c = s_N s ->
    vexec (dck_inner fuel p zs G eps) (fun _ => 0) c n (s, k) log -> perms_valid o s -> s_active s <> [] -> s_cons s = Some cp ->
    fltb (Fin k0) (k_sig p) = true -> vstep (dck_inner fuel p zs G eps) c o (s, k) = Ok (s', k') ->
    exists x1, length x1 = length (s_x s) /\ (forall m, ~ collapsed p c cp x1 m) /\
      (forall m, ~ collapsed p c cp (s_x s) m -> nth_error x1 m = nth_error (s_x s) m) /\
      (forall m row row', nth_error (s_x s) m = Some row -> nth_error x1 m = Some row' -> kicked (k_inc p (k_sig p) (s_dt s)) (c_vadd c) (zs k) 0 row row') /\
      (forall m row row1 be bp, In m (s_active s) -> nth_error (s_x s) m = Some row -> nth_error x1 m = Some row1 ->
         nth_error (s_be s) m = Some be -> nth_error (s_bp s) m = Some bp ->
         nth_error (s_energy s') m = Some (map (c_f c) row1) /\
         exists j v v1, nth_error row j = Some v /\ nth_error row1 j = Some v1 /\
           nth_error (s_be s') m = Some (if fltb (c_f c v1) be then c_f c v1 else be) /\
           nth_error (s_bp s') m = Some (if fltb (c_f c v1) be then v else bp)).
  Proof.
    intros fuel p zs G eps c n s k log o s' k' cp C1 Hb HE HP HA Hcp Hs H.
    destruct (dck_inv _ _ _ _ _ _ _ _ _ _ C1 HE) as (W & CR & _).
    destruct (dck_step _ _ _ _ _ _ _ _ _ _ _ C1 W (perms_valid_ok _ _ HP) HA CR H) as (_ & _ & x1 & Hx1 & R1 & W' & (EM & EN & _) & Rows).
    rewrite Hs, Hcp in Hx1. assert (HS : cons_shape (length (s_x s)) cp) by (rewrite (proj1 (w_x _ _ W)); auto).
    destruct (kick_exit _ _ _ _ _ _ _ _ _ HS Hx1) as (L & H1 & H2 & H3). exists x1. split; auto. split; auto. split; auto. split; auto.
    intros m row row1 be bp Hm Hr Hr1 Hbe Hbp.
    destruct (row_at_Some c s m W (w_actlt _ _ W _ Hm)) as (r & Er & Ex & Ee & Ea & Ebe & Ebp & _).
    rewrite Hr in Ex. injection Ex as Ex. rewrite Hbe in Ebe. injection Ebe as Ebe. rewrite Hbp in Ebp. injection Ebp as Ebp.
    destruct (Rows m r row1 Er Hr1) as (xr & er & nf & r' & E1 & _ & E3 & E4). destruct (E1 Hm) as (xb & T1 & T2).
    assert (Her : er = map (c_f c) row1).
    { eapply (full_row c o s m row1 (r_e r)); eauto. apply (proj2 R1 _ _ Hr1). apply (proj2 (w_e _ _ W) _ _ Ee). }
    unfold run_post in E3. cbn [r_x r_e r_a r_be r_bp r_nfe] in E3.
    apply bind_ok in E3. destruct E3 as ([j vv] & A1 & E3). apply bind_ok in E3. destruct E3 as (v & A2 & E3). apply bind_ok in E3. destruct E3 as (e & A3 & E3).
    injection E3 as <-. cbn [fst snd] in *. apply take1_ok in A2, A3.
    destruct (row_at_lt _ _ _ E4) as (_ & _ & Fe & _ & Fbe & Fbp & _). cbn [r_e r_be r_bp] in Fe, Fbe, Fbp. rewrite Her in *.
    split; auto. rewrite nth_error_map in A3. destruct (nth_error row1 j) as [v1|] eqn:Ev1; [|discriminate]. cbn in A3. injection A3 as <-.
    exists j, v, v1. rewrite <- Ex in A2. rewrite Ebe, Ebp. auto.
  Qed.

  (** without independent noise, or before the first consensus, the step is that of dc_inner_step *)
  Theorem dck_off : forall fuel p zs G eps (c : cfg) o s k, (fltb (Fin k0) (k_sig p) = false \/ s_cons s = None) ->
    vstep (dck_inner fuel p zs G eps) c o (s, k) = (q <- vstep (dc_inner G eps) c o (s, tt) ;; Ok (fst q, S k)).
  Proof.
    intros fuel p zs G eps c o s k H. unfold vstep. cbn [fst snd]. destruct (pre_step c o s) as [s0|e] eqn:E; [|reflexivity]. cbn [bind].
    apply pre_step_frame in E. destruct E as (ci & pi & ind & xo & Es0).
    assert (Hi : indep_noise fuel p c (zs k) s0 = Some (Ok s0)).
    { unfold indep_noise. destruct H as [H|H]. rewrite H; auto. rewrite Es0. sst. rewrite H. destruct (fltb _ _); auto. }
    unfold dck_inner. rewrite Hi. cbn [bind]. destruct (dc_inner G eps c o s0 tt) as [[s2 u]|]; [|reflexivity]. cbn [bind fst snd].
    destruct (post_step c s2); reflexivity.
  Qed.

  (** dt = 0: the loop is never left *)
  Theorem dck_stuck : forall fuel0 p zs G eps (c : cfg) n s k log o s0 cp m, one_consensus_point c ->
    vexec (dck_inner fuel0 p zs G eps) (fun _ => 0) c n (s, k) log -> pre_step c o s = Ok s0 -> s_cons s = Some cp ->
    fltb (Fin k0) (k_sig p) = true -> collapsed p c cp (s_x s) m -> (forall v w, c_vadd c v (k_inc p (k_sig p) (s_dt s) w) = v) ->
    forall fuel, indep_noise fuel p c (zs k) s0 = None.
  Proof.
    intros fuel0 p zs G eps c n s k log o s0 cp m C1 HE Hp Hcp Hs Hm Hid fuel.
    destruct (dck_inv _ _ _ _ _ _ _ _ _ _ C1 HE) as (W & CR & _).
    apply pre_step_frame in Hp. destruct Hp as (ci & pi & ind & xo & ->). unfold indep_noise. sst. rewrite Hs, Hcp.
    rewrite (kick_stuck fuel p c (s_dt s) (zs k) 0 (s_x s) cp m); auto. rewrite (proj1 (w_x _ _ W)). auto.
  Qed.
End KickStep.
