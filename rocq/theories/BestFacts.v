(** * The best particle bookkeeping *)

From Coq Require Import String List Arith Bool Lia Permutation.
From Verif Require Import Scalar ScalarFacts Np NpFacts State Pdyn PdynFacts PdynStep PdynRun Exec PdynOk.
Import ListNotations.
Open Scope nat_scope.
Open Scope list_scope.

Section Best.
  Context {K V : Type} {O : KOps K} {OL : KOrd K}.
  Notation F := (fl K).
  Notation st := (st K V).
  Notation cfg := (cfg K V).
  Notation orc := (orc V).

  Lemma argmin_from_le : forall (l : list F) i bi bv, is_nan bv = false ->
    (forall e, In e l -> is_nan e = false) ->
    is_nan (snd (argmin_from i bi bv l)) = false /\
    fleb (snd (argmin_from i bi bv l)) bv = true /\
    forall e, In e l -> fleb (snd (argmin_from i bi bv l)) e = true.
  Proof.
    induction l as [|a l IH]; intros i bi bv Hb Hl; cbn [argmin_from].
    - cbn. split; auto. split. apply fleb_refl; auto. intros; contradiction.
    - rewrite Hb. rewrite (Hl a) by (cbn; auto).
      assert (Ha : is_nan a = false) by (apply Hl; cbn; auto).
      destruct (fltb a bv) eqn:E.
      + destruct (IH (S i) i a) as (H1 & H2 & H3); auto. { intros; apply Hl; cbn; auto. }
        split; auto. split. { eapply fleb_trans; eauto. apply fltb_fleb; auto. }
        intros e [->|He]; auto.
      + destruct (IH (S i) bi bv) as (H1 & H2 & H3); auto. { intros; apply Hl; cbn; auto. }
        split; auto. split; auto. intros e [->|He]; auto. eapply fleb_trans; eauto.
        apply fltb_false_fleb; auto.
  Qed.
  Lemma argmin_le : forall (l : list F) j v, (forall e, In e l -> is_nan e = false) -> argmin l = Ok (j, v) ->
    is_nan v = false /\ forall e, In e l -> fleb v e = true.
  Proof.
    intros. destruct l as [|a l]; try discriminate. cbn [argmin] in H0. inversion H0.
    destruct (argmin_from_le l 1 0 a) as (H1 & H3 & H4).
    { apply H; cbn; auto. } { intros; apply H; cbn; auto. }
    rewrite H2 in *. cbn in *. split; auto. intros e [->|He]; auto.
  Qed.

  Lemma in_evaluated_good : forall (c : cfg) (o : orc) s s' m v, wf c s -> perm_ok o s -> good_step c o s s' ->
    (In (m, v) (evaluated s s') <->
     In m (s_active s) /\ exists xr xb, nth_error (s_x s) m = Some xr /\ takeM xr (run_sel c o s m) = Ok xb /\ In v xb).
  Proof.
    intros c o s s' m v W P H. destruct H as (_ & _ & (xs & Exs & Lxs & Hxs) & _).
    unfold evaluated. rewrite Exs. rewrite in_concat. split.
    - intros (l & Hl & Hin). apply In_nth_error in Hl. destruct Hl as [k Hk]. rewrite map2_nth in Hk.
      destruct (nth_error (s_active s) k) as [m'|] eqn:Em; try discriminate.
      destruct (nth_error xs k) as [row|] eqn:Er; try discriminate. inversion Hk; subst l.
      apply in_map_iff in Hin. destruct Hin as (v' & Ev & Hin). inversion Ev; subst.
      pose proof (nth_error_In _ _ Em) as Hm. split; auto.
      assert (Hlt : m < length (s_x s)) by (rewrite (proj1 (w_x _ _ W)); apply W; auto).
      destruct (nth_error_lt_Some _ _ _ Hlt) as [xr Exr].
      destruct (Hxs _ _ _ Em Exr) as (xb & E1 & E2). rewrite Er in E1. inversion E1; subst. eauto.
    - intros (Hm & xr & xb & Exr & Etk & Hin). apply In_nth_error in Hm. destruct Hm as [k Em].
      destruct (Hxs _ _ _ Em Exr) as (xb' & E1 & E2). rewrite Etk in E2. inversion E2; subst xb'.
      exists (map (pair m) xb). split.
      + apply nth_error_In with (n := k). rewrite map2_nth, Em, E1. auto.
      + apply in_map. auto.
  Qed.

  Lemma in_evaluated : forall (c : cfg) (o : orc) s s' m v, wf c s -> perm_ok o s -> step c o s = Ok s' ->
    (In (m, v) (evaluated s s') <->
     In m (s_active s) /\ exists xr xb, nth_error (s_x s) m = Some xr /\ takeM xr (run_sel c o s m) = Ok xb /\ In v xb).
  Proof. intros. eapply in_evaluated_good; eauto. exact (step_ok_char c o s s' H H0 H1). Qed.

  Definition best_inv (c : cfg) (s : st) (log : list (nat * V)) : Prop :=
    forall m r, row_at s m = Some r ->
      (forall e, In e (r_e r) -> is_nan e = false /\ fleb (r_be r) e = true) /\
      is_nan (r_be r) = false /\
      (r_be r = PInf \/ (In (m, r_bp r) log /\ r_be r = c_f c (r_bp r))) /\
      (forall v, In (m, v) log -> fleb (r_be r) (c_f c v) = true).

  Lemma run_post_be : forall (c : cfg) xo r r', run_post c xo r = Ok r' ->
    (forall e, In e (r_e r) -> is_nan e = false) -> is_nan (r_be r) = false ->
    r_e r' = r_e r /\ is_nan (r_be r') = false /\ fleb (r_be r') (r_be r) = true /\
    (forall e, In e (r_e r) -> fleb (r_be r') e = true) /\
    ((r_be r' = r_be r /\ r_bp r' = r_bp r) \/
     exists j p, fltb (r_be r') (r_be r) = true /\ nth_error (r_e r) j = Some (r_be r') /\ nth_error xo j = Some p /\
       r_bp r' = p).
  Proof.
    intros c xo r r' H Hn Hb. unfold run_post in H. cbv zeta in H.
    apply bind_ok in H. destruct H as ([j v] & Ea & H). cbn [fst snd] in H.
    apply bind_ok in H. destruct H as (p & Ep & H).
    apply bind_ok in H. destruct H as (e & Ee & H). inversion H; subst r'. clear H. cbn.
    destruct (argmin_le _ _ _ Hn Ea) as [Hv Hle].
    pose proof (argmin_nth _ _ _ Ea) as Ej.
    unfold take1 in Ep, Ee. rewrite Ej in Ee. inversion Ee; subst e. clear Ee.
    destruct (nth_error xo j) as [p'|] eqn:Ex; inversion Ep; subst p'. clear Ep.
    split; auto. destruct (fltb v (r_be r)) eqn:E.
    - split; auto. split. { apply fltb_fleb; auto. } split; auto. right. exists j, p. auto.
    - split; auto. split. { apply fleb_refl; auto. } split; [|left; auto].
      intros e He. eapply fleb_trans. { apply fltb_false_fleb with (a := v); auto. } auto.
  Qed.

  Lemma best_inv_init : forall (c : cfg) s, constructed c s -> best_inv c s [].
  Proof.
    intros c s (x0 & chk & al & sg & la & dt & perm0 & names & extra & save & Hx & HN & Hb & Hp & Hs & H).
    unfold init in H. apply bind_ok in H. destruct H as (bp & Ebp & H). injection H as E0.
    match type of E0 with init_history _ _ _ ?s1 = _ => destruct (init_history_char names extra save s1) as (ts & h & E & _ & _) end.
    rewrite E in E0. clear E. rewrite <- E0. clear E0 s. intros m r Hr. apply row_at_lt in Hr. ssti Hr.
    destruct Hr as (_ & _ & He & _ & Hbe & _).
    apply nth_error_In, repeat_spec in Hbe. rewrite Hbe.
    apply nth_error_In, repeat_spec in He. rewrite He.
    split. { intros e Hin. apply repeat_spec in Hin. subst e. auto. }
    split; auto.
  Qed.

  Lemma best_inv_step : forall (c : cfg) (o : orc) s s' log, no_nan c -> wf c s -> perm_ok o s -> good_step c o s s' ->
    best_inv c s log -> best_inv c s' (log ++ evaluated s s').
  Proof.
    intros c o s s' log NN W P HS I m r' Hr'.
    pose proof (fun v => in_evaluated_good c o s s' m v W P HS) as HE.
    destruct HS as (W' & (EM & _) & _ & HR).
    assert (Hm : m < s_M s).
    { apply row_at_lt in Hr'. destruct Hr' as (Hlt & _). rewrite (proj1 (w_x _ _ W')) in Hlt. congruence. }
    destruct (row_at_Some c s m W Hm) as (r & Er & Exr & _).
    destruct (HR m r Er) as (xr & er & nf & r'' & Hact & Hina & Hpost & Er'').
    rewrite Hr' in Er''. inversion Er''; subst r''. clear Er''.
    destruct (I m r Er) as (I1 & I2 & I3 & I4).
    (* entries of er are fresh or old *)
    assert (Hent : forall j e, nth_error er j = Some e ->
              (In e (r_e r)) \/ (In m (s_active s) /\ exists v, In (m, v) (evaluated s s') /\ nth_error (r_x r) j = Some v /\ e = c_f c v)).
    { intros j e Ej. destruct (in_dec Nat.eq_dec m (s_active s)) as [Hi|Hi].
      - destruct (Hact Hi) as (xb & T1 & T2).
        assert (Ll : length (map (c_f c) xb) = length (run_sel c o s m)).
        { rewrite map_length. eapply takeM_length; eauto. }
        rewrite (put1_nth _ _ _ _ _ j Ll T2) in Ej.
        destruct (last_index j (run_sel c o s m)) as [k|] eqn:El.
        + destruct (j <? length (r_e r)); try discriminate. right. split; auto.
          rewrite nth_error_map in Ej. destruct (nth_error xb k) as [v|] eqn:Ev; cbn in Ej; inversion Ej.
          exists v. split; [|split]; auto.
          * apply HE. split; auto. exists (r_x r), xb. repeat split; auto. eapply nth_error_In; eauto.
          * apply last_index_Some in El. pose proof (takeM_nth _ _ _ _ _ _ T1 El) as E2. congruence.
        + left. eapply nth_error_In; eauto.
      - rewrite (Hina Hi) in Ej. left. eapply nth_error_In; eauto. }
    assert (Hfresh : forall v, In (m, v) (evaluated s s') -> NoDup (run_sel c o s m) \/ True) by auto.
    assert (Hn : forall e, In e er -> is_nan e = false).
    { intros e He. apply In_nth_error in He. destruct He as [j Ej].
      destruct (Hent _ _ Ej) as [Hold | (_ & v & _ & _ & ->)]. apply I1; auto. apply NN. }
    destruct (run_post_be _ _ _ _ Hpost) as (Re & Rn & Rle & Rall & Rnew); cbn; auto.
    cbn in *. split.
    { intros e He. rewrite Re in He. auto. }
    split; auto. split.
    - destruct Rnew as [[Eb Ep] | (j & p & Hlt & Ej & Exj & Ep)].
      + rewrite Eb, Ep. destruct I3 as [I3|[I3 I5]]; auto. right. split; auto. apply in_or_app; auto.
      + right. destruct (Hent _ _ Ej) as [Hold | (Hi & v & Hv & Exv & Ev)].
        * exfalso. destruct (I1 _ Hold) as [_ Hle]. apply fleb_not_lt in Hle. congruence.
        * rewrite Exj in Exv. inversion Exv; subst v. rewrite Ep. split; auto. apply in_or_app; auto.
    - intros v Hv. apply in_app_or in Hv. destruct Hv as [Hv|Hv].
      + eapply fleb_trans; eauto.
      + apply HE in Hv. destruct Hv as (Hi & xr0 & xb & Ex0 & T1 & Hv).
        rewrite Exr in Ex0. inversion Ex0; subst xr0.
        destruct (Hact Hi) as (xb' & T1' & T2). rewrite T1 in T1'. inversion T1'; subst xb'.
        (* the value is, for the last occurrence of its index, in er; values at repeated indices agree *)
        apply In_nth_error in Hv. destruct Hv as [k Ek].
        assert (Hk : k < length (run_sel c o s m)).
        { rewrite <- (takeM_length _ _ _ _ T1). eapply nth_error_lt; eauto. }
        destruct (nth_error_lt_Some _ _ _ Hk) as [j Ej].
        pose proof (takeM_nth _ _ _ _ _ _ T1 Ej) as Exj. rewrite Ek in Exj.
        apply Rall. apply nth_error_In with (n := j).
        assert (Ll : length (map (c_f c) xb) = length (run_sel c o s m)).
        { rewrite map_length. eapply takeM_length; eauto. }
        rewrite (put1_nth _ _ _ _ _ j Ll T2).
        destruct (last_index j (run_sel c o s m)) as [k'|] eqn:El.
        * apply last_index_Some in El. pose proof (takeM_nth _ _ _ _ _ _ T1 El) as Exj'.
          rewrite nth_error_map.
          assert (j < length (r_e r)).
          { destruct (row_at_lt _ _ _ Er) as (_ & _ & Ee & _).
            rewrite (proj2 (w_e _ _ W) _ _ Ee), <- (proj2 (w_x _ _ W) _ _ Exr). eapply nth_error_lt; eauto. }
          rewrite (proj2 (Nat.ltb_lt _ _) H). rewrite Exj', <- Exj. reflexivity.
        * apply last_index_None in El. exfalso. apply El. eapply nth_error_In; eauto.
  Qed.

  Lemma best_inv_term : forall (c : cfg) s b s' log, terminate c s = Ok (b, s') -> best_inv c s log -> best_inv c s' log.
  Proof.
    intros c s b s' log H I. apply terminate_char in H. destruct H as (act & reason & -> & _).
    intros m r Hr. apply (I m r). destruct s; auto.
  Qed.
  Lemma best_inv_params : forall (c : cfg) s s' log, wf c s -> params_changed s s' -> best_inv c s log -> best_inv c s' log.
  Proof.
    intros c s s' log W H I. destruct H as (al & sg & la & d & _ & ->). intros m r Hr.
    assert (Hm : m < s_M s).
    { rewrite <- (proj1 (w_x _ _ W)). apply row_at_lt in Hr. destruct s; apply Hr. }
    destruct (row_at_Some c s m W Hm) as (r0 & Er0 & E1 & E2 & E3 & E4 & E5 & _).
    apply row_at_lt in Hr. sstall. destruct Hr as (_ & F1 & F2 & _ & F4 & F5 & _).
    destruct (I m r0 Er0) as (A1 & A2 & A3 & A4).
    assert (r_e r = r_e r0) by congruence. assert (r_be r = r_be r0) by congruence. assert (r_bp r = r_bp r0) by congruence.
    rewrite H, H0, H1. auto.
  Qed.
  Lemma best_inv_reset : forall (c : cfg) s log, best_inv c s log -> best_inv c (reset s) log.
  Proof. intros c s log I. destruct (reset_char s) as (ts & h & -> & _). intros m r Hr. apply (I m r). destruct s; auto. Qed.

  Theorem exec_best : forall (c : cfg) s log, no_nan c -> exec c s log -> best_inv c s log.
  Proof.
    intros c s log NN E. induction E.
    - apply best_inv_init; auto.
    - pose proof (exec_wf _ _ _ E) as W. pose proof (perms_valid_ok _ _ H) as P.
      eapply best_inv_step; eauto. exact (step_ok_char c o s s' W P H0).
    - eapply best_inv_term; eauto.
    - eapply best_inv_params; eauto. eapply exec_wf; eauto.
    - apply best_inv_reset; auto.
  Qed.

  Lemma best_inv_pair : forall (c : cfg) s log m be bp, wf c s -> best_inv c s log ->
    nth_error (s_be s) m = Some be -> nth_error (s_bp s) m = Some bp ->
    be = PInf \/ (In (m, bp) log /\ be = c_f c bp).
  Proof.
    intros c s log m be bp W B Hbe Hbp.
    assert (Hm : m < s_M s) by (rewrite <- (w_be _ _ W); eapply nth_error_lt; eauto).
    destruct (row_at_Some c s m W Hm) as (r & Er & _ & _ & _ & E1 & E2 & _).
    destruct (B m r Er) as (_ & _ & I & _).
    assert (be = r_be r) by congruence. assert (bp = r_bp r) by congruence. subst. auto.
  Qed.

  Lemma best_inv_min : forall (c : cfg) s log m be, wf c s -> best_inv c s log ->
    nth_error (s_be s) m = Some be ->
    is_minimum be (values_of c m log) /\
    (forall er, nth_error (s_energy s) m = Some er -> forall e, In e er -> fleb be e = true).
  Proof.
    intros c s log m be W B Hbe.
    assert (Hm : m < s_M s) by (rewrite <- (w_be _ _ W); eapply nth_error_lt; eauto).
    destruct (row_at_Some c s m W Hm) as (r & Er & _ & E0 & _ & E1 & E2 & _).
    destruct (B m r Er) as (I1 & _ & I & I2).
    assert (be = r_be r) by congruence. subst. split.
    - split.
      + destruct I as [I|[I I']]; auto. right. unfold values_of. apply in_map_iff.
        exists (m, r_bp r). split; auto. apply filter_In. split; auto. cbn. apply Nat.eqb_refl.
      + intros v Hv. unfold values_of in Hv. apply in_map_iff in Hv. destruct Hv as ([m' v'] & <- & Hv).
        apply filter_In in Hv. destruct Hv as [Hv Em]. cbn in *. apply Nat.eqb_eq in Em. subst m'. auto.
    - intros er He e Hin. assert (er = r_e r) by congruence. subst er. apply I1; auto.
  Qed.

  (** ** The statements *)

  Lemma best_pair : forall (c : cfg) s log m be bp, no_nan c -> exec c s log ->
    nth_error (s_be s) m = Some be -> nth_error (s_bp s) m = Some bp ->
    be = PInf \/ (In (m, bp) log /\ be = c_f c bp).
  Proof. intros c s log m be bp NN E. apply best_inv_pair. eapply exec_wf; eauto. apply exec_best; auto. Qed.

  Lemma best_is_min : forall (c : cfg) s log m be, no_nan c -> exec c s log ->
    nth_error (s_be s) m = Some be ->
    is_minimum be (values_of c m log) /\
    (forall er, nth_error (s_energy s) m = Some er -> forall e, In e er -> fleb be e = true).
  Proof. intros c s log m be NN E. apply best_inv_min. eapply exec_wf; eauto. apply exec_best; auto. Qed.

  Lemma best_monotone : forall (c : cfg) s log o s' m be be', no_nan c -> exec c s log -> perms_valid o s ->
    step c o s = Ok s' -> nth_error (s_be s) m = Some be -> nth_error (s_be s') m = Some be' ->
    fleb be' be = true.
  Proof.
    intros c s log o s' m be be' NN E P HS Hb Hb'.
    pose proof (ex_step c s log o s' E P HS) as E'.
    destruct (best_is_min c s' _ m be' NN E' Hb') as [[_ Hle] _].
    destruct (best_is_min c s _ m be NN E Hb) as [[Hin _] _].
    assert (Hn : is_nan be' = false).
    { pose proof (exec_wf _ _ _ E') as W'. assert (Hm : m < s_M s') by (rewrite <- (w_be _ _ W'); eapply nth_error_lt; eauto).
      destruct (row_at_Some c s' m W' Hm) as (r & Er & _ & _ & _ & E1 & _).
      destruct (exec_best _ _ _ NN E' m r Er) as (_ & I & _). congruence. }
    destruct Hin as [->|Hin]. { apply fleb_PInf; auto. }
    apply Hle. unfold values_of in *. apply in_map_iff in Hin. destruct Hin as (p & <- & Hin). apply in_map_iff.
    exists p. split; auto. apply filter_In in Hin. apply filter_In. destruct Hin. split; auto. apply in_or_app; auto.
  Qed.
End Best.
