From Coq Require Import String List Arith Bool Lia ZArith Reals Lra.
From Verif Require Import Scalar ScalarFacts Np NpFacts State Pdyn PdynFacts PdynStep PdynRun Exec PdynOk BestFacts TermSpec.
Import ListNotations.
Open Scope nat_scope.
Open Scope list_scope.

#[export] Instance KAddMono_Z : KAddMono Z.
Proof. split. cbn. intros. apply Z.ltb_ge in H. apply Z.ltb_ge. lia. Qed.
#[export] Instance KAddMono_R : KAddMono R.
Proof. split. cbn. intros. apply Rltb_false in H. apply Rltb_false. lra. Qed.

Lemma count_occ_existsb : forall l, (count_occ Bool.bool_dec l true =? 0) = negb (existsb (fun b => b) l).
Proof.
  induction l as [|b l IH]; [reflexivity|]. cbn. destruct b; cbn; auto.
Qed.

Lemma existsb_map : forall A B (f : A -> B) (p : B -> bool) l, existsb p (map f l) = existsb (fun a => p (f a)) l.
Proof. induction l; cbn; auto. rewrite IHl. auto. Qed.

Lemma where_from_map_filter : forall A (f : A -> bool) l i,
  where_from i (map f l) = filter (fun k => match nth_error l (k - i) with Some a => f a | None => false end) (seq i (length l)).
Proof.
  induction l as [|a l IH]; intros; [reflexivity|]. cbn [map where_from length seq filter].
  rewrite Nat.sub_diag. cbn [nth_error].
  assert (E : where_from (S i) (map f l) = filter (fun k => match nth_error (a :: l) (k - i) with Some a => f a | None => false end) (seq (S i) (length l))).
  { rewrite IH. apply filter_ext_in. intros k Hk. apply in_seq in Hk.
    replace (k - i) with (S (k - S i)) by lia. reflexivity. }
  rewrite E. destruct (f a); auto.
Qed.
Lemma np_where_map : forall A (f : A -> bool) l,
  np_where (map f l) = filter (fun k => match nth_error l k with Some a => f a | None => false end) (seq 0 (length l)).
Proof.
  intros. unfold np_where. rewrite where_from_map_filter. apply filter_ext. intros. rewrite Nat.sub_0_r. auto.
Qed.

Section Term.
  Context {K V : Type} {O : KOps K} {OL : KOrd K}.
  Notation F := (fl K).
  Notation st := (st K V).
  Notation cfg := (cfg K V).
  Notation orc := (orc V).

  Lemma nth_map_error : forall A (f : A -> bool) l m,
    nth m (map f l) false = match nth_error l m with Some a => f a | None => false end.
  Proof.
    intros. destruct (nth_error l m) eqn:E.
    - apply nth_error_nth. rewrite nth_error_map, E. auto.
    - apply nth_overflow. rewrite map_length. apply nth_error_None. auto.
  Qed.

  Lemma crit_col : forall (c : cfg) (s : st) k col m, wf c s -> bto (s_M s) (crit_eval c k s) = Ok col -> m < s_M s ->
    nth m col false = holds c s k m.
  Proof.
    intros c s k col m W H Hm.
    assert (D : forall l, length l = s_M s -> bto (s_M s) l = Ok col -> col = l).
    { intros l Hl E. rewrite bto_eq in E by auto. congruence. }
    destruct k; cbn [crit_eval holds] in *.
    - apply D in H; [|rewrite map_length; apply W]. subst. apply nth_map_error.
    - apply D in H; [|rewrite map_length; apply W]. subst. apply nth_map_error.
    - apply D in H; [|rewrite map_length; apply W]. subst. apply (nth_map_error _ (fun e => n <? e + c_bsize c)).
    - assert (R : forall b, nth m (repeat b (s_M s)) false = b).
      { intros. apply nth_error_nth. rewrite nth_error_repeat. rewrite (proj2 (Nat.ltb_lt _ _) Hm). auto. }
      destruct n; apply D in H; try apply repeat_length; subst; apply R.
    - apply D in H; [|apply repeat_length]. subst. apply nth_error_nth. rewrite nth_error_repeat.
      rewrite (proj2 (Nat.ltb_lt _ _) Hm). auto.
    - rewrite H. auto.
  Qed.

  Lemma builtin_col : forall (c : cfg) (s : st) k, wf c s -> builtin k -> exists col, bto (s_M s) (crit_eval c k s) = Ok col.
  Proof.
    intros c s k W B.
    assert (D : forall l : list bool, length l = s_M s -> exists col, bto (s_M s) l = Ok col).
    { intros. rewrite bto_eq; eauto. }
    destruct k; cbn [crit_eval]; try contradiction; try (apply D; rewrite map_length; apply W).
    - destruct n; apply D; apply repeat_length.
    - apply D; apply repeat_length.
  Qed.

  Lemma terminate_total : forall (c : cfg) s, wf c s -> Forall builtin (c_crit c) -> exists b s', terminate c s = Ok (b, s').
  Proof.
    intros c s W HB. unfold terminate, select_active_runs.
    destruct (mapM_ok _ _ (fun k => bto (s_M s) (crit_eval c k s)) (c_crit c)) as [loc E].
    { intros. apply builtin_col; auto. rewrite Forall_forall in HB. auto. }
    rewrite E. cbn [bind]. eauto.
  Qed.

  Theorem terminate_spec : forall (c : cfg) s b s', wf c s -> terminate c s = Ok (b, s') ->
    s_active s' = filter (fun m => negb (meets_some c s m)) (seq 0 (s_M s)) /\
    (b = true <-> forall m, m < s_M s -> meets_some c s m = true) /\
    (forall m, m < s_M s -> nth_error (s_reason s') m =
       if meets_some c s m then Some (Some (met_criteria c s m)) else nth_error (s_reason s) m) /\
    s' = set_reason (s_reason s') (set_active (s_active s') s).
  Proof.
    intros c s b s' W H. unfold terminate in H. apply bind_ok in H. destruct H as (s1 & E & H).
    inversion H; subst s1; clear H. unfold select_active_runs in E.
    apply bind_ok in E. destruct E as (loc & El & E). cbv zeta in E.
    assert (Hrow : forall m, m < s_M s ->
              map (fun col => nth m col false) loc = map (fun k => holds c s k m) (c_crit c)).
    { intros m Hm. apply nth_error_ext. intros i. rewrite !nth_error_map.
      destruct (nth_error (c_crit c) i) as [k|] eqn:Ek.
      - destruct (mapM_nth _ _ _ _ _ _ _ El Ek) as (col & Ec & Ei). rewrite Ei. cbn [option_map].
        f_equal. eapply crit_col; eauto.
      - replace (nth_error loc i) with (@None (list bool)); auto. symmetry. apply nth_error_None.
        rewrite (mapM_length _ _ _ _ _ El). apply nth_error_None; auto. }
    set (terms := map (fun j => count_occ Bool.bool_dec (map (fun col => nth j col false) loc) true) (seq 0 (s_M s))) in E.
    assert (Hterm : forall m, m < s_M s -> (nth m terms 0 =? 0) = negb (meets_some c s m)).
    { intros m Hm. unfold terms. erewrite nth_error_nth.
      2: { rewrite nth_error_map, nth_error_seq, (proj2 (Nat.ltb_lt _ _) Hm). reflexivity. }
      rewrite Hrow by auto. rewrite count_occ_existsb, existsb_map. reflexivity. }
    assert (Hact : np_where (map (fun t => t =? 0) terms) = filter (fun m => negb (meets_some c s m)) (seq 0 (s_M s))).
    { rewrite np_where_map. unfold terms at 2. rewrite map_length, seq_length. apply filter_ext_in.
      intros m Hm. apply in_seq in Hm. destruct (nth_error terms m) eqn:En.
      - rewrite <- Hterm by lia. erewrite nth_error_nth; eauto.
      - apply nth_error_None in En. unfold terms in En. rewrite map_length, seq_length in En. lia. }
    inversion E as [Es]. clear E. sst. split. { exact Hact. }
    split.
    { rewrite Hact. split.
      - intros Hb m Hm. apply Nat.leb_le in Hb.
        destruct (meets_some c s m) eqn:Em; auto. exfalso.
        assert (Hin : In m (filter (fun m => negb (meets_some c s m)) (seq 0 (s_M s)))).
        { apply filter_In. rewrite Em. split; auto. apply in_seq. lia. }
        destruct (filter (fun m => negb (meets_some c s m)) (seq 0 (s_M s))); [contradiction|cbn in Hb; lia].
      - intros Ha. apply Nat.leb_le.
        destruct (filter (fun m => negb (meets_some c s m)) (seq 0 (s_M s))) eqn:Ef; auto.
        assert (Hin : In n (filter (fun m => negb (meets_some c s m)) (seq 0 (s_M s)))) by (rewrite Ef; cbn; auto).
        apply filter_In in Hin. destruct Hin as [Hi Hm]. apply in_seq in Hi.
        rewrite Ha in Hm by lia. discriminate. }
    split.
    { intros m Hm. rewrite mapi_nth. assert (Hl : m < length (s_reason s)) by (rewrite (w_reason _ _ W); auto).
      destruct (nth_error_lt_Some _ _ _ Hl) as [r Er]. rewrite Er. cbn [option_map]. rewrite Hterm by auto.
      destruct (meets_some c s m); cbn [negb]; auto. do 2 f_equal. rewrite Hrow by auto.
      rewrite np_where_map. reflexivity. }
    destruct s; reflexivity.
  Qed.

  Lemma in_active_spec : forall (c : cfg) s b s' m, wf c s -> terminate c s = Ok (b, s') ->
    (In m (s_active s') <-> m < s_M s /\ meets_some c s m = false).
  Proof.
    intros. destruct (terminate_spec _ _ _ _ H H0) as (E & _). rewrite E, filter_In, in_seq, negb_true_iff.
    intuition lia.
  Qed.

  (** ** Number of iterations *)

  Lemma params_frame : forall (s s' : st), params_changed s s' ->
    s_M s' = s_M s /\ s_N s' = s_N s /\ s_it s' = s_it s /\ s_t s' = s_t s /\ s_active s' = s_active s /\
    s_nfe s' = s_nfe s /\ s_fcalls s' = s_fcalls s /\ s_fmin s' = s_fmin s /\ s_udiff s' = s_udiff s /\ s_x s' = s_x s /\
    s_energy s' = s_energy s.
  Proof. intros s s' (al & sg & la & d & _ & ->). destruct s; repeat split; auto. Qed.

  Lemma term_frame : forall (c : cfg) (s s' : st) b, terminate c s = Ok (b, s') ->
    s_M s' = s_M s /\ s_N s' = s_N s /\ s_it s' = s_it s /\ s_t s' = s_t s /\ s_dt s' = s_dt s /\ s_nfe s' = s_nfe s /\
    s_fcalls s' = s_fcalls s /\ s_fmin s' = s_fmin s /\ s_udiff s' = s_udiff s /\ s_x s' = s_x s /\ s_energy s' = s_energy s /\
    length (s_active s') <= s_M s.
  Proof.
    intros. apply terminate_char in H. destruct H as (act & re & -> & Hi & Hlt & _). repeat split; auto.
    sst. rewrite <- (seq_length (s_M s) 0). apply NoDup_incl_length. apply incr_NoDup; auto.
    intros m Hm. apply in_seq. apply Hlt in Hm. lia.
  Qed.

  (** everything needed of the dynamic's step by the loop results *)

  Lemma iteration : forall (c : cfg) sched s b s2 o, wf c s -> plain c (s_N s) ->
    param_sched sched -> total_sched sched ->
    terminate c s = Ok (b, s2) -> perms_valid o s2 ->
    exists s3 s4, step c o s2 = Ok s3 /\ sched s3 = Ok s4 /\ wf c s4 /\ s_M s4 = s_M s /\ s_N s4 = s_N s /\ s_it s4 = S (s_it s).
  Proof.
    intros c sched s b s2 o W [G1 G2] PS TS HT P.
    pose proof (terminate_wf _ _ _ _ HT W) as W2. pose proof (term_frame _ _ _ _ HT) as (F1 & F2 & F3 & _).
    destruct (step_char c o s2 W2) as (s3 & E3 & W3 & (M3 & N3 & _ & _ & _ & _ & _ & I3 & _) & _); auto.
    { apply perms_valid_ok; auto. } { rewrite F2; auto. }
    destruct (TS s3) as [s4 E4]. exists s3, s4. split; auto. split; auto.
    pose proof (PS _ _ E4) as PC. pose proof (params_frame _ _ PC) as (P1 & P2 & P3 & _).
    split. { eapply params_wf; eauto. } repeat split; congruence.
  Qed.

  Lemma meets_maxit : forall (c : cfg) s n m, In (CMaxIt (Some n)) (c_crit c) -> n <= s_it s -> meets_some c s m = true.
  Proof.
    intros. unfold meets_some. apply existsb_exists. exists (CMaxIt (Some n)). split; auto. cbn. apply Nat.leb_le; auto.
  Qed.

  Lemma perms_valid_frame : forall (o : orc) (s s' : st), s_M s' = s_M s -> s_N s' = s_N s -> perms_valid o s -> perms_valid o s'.
  Proof. unfold perms_valid. intros o s s' -> ->. auto. Qed.

  Theorem maxit_bound : forall (c : cfg) sched os n fuel i s,
    wf c s -> plain c (s_N s) -> param_sched sched -> total_sched sched -> in_range os s ->
    Forall builtin (c_crit c) -> In (CMaxIt (Some n)) (c_crit c) -> n - s_it s <= fuel ->
    exists s', optimize_loop c (step c) sched os fuel i s = Some (Ok s') /\ s_it s' <= max n (s_it s).
  Proof.
    induction fuel; intros i s W G PS TS IR HB Hin Hle.
    - cbn [optimize_loop]. destruct (terminate_total c s W HB) as (b & s' & E). rewrite E.
      destruct (terminate_spec _ _ _ _ W E) as (_ & Hb & _).
      assert (b = true) as ->. { apply Hb. intros. eapply meets_maxit; eauto. lia. }
      exists s'. split; auto. destruct (term_frame _ _ _ _ E) as (_ & _ & -> & _). lia.
    - cbn [optimize_loop]. destruct (terminate_total c s W HB) as (b & s2 & E). rewrite E.
      destruct b.
      + exists s2. split; auto. destruct (term_frame _ _ _ _ E) as (_ & _ & -> & _). lia.
      + assert (Hlt : s_it s < n).
        { destruct (le_lt_dec n (s_it s)); auto. exfalso.
          destruct (terminate_spec _ _ _ _ W E) as (_ & Hb & _).
          assert (false = true); [|discriminate]. apply Hb. intros. eapply meets_maxit; eauto. }
        pose proof (term_frame _ _ _ _ E) as (F1 & F2 & _).
        destruct (iteration c sched s false s2 (os i)) as (s3 & s4 & E3 & E4 & W4 & M4 & N4 & I4); auto.
        { eapply perms_valid_frame; eauto. }
        rewrite E3. cbn [bind]. rewrite E4.
        destruct (IHfuel (S i) s4) as (s' & E' & H'); auto; try lia.
        { rewrite N4; auto. } { intros j. apply (perms_valid_frame _ s); auto. }
        exists s'. split; auto. lia.
  Qed.

  Lemma only_maxit : forall (c : cfg) s n m, c_crit c = [CMaxIt (Some n)] -> meets_some c s m = (n <=? s_it s).
  Proof. intros. unfold meets_some. rewrite H. cbn. apply orb_false_r. Qed.

  Theorem maxit_exact : forall (c : cfg) sched os n fuel i s,
    wf c s -> 1 <= s_M s -> plain c (s_N s) -> param_sched sched -> total_sched sched -> in_range os s ->
    c_crit c = [CMaxIt (Some n)] ->
    (fuel < n - s_it s -> optimize_loop c (step c) sched os fuel i s = None) /\
    (n - s_it s <= fuel -> exists s', optimize_loop c (step c) sched os fuel i s = Some (Ok s') /\ s_it s' = max n (s_it s)).
  Proof.
    induction fuel; intros i s W HM G PS TS IR HC.
    - assert (HB : Forall builtin (c_crit c)) by (rewrite HC; repeat constructor).
      cbn [optimize_loop]. destruct (terminate_total c s W HB) as (b & s' & E). rewrite E.
      destruct (terminate_spec _ _ _ _ W E) as (_ & Hb & _).
      split; intros Hf.
      + destruct b; auto. exfalso. assert (Hm : meets_some c s 0 = true) by (apply Hb; auto; lia).
        rewrite (only_maxit c s n) in Hm by auto. apply Nat.leb_le in Hm. lia.
      + assert (b = true) as ->. { apply Hb. intros. rewrite (only_maxit c s n) by auto. apply Nat.leb_le. lia. }
        exists s'. split; auto. destruct (term_frame _ _ _ _ E) as (_ & _ & -> & _). lia.
    - assert (HB : Forall builtin (c_crit c)) by (rewrite HC; repeat constructor).
      cbn [optimize_loop]. destruct (terminate_total c s W HB) as (b & s2 & E). rewrite E.
      destruct (terminate_spec _ _ _ _ W E) as (_ & Hb & _).
      destruct b.
      + assert (Hm : meets_some c s 0 = true) by (apply Hb; auto; lia).
        rewrite (only_maxit c s n) in Hm by auto. apply Nat.leb_le in Hm. split; [lia|].
        intros _. exists s2. split; auto. destruct (term_frame _ _ _ _ E) as (_ & _ & -> & _). lia.
      + assert (Hlt : s_it s < n).
        { destruct (le_lt_dec n (s_it s)); auto. exfalso.
          assert (false = true); [|discriminate]. apply Hb. intros. rewrite (only_maxit c s n) by auto. apply Nat.leb_le. auto. }
        pose proof (term_frame _ _ _ _ E) as (F1 & F2 & _).
        destruct (iteration c sched s false s2 (os i)) as (s3 & s4 & E3 & E4 & W4 & M4 & N4 & I4); auto.
        { eapply perms_valid_frame; eauto. }
        rewrite E3. cbn [bind]. rewrite E4.
        destruct (IHfuel (S i) s4) as (H1 & H2); auto; try lia.
        { rewrite N4; auto. } { intros j. apply (perms_valid_frame _ s); auto. }
        split; intros Hf. { apply H1. lia. }
        destruct H2 as (s' & E' & H'); [lia|]. exists s'. split; auto. lia.
  Qed.

  Theorem nocrit_never_stops : forall (c : cfg) sched os fuel i s,
    wf c s -> 1 <= s_M s -> plain c (s_N s) -> param_sched sched -> total_sched sched -> in_range os s ->
    (c_crit c = [] \/ c_crit c = [CMaxIt None]) ->
    optimize_loop c (step c) sched os fuel i s = None.
  Proof.
    induction fuel; intros i s W HM G PS TS IR HC;
      (assert (HB : Forall builtin (c_crit c)) by (destruct HC as [-> | ->]; repeat constructor));
      cbn [optimize_loop]; destruct (terminate_total c s W HB) as (b & s' & E); rewrite E;
      destruct (terminate_spec _ _ _ _ W E) as (_ & Hb & _);
      assert (Hm : meets_some c s 0 = false) by (unfold meets_some; destruct HC as [-> | ->]; reflexivity);
      (destruct b; [rewrite (proj1 Hb) in Hm; auto; discriminate|]); auto.
    pose proof (term_frame _ _ _ _ E) as (F1 & F2 & _).
    destruct (iteration c sched s false s' (os i)) as (s3 & s4 & E3 & E4 & W4 & M4 & N4 & I4); auto.
    { eapply perms_valid_frame; eauto. }
    rewrite E3. cbn [bind]. rewrite E4. apply IHfuel; auto; try lia.
    { rewrite N4; auto. } { intros j. apply (perms_valid_frame _ s); auto. }
  Qed.
End Term.
