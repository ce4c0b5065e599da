(** * Related sessions of CBO *)
From Coq Require Import String List Arith Bool Permutation Lia.
From Verif Require Import Scalar Np NpFacts State Pdyn PdynFacts PdynStep PdynRun PdynOk Exec StepFrame MemFacts MemFacts2 SimSpec SimNp SimFacts SessSpec.
Import ListNotations.
Open Scope nat_scope.
Open Scope list_scope.

Section Frame.
  Context {K V : Type} {O : KOps K}.
  Definition same_setting (s s1 : st K V) : Prop := s_M s1 = s_M s /\ s_N s1 = s_N s /\ s_lamda s1 = s_lamda s /\ s_dt s1 = s_dt s /\ s_sigma s1 = s_sigma s.
  Lemma step_setting : forall (c : cfg K V) o s s1, step c o s = Ok s1 -> same_setting s s1.
  Proof.
    intros c o s s' H. destruct (step_split _ _ _ _ H) as (t1 & t2 & T1 & T2 & T3).
    apply pre_step_frame in T1. destruct T1 as (? & ? & ? & ? & ->).
    apply cbo_step_frame in T2. destruct T2 as (? & ? & ? & ? & ? & ? & ? & ->).
    apply post_step_frame in T3. destruct T3 as (? & ? & ? & ? & ? & ? & ? & s5 & T4 & ->).
    apply track_frame in T4. destruct T4 as (ti & ts & h & ->). repeat split.
  Qed.
  Lemma pre_live : forall (c : cfg K V) o s s1, wf c s -> perm_ok o s -> pre_step c o s = Ok s1 -> SimFacts.live (s_cidx s1) (s_x s1).
  Proof.
    intros c o s s1 W P E Y r HY Hr. destruct (s_active s) as [|m0 l] eqn:EA.
    - destruct (pre_step_char c o s W P) as (ci & pi & ind & E0 & Gc & _). rewrite E in E0. injection E0 as ->. ssti HY.
      destruct (gather_rows _ _ _ _ _ _ Gc (w_actlt _ _ W) (w_x _ _ W)) as (Y' & E1 & LY & _). rewrite E1 in HY. injection HY as <-. rewrite EA in LY.
      destruct Y'; [destruct Hr|discriminate].
    - destruct (pre_ready c o s W P) as (ci & pi & ind & E0 & R & _). { rewrite EA. discriminate. } rewrite E in E0. injection E0 as ->.
      destruct (gather_rect _ _ _ _ _ _ _ (rd_c _ _ R) (rd_lt _ _ R) (rd_x _ _ R) (rd_cs _ _ R)) as (Y' & EY & RY).
      rewrite EY in HY. injection HY as <-. intros ->. apply In_nth_error in Hr. destruct Hr as [n Hn]. pose proof (proj2 RY _ _ Hn) as E1. pose proof (rd_b _ _ R) as E2. cbn in E1. lia.
  Qed.
End Frame.

Section SimCbo.
  Context {K V V' : Type} {O : KOps K}.
  Notation F := (fl K).
  Variables (RV RD RZ : V -> V' -> Prop) (RE RF RA RU : F -> F -> Prop) (Fs Ft : F -> Prop).
  Variables (c : cfg K V) (c' : cfg K V').
  Hypothesis L : laws RV RD RZ RE RF RA RU Fs Ft c c'.
  Notation srel := (state_related RV RD RE RA RU).

  Theorem step_so : forall o o' s s', wf c s -> perm_ok o s -> orel RZ o o' -> finite_pars Fs Ft s -> srel s s' -> same_outcome srel (step c o s) (step c' o' s').
  Proof.
    intros o o' s s' W P Ho FP H. unfold step. eapply so_bind; [exact (pre_so _ _ _ _ _ _ _ _ _ _ _ L _ _ _ _ Ho H)|]. intros s1 s1' E1 _ H1.
    eapply so_bind; [|intros s2 s2' _ _ H2; exact (post_so _ _ _ _ _ _ _ _ _ _ _ L _ _ H2)].
    eapply (cbo_step_so _ _ _ _ _ _ _ _ _ _ _ L); eauto. { eapply pre_live; eauto. }
    destruct (pre_step_frame _ _ _ _ E1) as (? & ? & ? & ? & ->). exact FP.
  Qed.

  (** corresponding calls *)
  Fixpoint cbo_calls_related (M N : nat) (l : list (call (K := K) (V := V))) (l' : list (call (K := K) (V := V'))) : Prop :=
    match l, l' with
    | [], [] => True
    | CaStep o :: l, CaStep o' :: l' => orel RZ o o' /\ (forall m, m < M -> Permutation (o_perm o m) (seq 0 N)) /\ cbo_calls_related M N l l'
    | CaTerminate :: l, CaTerminate :: l' => cbo_calls_related M N l l'
    | CaReset :: l, CaReset :: l' => cbo_calls_related M N l l'
    | CaParameters a sg la d :: l, CaParameters a' sg' la' d' :: l' => RA a a' /\ sg' = sg /\ la' = la /\ d' = d /\ Fs sg /\ Fs la /\ Ft d /\ cbo_calls_related M N l l'
    | _, _ => False
    end.

  Theorem cbo_play_so : forall l l' s s' log, cbo_calls_related (s_M s) (s_N s) l l' -> exec c s log -> finite_pars Fs Ft s -> srel s s' ->
    same_outcome srel (cbo_play c l s) (cbo_play c' l' s').
  Proof.
    induction l as [|a l IH]; intros [|a' l'] s s' log HC E FP H; cbn in HC; try contradiction; try (destruct a; contradiction). { exact H. }
    pose proof (exec_wf _ _ _ E) as W.
    destruct a as [o| |al sg la dt|], a' as [o'| |al' sg' la' dt'|]; try contradiction; cbn [cbo_play cbo_do].
    - destruct HC as (Ho & Hp & HC). assert (PV : perms_valid o s) by exact Hp.
      eapply so_bind; [apply step_so; eauto; apply perms_valid_ok; exact PV|]. intros s1 s1' E1 _ H1.
      destruct (step_setting _ _ _ _ E1) as (S1 & S2 & S3 & S4 & S5). eapply IH; eauto.
      + rewrite S1, S2. auto.
      + eapply ex_step; eauto.
      + unfold finite_pars in *. rewrite S3, S4, S5. auto.
    - eapply so_bind with (R := fun u u' => srel u u' /\ exec c u log /\ same_setting s u).
      { eapply so_bind; [exact (terminate_so _ _ _ _ _ _ _ _ _ _ _ L _ _ H)|]. intros [b s1] [b' s1'] E1 _ [_ T]. cbn [snd] in T. cbn [same_outcome snd]. split; auto.
        split; [eapply ex_term; eauto|]. destruct (terminate_char _ _ _ _ E1) as (act & rs & Es & _). rewrite Es. repeat split. }
      intros s1 s1' _ _ (H1 & E1 & (S1 & S2 & S3 & S4 & S5)). eapply IH; eauto. { rewrite S1, S2. auto. } unfold finite_pars in *. rewrite S3, S4, S5. auto.
    - destruct HC as (Ha & -> & -> & -> & F1 & F2 & F3 & HC). cbn [bind]. rewrite (rl_M _ _ _ _ _ _ _ H). eapply IH with (log := log).
      + exact HC.
      + eapply ex_params; [exact E|]. eexists _, _, _, _. split; [|reflexivity].
        intros _. split; [apply repeat_length|]. apply Forall_forall. intros r Hr. apply repeat_spec in Hr. subst. auto.
      + unfold finite_pars. sst. auto.
      + destruct H. constructor; sst; auto. apply F2_repeat. constructor; auto.
    - cbn [bind]. destruct (reset_char s) as (ts & h & Er & _). eapply IH with (log := log).
      + rewrite Er. exact HC.
      + apply ex_reset; auto.
      + rewrite Er. exact FP.
      + unfold reset. apply r_t; auto. eapply init_history_so. apply r_it; auto.
  Qed.

  Theorem cbo_session_so : forall x0 x0' checked alpha alpha' sigma lamda dt perm0 names extra save l l', entries RV x0 x0' -> RA alpha alpha' ->
    is_array (length x0) (shape1 x0) x0 -> 1 <= shape1 x0 -> 1 <= c_bsize c <= shape1 x0 ->
    (forall m, m < length x0 -> Permutation (perm0 m) (seq 0 (shape1 x0))) -> save <> Some 0 -> Fs sigma -> Fs lamda -> Ft dt ->
    cbo_calls_related (length x0) (shape1 x0) l l' ->
    same_outcome srel (cbo_session c x0 checked alpha sigma lamda dt perm0 names extra save l) (cbo_session c' x0' checked alpha' sigma lamda dt perm0 names extra save l').
  Proof.
    intros x0 x0' checked alpha alpha' sigma lamda dt perm0 names extra save l l' Hx Ha A1 A2 A3 A4 A5 F1 F2 F3 HC. unfold cbo_session.
    eapply so_bind; [eapply (init_so _ _ _ _ _ _ _ _ _ _ _ L); eauto|]. intros s s' E _ HM.
    assert (EX : exec c s []). { apply ex_init. exists x0, checked, alpha, sigma, lamda, dt, perm0, names, extra, save. auto 10. }
    assert (Q : s_M s = length x0 /\ s_N s = shape1 x0 /\ s_lamda s = lamda /\ s_dt s = dt /\ s_sigma s = sigma).
    { unfold init in E. apply bind_ok in E. destruct E as (bp & _ & E). cbv zeta in E.
      match type of E with context [init_history ?a ?b ?c ?d] => destruct (init_history_char a b c d) as (ts & h & E' & _); rewrite E' in E end. injection E as <-. repeat split. }
    destruct Q as (Q1 & Q2 & Q3 & Q4 & Q5). eapply cbo_play_so; eauto. { rewrite Q1, Q2. auto. } unfold finite_pars. rewrite Q3, Q4, Q5. auto.
  Qed.
End SimCbo.
