(** * Whole sessions of the variants of CBO that cannot fail *)
From Coq Require Import String List Arith Bool Permutation Lia.
From Verif Require Import Scalar ScalarFacts Np NpFacts State Pdyn PdynFacts PdynStep PdynRun PdynOk Exec BcFacts TermSpec TermFacts
  Memory MemFacts MemFacts2 RegSched Variant VarSpec VarFacts VarMove RegVar AdamFacts VarExact HyperTotal VarTotal SessSpec VarSessSpec VarTotalSpec.
Import ListNotations.
Open Scope nat_scope.
Open Scope list_scope.

Section Generic.
  Context {K V E : Type} {O : KOps K}.
  Notation F := (fl K).
  Notation st := (st K V).
  Notation cfg := (cfg K V).
  Notation orc := (orc V).
  Variables (inner : cfg -> orc -> st -> E -> res (st * E)) (attr : st -> E) (Q : nat -> nat -> E -> Prop) (G : cfg -> Prop) (J : E -> Prop) (Act : list nat -> Prop) (T : F -> Prop).
  Variables (c : cfg) (M N : nat).
  Hypothesis REG : regular inner Q G.
  Hypothesis HG : G c.
  Hypothesis QA : forall (c : cfg) (s : st), wf c s -> Q (s_M s) (s_N s) (attr s).
  Hypothesis Hb : Forall builtin (c_crit c).
  Hypothesis TOT : forall n s e log o, vexec inner attr c n (s, e) log -> perms_valid o s -> s_active s <> [] -> s_M s = M -> Act (s_active s) -> T (s_dt s) -> J e ->
    exists s' e', vstep inner c o (s, e) = Ok (s', e') /\ J e'.

  Lemma play_total : forall l k s e log, vexec inner attr c k (s, e) log -> s_M s = M -> s_N s = N -> Act (s_active s) -> T (s_dt s) -> J e -> valid_calls T M N l ->
    (no_checks l \/ forall act, incr act -> (forall m, In m act -> m < M) -> Act act) -> exists r, var_play inner c l (s, e) = Ok r.
  Proof.
    induction l as [|a l IH]; intros k s e log X HM HN HA HT HJ HV HC; [eexists; reflexivity|].
    destruct (vexec_inv _ _ _ _ REG QA c _ _ _ _ HG X) as [W HQ].
    cbn [var_play]. destruct a as [o| |al sg la dt|].
    - destruct HV as [HP HV]. cbn [var_do fst].
      destruct (s_active s) as [|m0 act] eqn:EA.
      { cbn [bind]. rewrite <- EA in HA. eapply IH; eauto. }
      rewrite <- EA in *. assert (NE : s_active s <> []) by (rewrite EA; discriminate).
      assert (P : perms_valid o s). { intros m Hm. rewrite HN. apply HP. lia. }
      destruct (TOT _ _ _ _ _ X P NE HM HA HT HJ) as (s' & e' & HS & HJ'). rewrite HS. cbn [bind].
      destruct (vstep_good _ _ _ REG c o s e s' e' HG W (perms_valid_ok _ _ P) NE HQ HS) as [(_ & (EM & EN & _ & _ & _ & ED & _ & _ & EA' & _) & _) _].
      eapply (IH (S k) s' e'); [eapply vx_step; eauto| | | | |auto|auto|auto]; try congruence; rewrite ?EA', ?ED; auto.
    - cbn [var_do cbo_do fst snd]. destruct HC as [HC|HC]; [destruct HC|].
      destruct (terminate_total c s W Hb) as (bb & s2 & HT2). rewrite HT2. cbn [bind snd].
      pose proof (terminate_char _ _ _ _ HT2) as (act & reason & E2 & I1 & I2 & _).
      eapply (IH k s2 e); [eapply vx_term; eauto|..]; subst s2; sst; auto. apply HC; auto. rewrite <- HM. auto.
    - destruct HV as [HD HV]. cbn [var_do cbo_do fst snd bind].
      eapply (IH k); [eapply vx_params; [exact X|]; eexists _, _, _, _; split; [|reflexivity]|..]; sst; auto.
      intros _. split; [apply repeat_length|]. apply Forall_forall. intros r Hr. apply repeat_spec in Hr. subst. reflexivity.
    - cbn [var_do cbo_do fst snd bind]. destruct (reset_char s) as (ts & h & E2 & _).
      eapply (IH k); [eapply vx_reset; exact X|..]; rewrite ?E2; sst; auto.
  Qed.

  Lemma session_total : forall x0 checked alpha sigma lamda dt perm0 names extra save l, good_construction c x0 perm0 save -> length x0 = M -> shape1 x0 = N ->
    (forall s, s_M s = M -> J (attr s)) -> Act (seq 0 M) -> T dt -> valid_calls T M N l -> (no_checks l \/ forall act, incr act -> (forall m, In m act -> m < M) -> Act act) ->
    exists r, var_session inner attr c x0 checked alpha sigma lamda dt perm0 names extra save l = Ok r.
  Proof.
    intros x0 checked alpha sigma lamda dt perm0 names extra save l (H1 & H2 & H3 & H4 & H5) HM HN JA HA HT HV HC. unfold var_session.
    assert (Hi : exists s, init c x0 checked alpha sigma lamda dt perm0 names extra save = Ok s /\ s_M s = M /\ s_N s = N /\ s_active s = seq 0 M /\ s_dt s = dt).
    { unfold init. assert (exists bp, mapM (fun row : list V => take1 row 0) x0 = Ok bp) as [bp ->].
      { clear - H1 H2. destruct H1 as [_ H1]. set (n := shape1 x0) in *. clearbody n. induction H1 as [|row x0 Hr _ IH]; [eexists; reflexivity|].
        destruct IH as [bp IH]. destruct row as [|v row]; [cbn in Hr; lia|]. cbn [mapM take1 nth_error bind]. rewrite IH. cbn [bind]. eauto. }
      cbn [bind]. cbv zeta.
      match goal with |- context [init_history _ _ _ ?s0] => destruct (init_history_char names extra save s0) as (ts & h & E2 & _); exists (init_history names extra save s0); split; [reflexivity|]; rewrite E2 end.
      sst. auto. }
    destruct Hi as (s & Ei & EM & EN & EA & ED). rewrite Ei. cbn [bind].
    eapply (play_total l 0 s (attr s)); auto.
    - apply vx_init. exists x0, checked, alpha, sigma, lamda, dt, perm0, names, extra, save. auto 8.
    - rewrite EA. auto.
    - rewrite ED. auto.
  Qed.
End Generic.

Section Instances.
  Context {K V : Type} {O : KOps K}.
  Notation F := (fl K).
  Notation cfg := (cfg K V).
  Notation call := (call (K := K) (V := V)).
  Variables (c : cfg) (x0 : arr V) (checked : bool) (alpha sigma lamda dt : F) (perm0 : nat -> list nat) (names : option (list string)) (extra : list trk) (save : option nat) (l : list call).
  Notation session inner attr := (var_session inner attr c x0 checked alpha sigma lamda dt perm0 names extra save l).
  Hypothesis Hb : Forall builtin (c_crit c).
  Hypothesis C1 : one_consensus_point c.
  Hypothesis HC : good_construction c x0 perm0 save.

  Theorem mirror_never_fails : forall gc gr, c_corr c = NoCorr -> valid_calls (fun _ => True) (length x0) (shape1 x0) l -> exists r, session (mirror_inner gc) (mirror_attr gr) = Ok r.
  Proof.
    intros gc gr NC HV. eapply (session_total _ _ _ no_cond (fun _ => True) (fun _ => True) (fun _ => True)) with (1 := mirror_regular gc) (M := length x0) (N := shape1 x0); auto; [exact I|apply attr_mirror|].
    intros n s e log o X P _ _ _ _ _. destruct (mirror_total gc gr c n s e log o C1 NC X P) as (s' & y' & H). eauto.
  Qed.
  Theorem adam_never_fails : forall vsq vquot p z, valid_calls (fun _ => True) (length x0) (shape1 x0) l -> exists r, session (adam_inner vsq vquot p) (adam_attr z) = Ok r.
  Proof.
    intros vsq vquot p z HV. eapply (session_total _ _ _ no_cond (fun _ => True) (fun _ => True) (fun _ => True)) with (1 := adam_regular vsq vquot p) (M := length x0) (N := shape1 x0); auto; [exact I|apply attr_adam|].
    intros n s e log o X P _ _ _ _ _. destruct (adam_total vsq vquot p z c n s e log o C1 X P) as (s' & y' & H). eauto.
  Qed.

  (** one run, or no termination checks: all runs are active when a step is made *)
  Hypothesis ALL : length x0 = 1 \/ no_checks l.
  Let Act (act : list nat) : Prop := length act = length x0 \/ act = [].
  Let Act_all : no_checks l \/ forall act, incr act -> (forall m, In m act -> m < length x0) -> Act act.
  Proof.
    destruct ALL as [H1|H]; [right|left; auto]. intros act I1 I2. unfold Act. rewrite H1 in *. destruct act as [|a [|b act]]; auto. exfalso.
    pose proof (incr_NoDup _ I1) as D. pose proof (I2 a ltac:(cbn; auto)). pose proof (I2 b ltac:(cbn; auto)). inversion D as [|? ? D1 _]. apply D1. cbn. left. lia.
  Qed.
  Let full : forall act, act <> [] -> Act act -> length act = length x0.
  Proof. intros act H [A|A]; auto. contradiction. Qed.

  Theorem hyper_never_fails : forall S, valid_calls (fun _ => True) (length x0) (shape1 x0) l -> exists r, session (hyper_inner S) (fun _ => tt) = Ok r.
  Proof.
    intros S HV. eapply (session_total _ _ _ one_consensus_point (fun _ => True) Act (fun _ => True)) with (1 := hyper_regular S) (M := length x0) (N := shape1 x0); auto.
    - intros n s e log o X P NE HM HA _ _. destruct (hyper_total S c n s e log o C1 X P) as (s' & H); eauto. rewrite HM. auto.
    - left. apply seq_length.
  Qed.
  Theorem dc_never_fails : forall G eps (T : F -> Prop), (forall g, G = Some g -> forall t x y, T t -> exists w, g_solve g (fdiv t eps) x y = Ok w) -> T dt -> valid_calls T (length x0) (shape1 x0) l ->
    exists r, session (dc_inner G eps) (fun _ => tt) = Ok r.
  Proof.
    intros G eps T HG HT HV. eapply (session_total _ _ _ no_cond (fun _ => True) Act T) with (1 := dc_regular G eps) (M := length x0) (N := shape1 x0); auto; [exact I| |].
    - intros n s e log o X P NE HM HA HT' _. destruct (dc_total G eps c n s e log o C1) as (s' & H); eauto. rewrite HM. auto.
    - left. apply seq_length.
  Qed.
  Theorem reg_never_fails : forall f reg pow la solve eps (T : F -> Prop), penalised f reg pow la c -> (forall g, solve = Some g -> forall t x y, T t -> exists w, g (fdiv t eps) x y = Ok w) ->
    T dt -> valid_calls T (length x0) (shape1 x0) l -> 1 <= length x0 ->
    exists r, session (reg_inner (reg_call f reg pow) solve eps) (reg_attr la) = Ok r.
  Proof.
    intros f reg pow la solve eps T PC HG HT HV HM1.
    eapply (session_total _ _ _ (reg_cond f reg pow la) (fun ob => forall lm, o_lamda ob = Some lm -> length lm = length x0) Act T) with (1 := reg_regular f reg pow la solve eps) (M := length x0) (N := shape1 x0); auto; [split; auto|apply reg_attr_ok| | |].
    - intros n s e log o X P NE HM HA HT' HJ. destruct (reg_total f reg pow la solve eps c n s e log o PC C1) as (s' & ob' & H & H2); eauto; try (rewrite HM; auto). rewrite HM in H2. eauto.
    - discriminate.
    - left. apply seq_length.
  Qed.
End Instances.
