(** * Saved evaluation points, reset, time *)
From Coq Require Import String List Arith Bool Lia Reals Lra.
From Verif Require Import Scalar ScalarFacts Np NpFacts State Pdyn PdynFacts PdynStep PdynRun Exec PdynOk TermSpec TermFacts RunFacts RFacts.
Import ListNotations.
Open Scope nat_scope.
Open Scope list_scope.

Section Cep.
  Context {K V : Type} {O : KOps K}.
  Notation F := (fl K).
  Notation st := (st K V).
  Notation cfg := (cfg K V).
  Notation orc := (orc V).

  Definition cep_inv (c : cfg) (s : st) : Prop :=
    match s_cep s with
    | None => forall m er e, nth_error (s_energy s) m = Some er -> In e er -> e = PInf
    | Some p => forall m n er pr e v, nth_error (s_energy s) m = Some er -> nth_error p m = Some pr ->
        nth_error er n = Some e -> nth_error pr n = Some v -> e = PInf \/ e = c_f c v
    end.

  Lemma cep_step : forall (c : cfg) s log (o : orc) s', exec c s log -> plain c (s_N s) -> c_savepts c = true ->
    perms_valid o s -> step c o s = Ok s' -> cep_inv c s -> cep_inv c s' /\ s_cep s' <> None.
  Proof.
    intros c s log o s' E G SV P HS I. pose proof (exec_wf _ _ _ E) as W. pose proof (perms_valid_ok _ _ P) as P'.
    destruct (step_ok_char c o s s' W P' HS) as (W' & (EM & EN & _) & _ & HR).
    destruct G as [G1 G2].
    destruct (step_char c o s W P' G1 G2) as (s'' & HS' & _ & _ & _ & _ & _ & _ & _ & _ & V2 & V3).
    rewrite HS in HS'. inversion HS'; subst s''. clear HS'. specialize (V2 SV). specialize (V3 SV).
    assert (Hent : forall m er', nth_error (s_energy s') m = Some er' ->
      exists r, row_at s m = Some r /\ m < s_M s /\ nth_error (s_x s) m = Some (r_x r) /\ nth_error (s_energy s) m = Some (r_e r) /\
       (In m (s_active s) -> exists xb, takeM (r_x r) (run_sel c o s m) = Ok xb /\
                                put1 (run_sel c o s m) (r_e r) (map (c_f c) xb) = Ok er') /\
         (~ In m (s_active s) -> er' = r_e r)).
    { intros m er' He.
      assert (Hm : m < s_M s). { rewrite <- EM, <- (proj1 (w_e _ _ W')). eapply nth_error_lt; eauto. }
      destruct (row_at_Some c s m W Hm) as (r & Er & Ex & Ee & _).
      destruct (HR m r Er) as (xr & er & nf & r' & A & B & Hp & Er'). exists r.
      assert (er' = er) as ->.
      { apply row_at_lt in Er'. destruct Er' as (_ & _ & X & _). rewrite He in X. inversion X.
        unfold run_post in Hp. apply bind_ok in Hp. destruct Hp as ([j e0] & _ & Hp).
        apply bind_ok in Hp. destruct Hp as (p & _ & Hp). apply bind_ok in Hp. destruct Hp as (e & _ & Hp).
        inversion Hp; subst r'. reflexivity. }
      auto 10. }
    unfold cep_inv in *. destruct (s_cep s) as [p|] eqn:Ec.
    - destruct (V3 p eq_refl) as (p' & Ec' & Q1 & Q2). rewrite Ec'. split; [|discriminate].
      intros m n er pr e v He Hpr Hn Hv.
      destruct (Hent m er He) as (r & Er & Hm & Ex & Ee & A & B).
      destruct (in_dec Nat.eq_dec m (s_active s)) as [Hi|Hi].
      + destruct (A Hi) as (xb & T1 & T2).
        apply In_nth_error in Hi. destruct Hi as [k Hk].
        assert (exists pr0, nth_error p m = Some pr0) as [pr0 Hp0].
        { apply nth_error_lt_Some. pose proof (w_cep _ _ W) as Wc. rewrite Ec in Wc. rewrite (proj1 Wc). auto. }
        destruct (Q1 k m (r_x r) pr0 Hk Ex Hp0) as (xb' & pr' & T1' & T3 & T4).
        rewrite T1 in T1'. inversion T1'; subst xb'. rewrite Hpr in T4. inversion T4; subst pr'.
        pose proof (takeM_length _ _ _ _ T1) as L.
        assert (Ll : length (map (c_f c) xb) = length (run_sel c o s m)) by (rewrite map_length; auto).
        rewrite (put1_nth _ _ _ _ _ n Ll T2) in Hn. rewrite (put1_nth _ _ _ _ _ n L T3) in Hv.
        destruct (last_index n (run_sel c o s m)) as [j|].
        * destruct (n <? length (r_e r)); [|discriminate]. destruct (n <? length pr0); [|discriminate].
          rewrite nth_error_map, Hv in Hn. inversion Hn. auto.
        * eapply I; eauto.
      + rewrite (B Hi) in Hn. rewrite (Q2 m Hi) in Hpr. eapply I; eauto.
    - rewrite (V2 eq_refl). split; [|discriminate].
      intros m n er pr e v He Hpr Hn Hv.
      destruct (Hent m er He) as (r & Er & Hm & Ex & Ee & A & B).
      destruct (in_dec Nat.eq_dec m (s_active s)) as [Hi|Hi].
      + destruct (A Hi) as (xb & T1 & T2). pose proof (takeM_length _ _ _ _ T1) as L.
        assert (Ll : length (map (c_f c) xb) = length (run_sel c o s m)) by (rewrite map_length; auto).
        rewrite (put1_nth _ _ _ _ _ n Ll T2) in Hn.
        destruct (last_index n (run_sel c o s m)) as [j|] eqn:El.
        * destruct (n <? length (r_e r)); [|discriminate]. apply last_index_Some in El.
          pose proof (takeM_nth _ _ _ _ _ _ T1 El) as X. rewrite Ex in Hpr. inversion Hpr; subst pr.
          rewrite nth_error_map, X, Hv in Hn. inversion Hn. auto.
        * left. eapply I; eauto. eapply nth_error_In; eauto.
      + left. rewrite (B Hi) in Hn. eapply I; eauto. eapply nth_error_In; eauto.
  Qed.

  Lemma exec_N : forall (c : cfg) (o : orc) s s' log, exec c s log -> perms_valid o s -> step c o s = Ok s' -> s_N s' = s_N s.
  Proof.
    intros c o s s' log E P HS.
    destruct (step_ok_char c o s s' (exec_wf _ _ _ E) (perms_valid_ok _ _ P) HS) as (_ & (_ & EN & _) & _). auto.
  Qed.

  Theorem cep_exec : forall (c : cfg) s log, exec c s log -> plain c (s_N s) -> c_savepts c = true -> cep_inv c s.
  Proof.
    intros c s log E. induction E; intros G SV.
    - destruct H as (x0 & chk & al & sg & la & dt & perm0 & names & extra & save & Hx & HN & Hb & Hp & Hs & H).
      unfold init in H. apply bind_ok in H. destruct H as (bp & Ebp & H). injection H as E0.
      match type of E0 with init_history _ _ _ ?s1 = _ => destruct (init_history_char names extra save s1) as (ts & h & E & _ & _) end.
      rewrite E in E0. clear E. rewrite <- E0. clear E0. unfold cep_inv. sst. intros m er e He Hin.
      apply nth_error_In, repeat_spec in He. subst er. apply repeat_spec in Hin. auto.
    - assert (G' : plain c (s_N s)) by (rewrite <- (exec_N _ _ _ _ _ E H H0); auto).
      destruct (cep_step c s log o s' E G' SV H H0 (IHE G' SV)); auto.
    - apply terminate_char in H. destruct H as (act & re & -> & _). apply IHE; auto.
    - destruct H as (al & sg & la & d & Hal & ->). unfold cep_inv in *. sst. apply IHE; auto.
    - destruct (reset_char s) as (ts & h & Er & _). rewrite Er in *. unfold cep_inv in *. sstall. apply IHE; auto.
  Qed.

  Theorem saved_points : forall (c : cfg) s log (o : orc) s', exec c s log -> plain c (s_N s) -> c_savepts c = true ->
    perms_valid o s -> step c o s = Ok s' ->
    exists p, s_cep s' = Some p /\
      forall m n er pr e v, nth_error (s_energy s') m = Some er -> nth_error p m = Some pr ->
        nth_error er n = Some e -> nth_error pr n = Some v -> e = PInf \/ e = c_f c v.
  Proof.
    intros c s log o s' E G SV P HS. destruct (cep_step c s log o s' E G SV P HS (cep_exec _ _ _ E G SV)) as [I Hn].
    unfold cep_inv in I. destruct (s_cep s') as [p|]; [|congruence]. exists p. split; auto.
  Qed.

  (** ** reset *)

  Theorem reset_spec : forall s : st,
    s_it (reset s) = 0 /\ s_t (reset s) = Fin k0 /\ s_trackit (reset s) = 0 /\ s_save (reset s) = 1 /\
    s_tracks (reset s) = [TUpd; TEnergy] /\ s_hist (reset s) = [("update_norm", []); ("energy", [])]%string /\
    reset s = set_hist (s_hist (reset s)) (set_tracks (s_tracks (reset s)) (set_save 1 (set_trackit 0
                (set_t (Fin k0) (set_it 0 s))))).
  Proof. intros s. destruct s; repeat split; reflexivity. Qed.

  Theorem reset_not_fresh : forall (c : cfg) (s : st) m e, nth_error (s_be s) m = Some e -> e <> PInf ->
    ~ constructed c (reset s).
  Proof.
    intros c s m e He Hne (x0 & chk & al & sg & la & dt & perm0 & names & extra & save & _ & _ & _ & _ & _ & H).
    unfold init in H. apply bind_ok in H. destruct H as (bp & Ebp & H). injection H as E0.
    match type of E0 with init_history _ _ _ ?s1 = _ => destruct (init_history_char names extra save s1) as (ts & h & E & _ & _) end.
    rewrite E in E0. clear E. assert (X : s_be (reset s) = repeat PInf (length x0)) by (rewrite <- E0; reflexivity).
    destruct (reset_char s) as (ts' & h' & Er & _). rewrite Er in X. ssti X.
    rewrite X in He. apply nth_error_In, repeat_spec in He. auto.
  Qed.

  Theorem reset_not_fresh_nfe : forall (c : cfg) x0 al sg la dt perm0 names extra save (s : st) m n,
    nth_error (s_nfe s) m = Some n -> n <> 0 ->
    init c x0 false al sg la dt perm0 names extra save <> Ok (reset s).
  Proof.
    intros c x0 al sg la dt perm0 names extra save s m n Hn Hne H.
    unfold init in H. apply bind_ok in H. destruct H as (bp & Ebp & H). injection H as E0.
    match type of E0 with init_history _ _ _ ?s1 = _ => destruct (init_history_char names extra save s1) as (ts & h & E & _ & _) end.
    rewrite E in E0. clear E. assert (X : s_nfe (reset s) = repeat 0 (length x0)) by (rewrite <- E0; reflexivity).
    destruct (reset_char s) as (ts' & h' & Er & _). rewrite Er in X. ssti X.
    rewrite X in Hn. apply nth_error_In, repeat_spec in Hn. auto.
  Qed.
End Cep.

(** ** Time *)
Section Time.
  Context {V : Type}.
  Notation st := (st R V).
  Notation cfg := (cfg R V).
  Notation orc := (orc V).

  (** a scheduler that leaves dt alone *)
  Definition keeps_dt (sched : st -> res st) : Prop := forall s s', sched s = Ok s' -> s_dt s' = s_dt s.

  Lemma time_iter : forall (c : cfg) s b s2 (o : orc) s3 sched s4 t d, wf c s -> param_sched sched -> keeps_dt sched ->
    terminate c s = Ok (b, s2) -> perms_valid o s2 -> step c o s2 = Ok s3 -> sched s3 = Ok s4 ->
    s_t s = Fin t -> s_dt s = Fin d ->
    wf c s4 /\ s_it s4 = S (s_it s) /\ s_t s4 = Fin (t + d)%R /\ s_dt s4 = Fin d /\ s_M s4 = s_M s /\ s_N s4 = s_N s.
  Proof.
    intros c s b s2 o s3 sched s4 t d W PS KD HT P HS H4 Ht Hd.
    pose proof (terminate_wf _ _ _ _ HT W) as W2. pose proof (term_frame _ _ _ _ HT) as (F1 & F2 & F3 & F4 & F5 & _).
    destruct (step_ok_char c o s2 s3 W2 (perms_valid_ok _ _ P) HS) as (W3 & (M3 & N3 & _ & _ & _ & D3 & T3 & I3 & _) & _).
    pose proof (PS _ _ H4) as PC. pose proof (params_frame _ _ PC) as (P1 & P2 & P3 & P4 & _).
    split. { eapply params_wf; eauto. }
    repeat split; try congruence.
    - rewrite P4, T3, F4, F5, Ht, Hd. reflexivity.
    - rewrite (KD _ _ H4). congruence.
  Qed.

  Theorem time_after : forall (c : cfg) sched s log n s' t d, exec c s log -> param_sched sched -> keeps_dt sched ->
    s_t s = Fin t -> s_dt s = Fin d -> loop c sched s n s' ->
    s_it s' = s_it s + n /\ s_t s' = Fin (t + INR n * d)%R.
  Proof.
    intros c sched s log n s' t d E PS KD Ht Hd L.
    assert (wf c s' /\ s_it s' = s_it s + n /\ s_t s' = Fin (t + INR n * d)%R /\ s_dt s' = Fin d) as (_ & A & B & _); auto.
    induction L as [|n s1 s2 o s3 s4 L IH HT P HS H4].
    - split. { eapply exec_wf; eauto. } split; [lia|]. split; auto. rewrite Ht. f_equal. cbn [INR]. lra.
    - destruct IH as (W & I1 & I2 & I3).
      destruct (time_iter c s1 false s2 o s3 sched s4 _ _ W PS KD HT P HS H4 I2 I3) as (W4 & J1 & J2 & J3 & _).
      split; auto. split; [lia|]. split; auto. rewrite J2. f_equal. rewrite S_INR. lra.
  Qed.

  Lemma only_maxtime : forall (c : cfg) s T t m, c_crit c = [CMaxTime (Fin T)] -> s_t s = Fin t ->
    (meets_some c s m = true <-> (T <= t)%R).
  Proof.
    intros. unfold meets_some. rewrite H. cbn [existsb]. rewrite orb_false_r. cbn [holds]. rewrite H0.
    cbn [fleb fltb kltb KOps_R]. destruct (Rltb t T) eqn:E; [apply Rltb_true in E|apply Rltb_false in E]; cbn.
    - split; [discriminate|]. intros. exfalso. lra.
    - split; auto.
  Qed.

  Theorem maxtime_exact : forall (c : cfg) sched os T d fuel i s t n,
    wf c s -> 1 <= s_M s -> plain c (s_N s) -> param_sched sched -> total_sched sched -> keeps_dt sched -> in_range os s ->
    c_crit c = [CMaxTime (Fin T)] -> s_t s = Fin t -> s_dt s = Fin d ->
    (T <= t + INR n * d)%R -> (forall k, k < n -> (t + INR k * d < T)%R) ->
    (fuel < n -> optimize_loop c (step c) sched os fuel i s = None) /\
    (n <= fuel -> exists s', optimize_loop c (step c) sched os fuel i s = Some (Ok s') /\
        s_it s' = s_it s + n /\ s_t s' = Fin (t + INR n * d)%R).
  Proof.
    induction fuel; intros i s t n W HM G PS TS KD IR HC Ht Hd Hn Hlt.
    - assert (HB : Forall builtin (c_crit c)) by (rewrite HC; repeat constructor).
      cbn [optimize_loop]. destruct (terminate_total c s W HB) as (b & s' & E). rewrite E.
      destruct (terminate_spec _ _ _ _ W E) as (_ & Hb & _).
      split; intros Hf.
      + destruct b; auto. exfalso. assert (Hm : meets_some c s 0 = true) by (apply Hb; auto; lia).
        apply (only_maxtime c s T t) in Hm; auto. specialize (Hlt 0 Hf). cbn [INR] in Hlt. lra.
      + assert (n = 0) by lia. subst n.
        assert (b = true) as ->. { apply Hb. intros. apply (only_maxtime c s T t); auto. cbn [INR] in Hn. lra. }
        exists s'. split; auto. destruct (term_frame _ _ _ _ E) as (_ & _ & -> & -> & _). split; [lia|].
        rewrite Ht. f_equal. cbn [INR]. lra.
    - assert (HB : Forall builtin (c_crit c)) by (rewrite HC; repeat constructor).
      cbn [optimize_loop]. destruct (terminate_total c s W HB) as (b & s2 & E). rewrite E.
      destruct (terminate_spec _ _ _ _ W E) as (_ & Hb & _).
      destruct b.
      + assert (Hm : meets_some c s 0 = true) by (apply Hb; auto; lia).
        apply (only_maxtime c s T t) in Hm; auto.
        assert (n = 0). { destruct n; auto. exfalso. specialize (Hlt 0 ltac:(lia)). cbn [INR] in Hlt. lra. }
        subst n. split; [lia|]. intros _. exists s2. split; auto.
        destruct (term_frame _ _ _ _ E) as (_ & _ & -> & -> & _). split; [lia|]. rewrite Ht. f_equal. cbn [INR]. lra.
      + assert (Hlt0 : (t < T)%R).
        { destruct (Rle_lt_dec T t); auto. exfalso.
          assert (false = true); [|discriminate]. apply Hb. intros. apply (only_maxtime c s T t); auto. }
        destruct n as [|n]. { exfalso. cbn [INR] in Hn. lra. }
        pose proof (term_frame _ _ _ _ E) as (F1 & F2 & _).
        destruct (iteration c sched s false s2 (os i)) as (s3 & s4 & E3 & E4 & _); auto.
        { eapply perms_valid_frame; eauto. }
        destruct (time_iter c s false s2 (os i) s3 sched s4 t d) as (W4 & I4 & T4 & D4 & M4 & N4); auto.
        { eapply perms_valid_frame; eauto. }
        rewrite E3. cbn [bind]. rewrite E4.
        destruct (IHfuel (S i) s4 (t + d)%R n) as (H1 & H2); auto; try lia.
        { rewrite N4; auto. } { intros j. apply (perms_valid_frame _ s); auto. }
        { rewrite S_INR in Hn. lra. }
        { intros k Hk. specialize (Hlt (S k) ltac:(lia)). rewrite S_INR in Hlt. lra. }
        split; intros Hf. { apply H1. lia. }
        destruct H2 as (s' & E' & A & B); [lia|]. exists s'. split; auto. split; [lia|]. rewrite B. f_equal. rewrite S_INR. lra.
  Qed.

  Lemma least_time : forall (t d T : R), (0 < d)%R -> exists n, (T <= t + INR n * d)%R /\ forall k, k < n -> (t + INR k * d < T)%R.
  Proof.
    intros t d T Hd.
    assert (exists N, (T <= t + INR N * d)%R) as [N HN].
    { destruct (nat_above ((T - t) / d)%R) as [N HN]. exists N.
      assert ((T - t) = (T - t) / d * d)%R by (field; lra). nra. }
    induction N as [|N IH].
    - exists 0. split; auto. intros; lia.
    - destruct (Rle_lt_dec T (t + INR N * d)%R) as [H|H]; auto.
      exists (S N). split; auto. intros k Hk. assert (INR k <= INR N)%R by (apply le_INR; lia). nra.
  Qed.

  Theorem maxtime_stops : forall (c : cfg) sched os T d i s log t,
    exec c s log -> 1 <= s_M s -> plain c (s_N s) -> param_sched sched -> total_sched sched -> keeps_dt sched -> in_range os s ->
    c_crit c = [CMaxTime (Fin T)] -> s_t s = Fin t -> s_dt s = Fin d -> (0 < d)%R ->
    exists n, (T <= t + INR n * d)%R /\ (forall k, k < n -> (t + INR k * d < T)%R) /\
      forall fuel, (fuel < n -> optimize_loop c (step c) sched os fuel i s = None) /\
        (n <= fuel -> exists s', optimize_loop c (step c) sched os fuel i s = Some (Ok s') /\
           s_it s' = s_it s + n /\ s_t s' = Fin (t + INR n * d)%R).
  Proof.
    intros. destruct (least_time t d T) as (n & A & B); auto. exists n. split; auto. split; auto.
    intros fuel. eapply maxtime_exact; eauto. eapply exec_wf; eauto.
  Qed.
End Time.
