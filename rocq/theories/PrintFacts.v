(** * Proofs: what optimize prints *)
From Coq Require Import List Arith Bool Reals Lia Lra.
From Verif Require Import Scalar ScalarFacts Np NpFacts State Pdyn PdynFacts PdynStep PdynRun PdynOk Exec RunFacts StepFrame BestFacts KickStep TermSpec TermFacts Sched SchedFacts Optimize OptimizeSpec OptimizeFacts Printing PrintSpec.
Import ListNotations.
Open Scope nat_scope.
Open Scope list_scope.

Section PrintFacts.
  Context {V : Type}.
  Notation st := (st R V).
  Notation cfg := (cfg R V).
  Notation orc := (orc V).

  Lemma shown_loop_result : forall (c : cfg) stepf upd cbx vb p os fuel i (s : st), snd (shown_loop c stepf upd cbx vb p os fuel i s) = opt_loop c stepf upd p os fuel i s.
  Proof.
    intros c stepf upd cbx vb p os fuel. induction fuel; intros i s; cbn [shown_loop opt_loop]; destruct (terminate c s) as [[[] s1]|]; try reflexivity.
    destruct (s2 <- stepf (os i) s1 ;; s3 <- upd s2 ;; _) as [s2|]; [|reflexivity]. cbn [snd]. apply IHfuel.
  Qed.
  Lemma shown_result : forall (c : cfg) stepf cbx vb pi a os fuel (s : st), snd (optimize_shown c stepf cbx vb pi a os fuel s) = optimize c stepf cbx pi a os fuel s.
  Proof.
    intros. unfold optimize_shown, optimize. rewrite shown_loop_result. destruct (opt_loop _ _ _ _ _ _ _ _) as [[s'|]|]; reflexivity.
  Qed.

  Lemma quiet_loop : forall (c : cfg) stepf upd cbx p os fuel i (s : st), fst (shown_loop c stepf upd cbx 0 p os fuel i s) = [].
  Proof.
    intros c stepf upd cbx p os fuel. induction fuel; intros i s; cbn [shown_loop]; destruct (terminate c s) as [[[] s1]|]; try reflexivity.
    destruct (s2 <- stepf (os i) s1 ;; s3 <- upd s2 ;; _) as [s2|]; [|reflexivity]. cbn [fst]. rewrite IHfuel, app_nil_r. unfold print_cur_state. destruct cbx; cbn; destruct (_ =? 0); reflexivity.
  Qed.
  Lemma quiet : forall (c : cfg) stepf cbx pi a os fuel (s : st), fst (optimize_shown c stepf cbx 0 pi a os fuel s) = [].
  Proof.
    intros. unfold optimize_shown. rewrite shown_loop_result, quiet_loop. destruct (opt_loop _ _ _ _ _ _ _ _) as [[s'|]|]; reflexivity.
  Qed.

  Lemma filter_map_swap : forall A B (g : A -> B) (q : B -> bool) l, filter q (map g l) = map g (filter (fun x => q (g x)) l).
  Proof. intros. induction l as [|x l IH]; cbn; auto. destruct (q (g x)); cbn; congruence. Qed.
  Lemma term_be : forall (c : cfg) (s s' : st) b, terminate c s = Ok (b, s') -> s_be s' = s_be s.
  Proof.
    intros c s s' b H. unfold terminate in H. apply bind_ok in H. destruct H as (s1 & H & H2). injection H2 as _ <-. unfold select_active_runs in H. apply bind_ok in H.
    destruct H as (loc & _ & H). injection H as <-. destruct s; reflexivity.
  Qed.

  (** ** one step *)
  Lemma step_shown : forall (c : cfg) (o : orc) (s s' : st) log, exec c s log -> perms_valid o s -> step c o s = Ok s' ->
    forall m b, nth_error (s_be s) m = Some b -> exists e b' er, nth_error (s_fmin s') m = Some e /\ nth_error (s_be s') m = Some b' /\ (b' = b \/ b' = e) /\ nth_error (s_energy s') m = Some er /\ In e er.
  Proof.
    intros c o s s' log X P HS m b Hb. pose proof (exec_wf _ _ _ X) as W. destruct (step_ok_char c o s s' W (perms_valid_ok _ _ P) HS) as (_ & _ & _ & HR).
    assert (Hm : m < s_M s) by (rewrite <- (w_be _ _ W); apply nth_error_Some; congruence).
    destruct (row_at_Some c s m W Hm) as (r & Er & _). pose proof (row_at_lt _ _ _ Er) as (_ & _ & _ & _ & Er5 & _). rewrite Er5 in Hb. injection Hb as Hb.
    destruct (HR m r Er) as (xr & er & nf & r' & _ & _ & HP & Er'). apply row_at_lt in Er'. destruct Er' as (_ & _ & F3 & _ & F5 & _ & _ & _ & F8 & _).
    unfold run_post in HP. cbv zeta in HP. cbn [r_x r_e r_a r_be r_bp r_nfe] in HP. apply bind_ok in HP. destruct HP as ([j v] & Ea & HP). cbn [fst snd] in HP.
    apply bind_ok in HP. destruct HP as (p & Ep & HP). apply bind_ok in HP. destruct HP as (e & Ee & HP). injection HP as HP. rewrite <- HP in F3, F5, F8. cbn [r_e r_be r_fmin] in F3, F5, F8.
    pose proof (argmin_nth _ _ _ Ea) as Ej. unfold take1 in Ee. rewrite Ej in Ee. injection Ee as ->.
    exists e, (if fltb e (r_be r) then e else r_be r), er. split; [exact F8|]. split; [exact F5|]. split; [destruct (fltb e (r_be r)); subst; auto|]. split; [exact F3|]. eapply nth_error_In; eauto.
  Qed.

  (** ** the energies *)
  Lemma loop_energies : forall (c : cfg) cbx vb a p os, no_nan c -> standard a -> forall fuel i (s s' : st) log l, exec c s log -> in_range os s ->
    shown_loop c (step c) (resolve cbx a) cbx vb p os fuel i s = (l, Some (Ok s')) ->
    forall m b, nth_error (s_be s) m = Some b -> exists b', nth_error (s_be s') m = Some b' /\ is_nan b' = false /\ (forall e, shown_energy l m e -> fleb b' e = true) /\ fleb b' b = true /\
      (p = 1 -> cbx = true -> 1 <= vb -> b' = b \/ shown_energy l m b').
  Proof.
    intros c cbx vb a p os NN SA.
    assert (NB : forall (s : st) log m b, exec c s log -> nth_error (s_be s) m = Some b -> is_nan b = false).
    { intros s log m b X Hb. pose proof (exec_wf _ _ _ X) as W. assert (Hm : m < s_M s) by (rewrite <- (w_be _ _ W); apply nth_error_Some; congruence).
      destruct (row_at_Some c s m W Hm) as (r & Er & _ & _ & _ & E1 & _). destruct (exec_best _ _ _ NN X m r Er) as (_ & I & _). congruence. }
    assert (FIN : forall (s s' : st) log m b, exec c s log -> terminate c s = Ok (true, s') -> nth_error (s_be s) m = Some b -> exists b', nth_error (s_be s') m = Some b' /\ is_nan b' = false /\
      (forall e, shown_energy [] m e -> fleb b' e = true) /\ fleb b' b = true /\ (p = 1 -> cbx = true -> 1 <= vb -> b' = b \/ shown_energy [] m b')).
    { intros s s' log m b X E Hb. exists b. pose proof (term_frame _ _ _ _ E) as TF. assert (Eb : s_be s' = s_be s) by (eapply term_be; eauto). rewrite Eb. pose proof (NB _ _ _ _ X Hb) as N.
      split; auto. split; auto. split; [intros e (t & f & [] & _)|]. split; [apply fleb_refl; auto|auto]. }
    induction fuel; intros i s s' log l X IR H m b Hb; cbn [shown_loop] in H; destruct (terminate c s) as [[[] s1]|] eqn:E; try discriminate H; pose proof (ex_term c _ _ _ _ X E) as X1.
    - injection H as <- <-. eauto.
    - injection H as <- <-. eauto.
    - pose proof (term_frame _ _ _ _ E) as TF. assert (F1 : s_M s1 = s_M s) by apply TF. assert (F2 : s_N s1 = s_N s) by apply TF. assert (Eb : s_be s1 = s_be s) by (eapply term_be; eauto).
      assert (P1 : perms_valid (os i) s1) by (eapply perms_valid_frame; eauto).
      destruct (step c (os i) s1) as [s2|] eqn:E2; cbn [bind] in H; [|discriminate H]. destruct (resolve cbx a s2) as [s3|] eqn:E3; cbn [bind] in H; [|discriminate H].
      destruct (p =? 0) eqn:Ep; [discriminate H|].
      pose proof (ex_step c _ _ _ _ X1 P1 E2) as X2. pose proof (standard_params _ _ _ _ _ _ SA X2 E3) as PC. pose proof (ex_params c _ _ _ X2 PC) as X3.
      pose proof (step_ok_char c (os i) s1 s2 (exec_wf _ _ _ X1) (perms_valid_ok _ _ P1) E2) as (_ & (M3 & N3 & _) & _). pose proof (params_frame _ _ PC) as (Q1 & Q2 & _).
      destruct (shown_loop c (step c) (resolve cbx a) cbx vb p os fuel (S i) s3) as [l3 r3] eqn:E4. cbn [fst snd] in H. injection H as <- ->.
      rewrite <- Eb in Hb. destruct (step_shown _ _ _ _ _ X1 P1 E2 m b Hb) as (e & b2 & er & G1 & G2 & G3 & G4 & G5).
      assert (PB : s_be s3 = s_be s2 /\ s_fmin s3 = s_fmin s2). { destruct PC as (al & sg & la & d & _ & ->). split; reflexivity. } destruct PB as [PB PF].
      rewrite <- PB in G2. destruct (IHfuel _ _ _ _ _ X3 ltac:(intros j; apply (perms_valid_frame _ s); [congruence|congruence|auto]) E4 m b2 G2) as (b' & B1 & B2 & B3 & B4 & B5).
      rewrite PB in G2. exists b'. split; auto. split; auto.
      assert (L2 : fleb b2 e = true) by (exact (proj2 (best_is_min c s2 _ m b2 NN X2 G2) er G4 e G5)).
      assert (L1 : fleb b2 b = true) by (eapply (best_monotone c s1); eauto).
      split; [|split].
      + intros e' (t & f & HI & Hf). apply in_app_or in HI. destruct HI as [HI|HI]; [|apply B3; exists t, f; auto].
        destruct ((s_it s3 - 1) mod p =? 0); [|destruct HI]. unfold print_cur_state in HI. destruct cbx; [|destruct HI]. apply in_app_or in HI. destruct HI as [HI|HI].
        * destruct (0 <? vb); [|destruct HI]. destruct HI as [HI|[HI|[]]]; [|discriminate]. injection HI as _ <-. rewrite PF in Hf. rewrite G1 in Hf. injection Hf as <-. eapply fleb_trans; eauto.
        * destruct (1 <? vb); [|destruct HI]. destruct HI as [HI|[]]. discriminate.
      + eapply fleb_trans; eauto.
      + intros -> -> Hv. rewrite Nat.mod_1_r. cbn [Nat.eqb].
        assert (SE : shown_energy (print_cur_state true vb s3 ++ l3) m e).
        { exists (s_t s3), (s_fmin s3). split; [|rewrite PF; exact G1]. apply in_or_app. left. unfold print_cur_state. apply in_or_app. left. destruct vb; [lia|]. cbn. auto. }
        destruct (B5 eq_refl eq_refl Hv) as [->|(t & f & HI & Hf)]; [|right; exists t, f; split; auto; apply in_or_app; auto].
        destruct G3 as [->| ->]; auto.
  Qed.

  Lemma shown_energy_ends : forall vb l (s : st) m e, shown_energy (print_pre_opt vb ++ l ++ print_post_opt vb s) m e <-> shown_energy l m e.
  Proof.
    intros vb l s m e. unfold print_pre_opt, print_post_opt. split; intros (t & f & HI & Hf); exists t, f; (split; [|exact Hf]).
    - apply in_app_or in HI. destruct HI as [HI|HI].
      + destruct (0 <? vb); [|destruct HI]. repeat (destruct HI as [HI|HI]; [discriminate|]). destruct HI.
      + apply in_app_or in HI. destruct HI as [HI|HI]; auto. destruct (0 <? vb); [|destruct HI]. repeat (destruct HI as [HI|HI]; [discriminate|]). destruct HI.
    - apply in_or_app. right. apply in_or_app. auto.
  Qed.
  Lemma shown_inv : forall (c : cfg) stepf cbx vb pi a os fuel (s s' : st) l bp, optimize_shown c stepf cbx vb pi a os fuel s = (l, Some (Ok (bp, s'))) ->
    exists l', l = print_pre_opt vb ++ l' ++ print_post_opt vb s' /\ bp = s_bp s' /\
      shown_loop c stepf (resolve cbx a) cbx vb (match pi with Some p => p | None => s_save s end) os fuel 0 s = (l', Some (Ok s')).
  Proof.
    intros c stepf cbx vb pi a os fuel s s' l bp H. unfold optimize_shown in H. destruct (shown_loop c stepf (resolve cbx a) cbx vb _ os fuel 0 s) as [l' [[s2|]|]] eqn:E; cbn [fst snd] in H; try discriminate.
    injection H as <- <- <-. exists l'. auto.
  Qed.

  Theorem shown_energies : forall (c : cfg) cbx vb pi a os fuel (s s' : st) log l bp, no_nan c -> standard a -> exec c s log -> in_range os s ->
    optimize_shown c (step c) cbx vb pi a os fuel s = (l, Some (Ok (bp, s'))) ->
    forall m b b', nth_error (s_be s) m = Some b -> nth_error (s_be s') m = Some b' -> (forall e, shown_energy l m e -> fleb b' e = true) /\ fleb b' b = true.
  Proof.
    intros c cbx vb pi a os fuel s s' log l bp NN SA X IR H m b b' Hb Hb'. apply shown_inv in H. destruct H as (l' & -> & _ & H).
    destruct (loop_energies _ _ _ _ _ _ NN SA _ _ _ _ _ _ X IR H m b Hb) as (b2 & B1 & _ & B3 & B4 & _). rewrite Hb' in B1. injection B1 as <-. split; auto.
    intros e He. apply B3. eapply shown_energy_ends; eauto.
  Qed.
  Theorem shown_every_step : forall (c : cfg) vb a os fuel (s s' : st) log l bp, no_nan c -> standard a -> exec c s log -> in_range os s -> 1 <= vb ->
    optimize_shown c (step c) true vb (Some 1) a os fuel s = (l, Some (Ok (bp, s'))) ->
    forall m b b', nth_error (s_be s) m = Some b -> nth_error (s_be s') m = Some b' -> least b' (fun v => v = b \/ shown_energy l m v).
  Proof.
    intros c vb a os fuel s s' log l bp NN SA X IR Hv H m b b' Hb Hb'. apply shown_inv in H. destruct H as (l' & -> & _ & H).
    destruct (loop_energies _ _ _ _ _ _ NN SA _ _ _ _ _ _ X IR H m b Hb) as (b2 & B1 & _ & B3 & B4 & B5). rewrite Hb' in B1. injection B1 as <-.
    destruct (B5 eq_refl eq_refl Hv) as [B|B]; (split; [|intros v [->|Hv']; auto; apply B3; eapply shown_energy_ends; eauto]); auto. right. apply shown_energy_ends; auto.
  Qed.

  Lemma loop_no_best : forall (c : cfg) stepf upd cbx vb p os fuel i (s : st) b, ~ In (LBest b) (fst (shown_loop c stepf upd cbx vb p os fuel i s)).
  Proof.
    intros c stepf upd cbx vb p os fuel. induction fuel; intros i s b; cbn [shown_loop]; destruct (terminate c s) as [[[] s1]|]; cbn [fst]; try (intros []).
    destruct (s2 <- stepf (os i) s1 ;; s3 <- upd s2 ;; _) as [s2|]; [|intros []]. cbn [fst]. intros HI. apply in_app_or in HI. destruct HI as [HI|HI]; [|exact (IHfuel _ _ _ HI)].
    destruct ((s_it s2 - 1) mod p =? 0); [|destruct HI]. unfold print_cur_state in HI. destruct cbx; [|destruct HI]. apply in_app_or in HI. destruct HI as [HI|HI].
    - destruct (0 <? vb); [|destruct HI]. destruct HI as [HI|[HI|[]]]; discriminate.
    - destruct (1 <? vb); [|destruct HI]. destruct HI as [HI|[]]. discriminate.
  Qed.
  Theorem shown_header : forall (c : cfg) stepf cbx vb pi a os fuel (s : st) l r, 1 <= vb -> optimize_shown c stepf cbx vb pi a os fuel s = (l, r) ->
    firstn 3 l = [LDots; LStarting; LDots] /\ ((forall bs, r <> Some (Ok bs)) -> forall b, ~ In (LBest b) l).
  Proof.
    intros c stepf cbx vb pi a os fuel s l r Hv H. unfold optimize_shown in H.
    pose proof (loop_no_best c stepf (resolve cbx a) cbx vb (match pi with Some p => p | None => s_save s end) os fuel 0 s) as NB.
    destruct (shown_loop c stepf (resolve cbx a) cbx vb _ os fuel 0 s) as [l' [[s2|]|]]; cbn [fst snd] in H, NB; injection H as <- <-;
      (destruct vb; [lia|]); unfold print_pre_opt; cbn [Nat.ltb Nat.leb app firstn]; (split; [reflexivity|]); intros HR b HI.
    - apply (HR _ eq_refl).
    - destruct HI as [HI|[HI|[HI|HI]]]; try discriminate. exact (NB _ HI).
    - destruct HI as [HI|[HI|[HI|HI]]]; try discriminate. exact (NB _ HI).
  Qed.
  Theorem shown_best : forall (c : cfg) stepf cbx vb pi a os fuel (s s' : st) l bp, 1 <= vb -> optimize_shown c stepf cbx vb pi a os fuel s = (l, Some (Ok (bp, s'))) ->
    forall b, In (LBest b) l <-> b = s_be s'.
  Proof.
    intros c stepf cbx vb pi a os fuel s s' l bp Hv H b. apply shown_inv in H. destruct H as (l' & -> & _ & H). unfold print_pre_opt, print_post_opt.
    destruct vb; [lia|]. cbn [Nat.ltb Nat.leb]. split.
    - intros HI. apply in_app_or in HI. destruct HI as [HI|HI]; [repeat (destruct HI as [HI|HI]; [discriminate|]); destruct HI|]. apply in_app_or in HI. destruct HI as [HI|HI].
      + exfalso. apply (loop_no_best c stepf (resolve cbx a) cbx (S vb) (match pi with Some p => p | None => s_save s end) os fuel 0 s b). rewrite H. exact HI.
      + destruct HI as [HI|[HI|[HI|[HI|[]]]]]; try discriminate. injection HI as HI. auto.
    - intros ->. apply in_or_app. right. apply in_or_app. right. cbn. auto.
  Qed.

  (** ** the times *)
  Lemma documented_dt : forall cbx a (s s' : st), documented a -> resolve cbx a s = Ok s' -> s_dt s' = s_dt s /\ s_t s' = s_t s /\ s_it s' = s_it s.
  Proof.
    intros cbx a s s' Ha H. destruct a; cbn [resolve documented] in *; try contradiction.
    - injection H as <-. auto.
    - destruct cbx; cbn [default_sched scheduler_update bind multiply_update] in H; injection H as <-; destruct s; auto.
    - rewrite (ess_frame _ _ _ _ _ H). destruct s; auto.
  Qed.
  Lemma step_clock : forall (c : cfg) o (s s' : st), step c o s = Ok s' -> s_dt s' = s_dt s /\ s_t s' = fadd (s_t s) (s_dt s) /\ s_it s' = S (s_it s).
  Proof. 
    intros c o s s' H. apply step_split in H. destruct H as (s1 & s2 & E1 & E2 & E3).
    apply pre_step_frame in E1. destruct E1 as (ci & pi & ind & xo & ->).
    apply cbo_step_frame in E2. destruct E2 as (x & d & cep & e & cp & fc & nf & ->).
    apply post_step_frame in E3. destruct E3 as (x' & ud & fm & bcp & bce & be & bp & s5 & Et & ->).
    apply track_frame in Et. destruct Et as (ti & ts & h & ->). destruct s; auto.
  Qed.
  Lemma times_app : forall l l', times (l ++ l') = times l ++ times l'.
  Proof. intros. unfold times. apply flat_map_app. Qed.
  Lemma times_cur : forall vb (s : st), 1 <= vb -> times (print_cur_state true vb s) = [s_t s].
  Proof. intros [|[|vb]] s H; [lia|reflexivity|reflexivity]. Qed.
  Lemma times_ends : forall vb l (s : st), times (print_pre_opt vb ++ l ++ print_post_opt vb s) = times l.
  Proof. intros vb l s. rewrite !times_app. unfold print_pre_opt, print_post_opt. destruct (0 <? vb); cbn [times flat_map app]; apply app_nil_r. Qed.

  Lemma loop_times : forall (c : cfg) vb a p os, documented a -> 1 <= vb -> forall fuel i (s s' : st) l t dt, s_t s = Fin t -> s_dt s = Fin dt ->
    shown_loop c (step c) (resolve true a) true vb p os fuel i s = (l, Some (Ok s')) ->
    s_it s <= s_it s' /\ times l = map (fun j => Fin (t + INR j * dt)%R) (filter (fun j => (s_it s + j - 1) mod p =? 0) (seq 1 (s_it s' - s_it s))).
  Proof.
    intros c vb a p os DA Hv. induction fuel; intros i s s' l t dt Ht Hdt H; cbn [shown_loop] in H; destruct (terminate c s) as [[[] s1]|] eqn:E; try discriminate H;
      pose proof (term_frame _ _ _ _ E) as TF.
    - injection H as <- <-. destruct TF as (_ & _ & -> & _). rewrite Nat.sub_diag. split; auto.
    - injection H as <- <-. destruct TF as (_ & _ & -> & _). rewrite Nat.sub_diag. split; auto.
    - destruct TF as (_ & _ & F3 & F4 & F5 & _).
      destruct (step c (os i) s1) as [s2|] eqn:E2; cbn [bind] in H; [|discriminate H]. destruct (resolve true a s2) as [s3|] eqn:E3; cbn [bind] in H; [|discriminate H].
      destruct (p =? 0) eqn:Ep; [discriminate H|]. apply Nat.eqb_neq in Ep.
      destruct (step_clock _ _ _ _ E2) as (C1 & C2 & C3). destruct (documented_dt _ _ _ _ DA E3) as (D1 & D2 & D3).
      destruct (shown_loop c (step c) (resolve true a) true vb p os fuel (S i) s3) as [l3 r3] eqn:E4. cbn [fst snd] in H. injection H as <- ->.
      assert (T3 : s_t s3 = Fin (t + dt)%R) by (rewrite D2, C2, F4, F5, Ht, Hdt; reflexivity). assert (Q3 : s_dt s3 = Fin dt) by congruence. assert (I3 : s_it s3 = S (s_it s)) by congruence.
      destruct (IHfuel _ _ _ _ _ _ T3 Q3 E4) as [LE IH]. rewrite I3 in LE, IH |- *. split; [lia|]. rewrite times_app, IH. replace (s_it s' - s_it s) with (S (s_it s' - S (s_it s))) by lia.
      cbn [seq filter]. replace (s_it s + 1 - 1) with (S (s_it s) - 1) by lia.
      assert (REST : map (fun j => Fin (t + dt + INR j * dt)%R) (filter (fun j => (S (s_it s) + j - 1) mod p =? 0) (seq 1 (s_it s' - S (s_it s)))) =
        map (fun j => Fin (t + INR j * dt)%R) (filter (fun j => (s_it s + j - 1) mod p =? 0) (seq 2 (s_it s' - S (s_it s))))).
      { rewrite <- (seq_shift _ 1). rewrite filter_map_swap. rewrite map_map. rewrite (filter_ext (fun j => (S (s_it s) + j - 1) mod p =? 0) (fun j => (s_it s + S j - 1) mod p =? 0)) by (intros j; replace (S (s_it s) + j - 1) with (s_it s + S j - 1) by lia; reflexivity).
        apply map_ext. intros j. f_equal. rewrite S_INR. ring. }
      rewrite REST. destruct ((S (s_it s) - 1) mod p =? 0).
      + change (times _) with (times (print_cur_state true vb s3)). rewrite times_cur by auto. cbn [app map]. f_equal. rewrite T3. f_equal. cbn [INR]. ring.
      + reflexivity.
  Qed.
  Theorem shown_times : forall (c : cfg) vb pi a os fuel (s s' : st) l bp t dt, documented a -> 1 <= vb -> s_t s = Fin t -> s_dt s = Fin dt ->
    optimize_shown c (step c) true vb pi a os fuel s = (l, Some (Ok (bp, s'))) ->
    times l = map (fun j => Fin (t + INR j * dt)%R) (filter (fun j => (s_it s + j - 1) mod (match pi with Some p => p | None => s_save s end) =? 0) (seq 1 (s_it s' - s_it s))).
  Proof.
    intros c vb pi a os fuel s s' l bp t dt DA Hv Ht Hdt H. apply shown_inv in H. destruct H as (l' & -> & _ & H). rewrite times_ends.
    exact (proj2 (loop_times _ _ _ _ _ DA Hv _ _ _ _ _ _ _ Ht Hdt H)).
  Qed.
End PrintFacts.

Section Current.
  Context {K V : Type} {O : KOps K} {OK : KOrd K}.
  (** full batches: the reported energy of a running run is the least objective value of its particles before the step *)
  Theorem f_min_before : forall (c : cfg K V) (o : orc V) (s s' : st K V) log, no_nan c -> exec c s log -> perms_valid o s -> c_bsize c = s_N s -> step c o s = Ok s' ->
    forall m row e, In m (s_active s) -> nth_error (s_x s) m = Some row -> nth_error (s_fmin s') m = Some e ->
    (exists v, In v row /\ e = c_f c v) /\ forall v, In v row -> fleb e (c_f c v) = true.
  Proof.
    intros c o s s' log NN X P HB HS m row e Ha Hx He. pose proof (exec_wf _ _ _ X) as W. destruct (step_ok_char c o s s' W (perms_valid_ok _ _ P) HS) as (_ & _ & _ & HR).
    assert (Hm : m < s_M s) by (pose proof (w_actlt _ _ W) as AL; rewrite ?Forall_forall in AL; auto).
    destruct (row_at_Some c s m W Hm) as (r & Er & _). pose proof (row_at_lt _ _ _ Er) as (_ & R1 & R2 & _). rewrite R1 in Hx. injection Hx as Hx.
    destruct (HR m r Er) as (xr & er & nf & r' & HA & _ & HP & Er'). destruct (HA Ha) as (xb & T1 & T2).
    assert (SEL : run_sel c o s m = seq 0 (s_N s)) by (unfold run_sel; rewrite HB, Nat.eqb_refl; auto).
    assert (LX : length row = s_N s). { rewrite <- Hx. pose proof (w_x _ _ W) as [_ Q]; rewrite ?Forall_forall in Q; eauto using nth_error_In. }
    assert (LE : length (r_e r) = s_N s). { pose proof (w_e _ _ W) as [_ Q]; rewrite ?Forall_forall in Q; eauto using nth_error_In. }
    assert (ER : er = map (c_f c) row) by (apply (full_row c o s m row (r_e r) er xb HB LX LE); [rewrite <- Hx; exact T1|exact T2]). subst er.
    apply row_at_lt in Er'. destruct Er' as (_ & _ & _ & _ & _ & _ & _ & _ & F8 & _). rewrite He in F8. injection F8 as F8.
    unfold run_post in HP. cbv zeta in HP. cbn [r_x r_e r_a r_be r_bp r_nfe] in HP. apply bind_ok in HP. destruct HP as ([j v] & Ea & HP). cbn [fst snd] in HP.
    apply bind_ok in HP. destruct HP as (p & Ep & HP). apply bind_ok in HP. destruct HP as (e2 & Ee & HP). injection HP as HP. rewrite <- HP in F8. cbn [r_fmin] in F8. subst v.
    destruct (argmin_le (map (c_f c) row) j e) as [Hn Hle]; [|exact Ea|]. { intros x Hi. apply in_map_iff in Hi. destruct Hi as (w & <- & _). apply NN. }
    split. { pose proof (argmin_nth _ _ _ Ea) as Ej. apply nth_error_In in Ej. apply in_map_iff in Ej. destruct Ej as (w & <- & Hw). exists w. auto. }
    intros w Hw. apply Hle. apply in_map. exact Hw.
  Qed.
End Current.
