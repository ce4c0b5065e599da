(** * Facts about live plotting *)
From Coq Require Import String List Arith Bool Lia Permutation.
From Verif Require Import Scalar Np NpFacts State Pdyn PdynFacts PdynStep PdynRun PdynOk StepFrame Exec MoveFacts HistSpec HistFacts Plotting PlotFacts LivePlot.
Import ListNotations.
Open Scope nat_scope.
Open Scope list_scope.

Section LiveFacts.
  Context {K V : Type} {O : KOps K}.
  Notation st := (st K V).
  Notation cfg := (cfg K V).
  Notation orc := (orc V).

  Lemma take1_some : forall A (l : list A) i v, nth_error l i = Some v -> take1 l i = Ok v.
  Proof. intros A l i v H. unfold take1. rewrite H. auto. Qed.
  Lemma take1_none : forall A (l : list A) i, length l <= i -> take1 l i = Err IndexError.
  Proof. intros A l i H. unfold take1. apply nth_error_None in H. rewrite H. auto. Qed.

  Theorem live_frame : forall vneg (c : cfg) s log (o : orc) s' k m xk xm a,
    exec c s log -> perms_valid o s -> one_consensus_point c -> c_corr c = NoCorr -> step c o s = Ok s' ->
    nth_error (s_active s) k = Some m -> nth_error (s_x s) k = Some xk -> nth_error (s_x s) m = Some xm -> nth_error (s_alpha s) m = Some [a] ->
    exists xb cp tails, (forall v, In v xb -> In v xm) /\ length xb = c_bsize c /\ c_ccrow c (map (c_f c) xb) xb a = [cp] /\
      (forall v, In v tails -> In v xm) /\ length tails = (if c_partial c then c_bsize c else s_N s) /\
      (c_bsize c = s_N s -> xb = xm /\ tails = xm) /\ (c_partial c = true -> tails = xb) /\ (c_partial c = false -> tails = xm) /\
      live_update vneg k true true s' = Ok (mklive xk (Some [cp]) (Some (tails, map (fun p => vneg (c_vsub c p cp)) tails))).
  Proof.
    intros vneg c s log o s' k m xk xm a E P CS NC HS Hk Hxk Hx Ha.
    pose proof (exec_wf _ _ _ E) as W. pose proof (perms_valid_ok _ _ P) as P'.
    assert (CC : cc_shape c (s_N s)) by (left; exact CS).
    destruct (step_char c o s W P' CC NC) as (s2 & HS2 & W' & HF & _ & _ & (cps & ds & Ecp & Ed & Lcp & Ld & HR) & _).
    rewrite HS in HS2. injection HS2 as <-. destruct HF as (_ & _ & _ & _ & _ & _ & _ & _ & _ & _ & _ & Exo & _).
    assert (Hm : m < s_M s) by (apply W; eapply nth_error_In; eauto).
    destruct (row_at_Some c s m W Hm) as (r & Hr & _).
    destruct (HR k m r Hk Hr) as (r1 & cpr & dr & r' & HM & Hc & Hd & _ & _).
    destruct (row_at_fields _ _ _ Hr) as (F1 & F2 & F3).
    rewrite Hx in F1. injection F1 as F1. rewrite Ha in F2. injection F2 as F2.
    assert (Lx : length xm = s_N s) by (eapply (proj2 (w_x _ _ W)); eauto).
    unfold run_move in HM. rewrite <- F2, <- F1 in HM.
    apply bind_ok in HM. destruct HM as (xb & HB & HM). apply bind_ok in HM. destruct HM as (er & _ & HM).
    apply bind_ok in HM. destruct HM as (xp & HXP & HM). cbv zeta in HM. apply bind_ok in HM. destruct HM as (xr1 & HPUT & HM).
    injection HM as _ Ecpr Edr.
    assert (L1 := CS (map (c_f c) xb) xb a). destruct (c_ccrow c (map (c_f c) xb) xb a) as [|cp [|]] eqn:EC; try discriminate.
    rewrite rowop_one in Edr. subst cpr dr.
    destruct (pre_step_char c o s W P') as (ci & pi & ind & Epre & Gc & Gp & Hsel & _).
    assert (Epi : s_pidx s' = pi).
    { destruct (step_split _ _ _ _ HS) as (t1 & t2 & T1 & T2 & T3). rewrite Epre in T1. injection T1 as <-.
      apply cbo_step_frame in T2. destruct T2 as (? & ? & ? & ? & ? & ? & ? & ->).
      apply post_step_frame in T3. destruct T3 as (? & ? & ? & ? & ? & ? & ? & s5 & T4 & ->).
      apply track_frame in T4. destruct T4 as (ti & ts & h & ->). sst. auto. }
    destruct (gather_rows _ _ _ _ _ (s_x s) Gp) as (Y & HY & LY & HYr). { intros j Hj. apply W; auto. } { apply (w_x _ _ W). }
    destruct (HYr k m xm Hk Hx) as (yr & Ey & Ty). rewrite (proj2 (Hsel k m Hk)), HXP in Ty. injection Ty as <-.
    pose proof (run_sel_length c o s m W P' Hm) as LS.
    exists xb, cp, xp.
    split. { intros v. apply (takeM_In _ _ _ _ _ HB). }
    split. { rewrite (takeM_length _ _ _ _ HB). auto. }
    split; [auto|].
    split. { intros v. apply (takeM_In _ _ _ _ _ HXP). }
    split. { rewrite (takeM_length _ _ _ _ HXP). unfold run_selp. unfold run_sel in LS. destruct (Nat.eqb_spec (c_bsize c) (s_N s)) as [B|B].
      - rewrite seq_length. destruct (c_partial c); congruence.
      - destruct (c_partial c); [exact LS|apply seq_length]. }
    split. { intros B. unfold run_sel in HB. unfold run_selp in HXP. rewrite B, Nat.eqb_refl, <- Lx, takeM_all in HB, HXP. injection HB as <-. injection HXP as <-. auto. }
    split. { intros B. unfold run_sel in HB. unfold run_selp in HXP. rewrite B in HXP. destruct (c_bsize c =? s_N s); congruence. }
    split. { intros B. assert (Q : run_selp c o s m = seq 0 (s_N s)) by (unfold run_selp; rewrite B; destruct (c_bsize c =? s_N s); auto).
      rewrite Q, <- Lx, takeM_all in HXP. congruence. }
    unfold live_update, arrows. rewrite Exo, Ecp, Ed, Epi, HY. cbn [bind].
    rewrite (take1_some _ _ _ _ Hxk), (take1_some _ _ _ _ Hc), (take1_some _ _ _ _ Hd), (take1_some _ _ _ _ Ey). cbn [bind]. rewrite map_map. auto.
  Qed.

  (** with fewer active runs than num_run the access is out of range *)
  Theorem live_raises : forall vneg (c : cfg) s log (o : orc) s' num_run pd,
    exec c s log -> perms_valid o s -> one_consensus_point c -> c_corr c = NoCorr -> step c o s = Ok s' ->
    length (s_active s) <= num_run -> live_update vneg num_run true pd s' = Err IndexError /\ live_update vneg num_run pd true s' = Err IndexError.
  Proof.
    intros vneg c s log o s' k pd E P CS NC HS Hk.
    pose proof (exec_wf _ _ _ E) as W. pose proof (perms_valid_ok _ _ P) as P'.
    assert (CC : cc_shape c (s_N s)) by (left; exact CS).
    destruct (step_char c o s W P' CC NC) as (s2 & HS2 & W' & HF & _ & _ & (cps & ds & Ecp & Ed & Lcp & Ld & HR) & _).
    rewrite HS in HS2. injection HS2 as <-. destruct HF as (_ & _ & _ & _ & _ & _ & _ & _ & _ & _ & _ & Exo & _).
    destruct (pre_step_char c o s W P') as (ci & pi & ind & Epre & Gc & Gp & Hsel & _).
    assert (Epi : s_pidx s' = pi).
    { destruct (step_split _ _ _ _ HS) as (t1 & t2 & T1 & T2 & T3). rewrite Epre in T1. injection T1 as <-.
      apply cbo_step_frame in T2. destruct T2 as (? & ? & ? & ? & ? & ? & ? & ->).
      apply post_step_frame in T3. destruct T3 as (? & ? & ? & ? & ? & ? & ? & s5 & T4 & ->).
      apply track_frame in T4. destruct T4 as (ti & ts & h & ->). sst. auto. }
    destruct (gather_rows _ _ _ _ _ (s_x s) Gp) as (Y & HY & LY & HYr). { intros j Hj. apply W; auto. } { apply (w_x _ _ W). }
    unfold live_update, arrows. rewrite Exo, Ecp, Ed, Epi, HY.
    destruct (take1 (s_x s) k) as [xr|e] eqn:ET.
    2:{ unfold take1 in ET. destruct (nth_error (s_x s) k); inversion ET. auto. }
    cbn [bind]. rewrite (take1_none _ cps), (take1_none _ Y) by lia. cbn [bind]. split; auto. destruct pd; auto.
  Qed.

  (** the arrows of the first picture: one per particle, and before the first step they end in the origin *)
  Lemma init_fields : forall (c : cfg) x0 chk al sg la dt perm0 names extra save s, init c x0 chk al sg la dt perm0 names extra save = Ok s ->
    s_x s = x0 /\ s_drift s = None /\ s_cons s = None /\ s_xold s = None.
  Proof.
    intros c x0 chk al sg la dt perm0 names extra save s H. unfold init in H. apply bind_ok in H. destruct H as (u & _ & H). cbv zeta in H.
    match type of H with context [init_history ?a ?b ?c ?d] => destruct (init_history_char a b c d) as (ts & h & E' & _); rewrite E' in H end.
    injection H as <-. auto.
  Qed.
  Theorem live_first : forall vneg (c : cfg) (s : st) num_run xr, constructed c s -> nth_error (s_x s) num_run = Some xr ->
    live_init vneg num_run true true s = Ok (mklive xr (Some xr) (Some (xr, map vneg xr))) /\ length xr = s_N s.
  Proof.
    intros vneg c s k xr HC Hx. pose proof (exec_wf _ _ _ (ex_init c s HC)) as W.
    destruct HC as (x0 & chk & al & sg & la & dt & perm0 & names & extra & save & _ & _ & _ & _ & _ & Hi).
    destruct (init_fields _ _ _ _ _ _ _ _ _ _ _ _ Hi) as (_ & Hd & Hc & _).
    unfold live_init, arrows. rewrite Hd, Hc. cbn [gather bind]. rewrite (take1_some _ _ _ _ Hx). cbn [bind]. split; auto. eapply (proj2 (w_x _ _ W)); eauto.
  Qed.

  (** ** the same pictures from the history *)
  Lemma step_old : forall (c : cfg) (o : orc) (s s' : st), step c o s = Ok s' -> s_xold s' = Some (s_x s).
  Proof.
    intros c o s s' H. destruct (step_split _ _ _ _ H) as (t1 & t2 & T1 & T2 & T3).
    assert (X1 : s_xold t1 = Some (s_x s)).
    { unfold pre_step, set_batch_idx in T1. destruct (_ =? _).
      - unfold set_batch_idx_unbatched in T1. injection T1 as <-. sst. auto.
      - unfold set_batch_idx_batched in T1. cbv zeta in T1. apply bind_ok in T1. destruct T1 as (bs & _ & T1). injection T1 as <-. sst. auto. }
    apply cbo_step_frame in T2. destruct T2 as (? & ? & ? & ? & ? & ? & ? & ->).
    apply post_step_frame in T3. destruct T3 as (? & ? & ? & ? & ? & ? & ? & s5 & T4 & ->).
    apply track_frame in T4. destruct T4 as (ti & ts & h & ->). sst. auto.
  Qed.

  Lemma shown_app : forall (x0 : arr V) (pairs : list (st * st)) q i x, shown_ensemble x0 pairs 1 i x -> shown_ensemble x0 (pairs ++ q) 1 i x.
  Proof.
    intros x0 pairs q [|i] x H; auto. destruct H as (a & b & H & ->). exists a, b. split; auto. rewrite nth_error_app1; auto. eapply nth_error_lt; eauto.
  Qed.
  Lemma rec_chain : forall (c : cfg) s0 pairs s, recorded_run c s0 pairs s ->
    (forall i a b, nth_error pairs i = Some (a, b) -> shown_ensemble (s_x s0) pairs 1 i (s_x a) /\ s_xold b = Some (s_x a)) /\
    shown_ensemble (s_x s0) pairs 1 (length pairs) (s_x s).
  Proof.
    intros c s0 pairs s H. induction H as [|l s1 o s2 H [IH1 IH2] P HS|l s1 r s2 H [IH1 IH2] HT|l s1 s2 H [IH1 IH2] HP].
    - split; [intros [|i] a b Hi; discriminate|reflexivity].
    - split.
      + intros i a b Hi. destruct (Nat.lt_ge_cases i (length l)) as [L|L].
        * rewrite nth_error_app1 in Hi by auto. destruct (IH1 _ _ _ Hi) as [Q1 Q2]. split; auto. apply shown_app; auto.
        * rewrite nth_error_app2 in Hi by auto. destruct (i - length l) as [|[|]] eqn:D; try discriminate. injection Hi as <- <-.
          assert (i = length l) by lia. subst i. split; [apply shown_app; auto|]. eapply step_old; eauto.
      + rewrite app_length, Nat.add_1_r. exists s1, s2. split; auto. rewrite Nat.mul_1_r, nth_error_app2, Nat.sub_diag by auto. auto.
    - split; auto. apply terminate_char in HT. destruct HT as (act & reason & -> & _). sst. auto.
    - split; auto. destruct HP as (al & sg & la & d & _ & ->). sst. auto.
  Qed.

  Lemma shown_fun : forall (x0 : arr V) (pairs : list (st * st)) i x y, shown_ensemble x0 pairs 1 i x -> shown_ensemble x0 pairs 1 i y -> x = y.
  Proof. intros x0 pairs [|i] x y H1 H2; [cbn in *; congruence|]. destruct H1 as (a & b & H1 & ->), H2 as (a' & b' & H2 & ->). congruence. Qed.

  Open Scope string_scope. Open Scope nat_scope. Open Scope list_scope.
  Theorem live_history : forall vneg (c : cfg) x0 names pairs s num_run freq, tracked_run c x0 names 1 pairs s ->
    In "x" names -> In "consensus" names -> In "drift" names -> pairs <> [] -> 1 <= freq -> num_run < length x0 ->
    (forall a b, In (a, b) pairs -> num_run < length (s_x b) /\
       (exists cpt, s_cons b = Some cpt /\ num_run < length cpt) /\ (exists d, s_drift b = Some d /\ num_run < length d)) ->
    exists fs, plot_history num_run freq true true (s_hist s) = Ok fs /\
      map fr_it fs = filter (fun j => (j mod freq =? 0)%nat) (seq 0 (length pairs)) /\
      Forall (fun f => exists a b, nth_error pairs (fr_it f) = Some (a, b) /\
        live_update vneg num_run true false b = Ok (mklive (fr_x f) (fr_c f) None) /\
        forall l, live_update vneg num_run true true b = Ok l -> lv_x l = fr_x f /\ lv_c l = fr_c f /\ option_map snd (lv_d l) = option_map (map vneg) (fr_d f)) fs.
  Proof.
    intros vneg c x0 names pairs s k freq T Ix Ic Id NE Hf Hn Hrows.
    destruct (run_plots_ok c x0 names 1 pairs s k freq T Ix Ic Id NE Hf Hn Hrows) as (fs & E1 & E2 & E3).
    exists fs. split; auto. split. { rewrite E2. unfold records. rewrite Nat.div_1_r, Nat.add_sub. auto. }
    destruct T as (chk & al & sg & la & dt & perm0 & s0 & A1 & A2 & A3 & A4 & A5 & A6 & A7 & A8 & A9).
    assert (X0 : s_x s0 = x0) by (eapply init_fields; eauto).
    destruct (rec_chain _ _ _ _ A9) as [RC _].
    eapply Forall_impl; [|exact E3]. intros f (a & b & x & cpt & d & crow & drow & P1 & P2 & P3 & P4 & P5 & P6 & P7 & P8 & P9).
    rewrite Nat.mul_1_r in P1. exists a, b. split; auto. destruct (RC _ _ _ P1) as [Q1 Q2]. rewrite X0 in Q1.
    rewrite (shown_fun _ _ _ _ _ P2 Q1) in P3. unfold live_update. rewrite Q2, (take1_some _ _ _ _ P3). cbn [bind].
    rewrite P4, (take1_some _ _ _ _ P5). cbn [bind]. split; [congruence|].
    intros l Hl. rewrite P7 in Hl. apply bind_ok in Hl. destruct Hl as (dd & H1 & H2). injection H2 as <-.
    apply bind_ok in H1. destruct H1 as (rr & H1 & H2). injection H2 as <-. unfold arrows in H1.
    apply bind_ok in H1. destruct H1 as (xp & _ & H1). apply bind_ok in H1. destruct H1 as (t & _ & H1). rewrite (take1_some _ _ _ _ P8) in H1. cbn [bind] in H1. injection H1 as <-.
    cbn [lv_x lv_c lv_d option_map snd]. rewrite P9, P6. auto.
  Qed.
End LiveFacts.
