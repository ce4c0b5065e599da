(** * Steps with the Heaviside correction *)
From Coq Require Import String List Arith Bool Lia.
From Verif Require Import Scalar Np NpFacts State Pdyn PdynFacts PdynStep PdynRun Exec PdynOk RunFacts BcFacts.
Import ListNotations.
Open Scope nat_scope.
Open Scope list_scope.

Section Heavi.
  Context {K V : Type} {O : KOps K}.
  Notation F := (fl K).
  Notation st := (st K V).
  Notation cfg := (cfg K V).
  Notation orc := (orc V).

  Lemma selp_len : forall (c : cfg) (o : orc) s m, wf c s -> perm_ok o s -> m < s_M s ->
    length (run_selp c o s m) = (if c_bsize c =? s_N s then s_N s else if c_partial c then c_bsize c else s_N s).
  Proof.
    intros c o s m W P Hm. unfold run_selp. destruct (Nat.eqb_spec (c_bsize c) (s_N s)).
    - apply seq_length.
    - destruct (c_partial c); [|apply seq_length]. rewrite firstn_length.
      pose proof (ind_next_len c o s m W P n Hm). lia.
  Qed.

  (** everything up to the correction *)
  Lemma cbo_step_pre_gen : forall (c : cfg) (o : orc) s nc, wf c s -> perm_ok o s ->
    (forall e x a, length x = c_bsize c -> length (c_ccrow c e x a) = nc) ->
    exists s1 s2 ci pi en cp xp n, pre_step c o s = Ok s1 /\ compute_consensus c s1 = Ok s2 /\
      s_cons s2 = Some cp /\ gather (s_pidx s2) (s_x s2) = Ok xp /\
      s_pidx s2 = pi /\ s_x s2 = s_x s /\ s_energy s2 = en /\ s_cidx s1 = ci /\
      (s_nfe s2 = add_at (s_active s) (c_bsize c) (s_nfe s) \/ s_active s = []) /\
      s_fcalls s2 = s_fcalls s + length (s_active s) * c_bsize c /\
      s_M s2 = s_M s /\ s_N s2 = s_N s /\ s_xold s2 = Some (s_x s) /\ s_be s2 = s_be s /\ s_bp s2 = s_bp s /\
      s_save s2 = s_save s /\ s_tracks s2 = s_tracks s /\ s_hist s2 = s_hist s /\
      s_lamda s2 = s_lamda s /\ s_dt s2 = s_dt s /\ s_sigma s2 = s_sigma s /\ s_active s2 = s_active s /\
      gidx (s_active s) (s_M s) (s_N s) pi /\
      rect (length (s_active s)) n xp /\ rect (length (s_active s)) nc cp /\ rect (s_M s) (s_N s) en /\
      n = (if c_bsize c =? s_N s then s_N s else if c_partial c then c_bsize c else s_N s) /\
      (forall k m xr er a, nth_error (s_active s) k = Some m -> nth_error (s_x s) m = Some xr ->
         nth_error (s_energy s) m = Some er -> nth_error (s_alpha s) m = Some [a] ->
         exists xb er' xpr, takeM xr (run_sel c o s m) = Ok xb /\
           put1 (run_sel c o s m) er (map (c_f c) xb) = Ok er' /\
           nth_error en m = Some er' /\ nth_error cp k = Some (c_ccrow c (map (c_f c) xb) xb a) /\
           nth_error xp k = Some xpr /\ takeM xr (run_selp c o s m) = Ok xpr /\ sel pi k (s_N s) = run_selp c o s m).
  Proof.
    intros c o s nc W P CS.
    destruct (pre_step_char c o s W P) as (ci & pi & ind & Epre & Gc & Gp & Hsel & Hind1 & Hind2).
    pose proof (incr_NoDup _ (w_act _ _ W)) as Hnd.
    assert (Hact : forall k, k < length (s_active s) -> exists m, nth_error (s_active s) k = Some m /\ m < s_M s).
    { intros k Hk. destruct (nth_error_lt_Some _ _ _ Hk) as [m Hm]. exists m. split; auto.
      apply W. eapply nth_error_In; eauto. }
    assert (Hsl : forall k, k < length (s_active s) -> length (sel ci k (s_N s)) = c_bsize c).
    { intros k Hk. destruct (Hact k Hk) as (m & E & Hm). rewrite (proj1 (Hsel _ _ E)).
      apply run_sel_length; auto. }
    set (s1 := set_pidx pi (set_cidx ci (set_ind ind (set_xold (Some (s_x s)) s)))) in *.
    destruct (compute_consensus_char c s1) as
      (cep' & en & cp & nb & xs & Ecc & Exs & Esv & Ren & Hcep & Lcp & Hnb & Hrow & Hinact);
      unfold s1 in *; sstall; auto; try apply W.
    { intros. rewrite !Hsl; auto. }
    destruct (gather_rows _ _ _ _ _ _ Gp (w_actlt _ _ W) (w_x _ _ W)) as (xp & Exp & Lxp & Hxp).
    assert (Hnb' : s_active s = [] \/ nb = c_bsize c).
    { destruct (s_active s) eqn:E; auto. right. rewrite (Hnb 0); [|cbn; lia]. apply Hsl. cbn; lia. }
    eexists _, _, ci, pi, en, cp, xp, _. split; [exact Epre|]. split; [exact Ecc|]. sst.
    split; auto. split; auto. split; auto. split; auto. split; auto. split; auto. split.
    { destruct Hnb' as [->| ->]; auto. }
    split.
    { f_equal. rewrite npoints_const with (b := c_bsize c).
      - f_equal. destruct (gather_rows _ _ _ _ _ _ Gc (w_actlt _ _ W) (w_x _ _ W)) as (Y & E & L & _). congruence.
      - intros k rr Ek. destruct (gather_rows _ _ _ _ _ _ Gc (w_actlt _ _ W) (w_x _ _ W)) as (Y & E & L & HY).
        rewrite Exs in E. inversion E; subst Y.
        assert (Hk : k < length (s_active s)) by (rewrite <- L; eapply nth_error_lt; eauto).
        destruct (Hact k Hk) as (m & Em & Hm).
        destruct (row_at_Some c s m W Hm) as (r & _ & Ex & _).
        destruct (HY _ _ _ Em Ex) as (yr & Y1 & Y2). rewrite Ek in Y1. inversion Y1; subst.
        rewrite (takeM_length _ _ _ _ Y2). auto. }
    do 12 (split; [reflexivity|]). split; [exact Gp|].
    assert (Hall : forall k m xr er a, nth_error (s_active s) k = Some m -> nth_error (s_x s) m = Some xr ->
         nth_error (s_energy s) m = Some er -> nth_error (s_alpha s) m = Some [a] ->
         exists xb er' xpr, takeM xr (run_sel c o s m) = Ok xb /\
           put1 (run_sel c o s m) er (map (c_f c) xb) = Ok er' /\
           nth_error en m = Some er' /\ nth_error cp k = Some (c_ccrow c (map (c_f c) xb) xb a) /\
           nth_error xp k = Some xpr /\ takeM xr (run_selp c o s m) = Ok xpr /\ sel pi k (s_N s) = run_selp c o s m).
    { intros k m xr er a Em Ex Ee Ea.
      destruct (Hrow k m _ _ a Em Ex Ee Ea) as (xb & er' & T1 & T2 & T3 & T4 & T5).
      destruct (Hsel _ _ Em) as [S1 S2]. rewrite S1 in *.
      destruct (Hxp _ _ _ Em Ex) as (xpr & Y1 & Y2). rewrite S2 in Y2. exists xb, er', xpr. auto 10. }
    assert (Hrows : forall k, k < length (s_active s) -> exists m xr er a, nth_error (s_active s) k = Some m /\ m < s_M s /\ nth_error (s_x s) m = Some xr /\
         nth_error (s_energy s) m = Some er /\ nth_error (s_alpha s) m = Some [a]).
    { intros k Hk. destruct (Hact k Hk) as (m & Em & Hm).
      destruct (row_at_Some c s m W Hm) as (r & _ & Ex & Ee & Ea & _).
      destruct (w_al _ _ W) as [_ Wa]. pose proof (Wa _ _ Ea) as La.
      destruct (r_a r) as [|a [|]] eqn:Era; try discriminate. exists m, (r_x r), (r_e r), a. auto. }
    split; [|split; [|split; [|split]]].
    - split; [exact Lxp|]. intros k row Hk.
      assert (Hka : k < length (s_active s)) by (rewrite <- Lxp; eapply nth_error_lt; eauto).
      destruct (Hrows k Hka) as (m & xr & er & a & Em & Hm & Ex & Ee & Ea).
      destruct (Hall _ _ _ _ _ Em Ex Ee Ea) as (xb & er' & xpr & _ & _ & _ & _ & E1 & E2 & _).
      rewrite Hk in E1. inversion E1; subst. rewrite (takeM_length _ _ _ _ E2).
      apply selp_len; auto.
    - split; [exact Lcp|]. intros k row Hk.
      assert (Hka : k < length (s_active s)) by (rewrite <- Lcp; eapply nth_error_lt; eauto).
      destruct (Hrows k Hka) as (m & xr & er & a & Em & Hm & Ex & Ee & Ea).
      destruct (Hall _ _ _ _ _ Em Ex Ee Ea) as (xb & er' & xpr & T & _ & _ & E0 & _).
      rewrite Hk in E0. inversion E0. apply CS. rewrite (takeM_length _ _ _ _ T). apply run_sel_length; auto.
    - exact Ren.
    - reflexivity.
    - exact Hall.
  Qed.

  Lemma cbo_step_pre : forall (c : cfg) (o : orc) s, wf c s -> perm_ok o s -> one_consensus_point c ->
    exists s1 s2 ci pi en cp xp n, pre_step c o s = Ok s1 /\ compute_consensus c s1 = Ok s2 /\
      s_cons s2 = Some cp /\ gather (s_pidx s2) (s_x s2) = Ok xp /\
      s_pidx s2 = pi /\ s_x s2 = s_x s /\ s_energy s2 = en /\ s_cidx s1 = ci /\
      (s_nfe s2 = add_at (s_active s) (c_bsize c) (s_nfe s) \/ s_active s = []) /\
      s_fcalls s2 = s_fcalls s + length (s_active s) * c_bsize c /\
      s_M s2 = s_M s /\ s_N s2 = s_N s /\ s_xold s2 = Some (s_x s) /\ s_be s2 = s_be s /\ s_bp s2 = s_bp s /\
      s_save s2 = s_save s /\ s_tracks s2 = s_tracks s /\ s_hist s2 = s_hist s /\
      s_lamda s2 = s_lamda s /\ s_dt s2 = s_dt s /\ s_sigma s2 = s_sigma s /\ s_active s2 = s_active s /\
      gidx (s_active s) (s_M s) (s_N s) pi /\
      rect (length (s_active s)) n xp /\ rect (length (s_active s)) 1 cp /\ rect (s_M s) (s_N s) en /\
      n = (if c_bsize c =? s_N s then s_N s else if c_partial c then c_bsize c else s_N s) /\
      (forall k m xr er a, nth_error (s_active s) k = Some m -> nth_error (s_x s) m = Some xr ->
         nth_error (s_energy s) m = Some er -> nth_error (s_alpha s) m = Some [a] ->
         exists xb er' xpr, takeM xr (run_sel c o s m) = Ok xb /\
           put1 (run_sel c o s m) er (map (c_f c) xb) = Ok er' /\
           nth_error en m = Some er' /\ nth_error cp k = Some (c_ccrow c (map (c_f c) xb) xb a) /\
           nth_error xp k = Some xpr /\ takeM xr (run_selp c o s m) = Ok xpr /\ sel pi k (s_N s) = run_selp c o s m).
  Proof. intros c o s W P CS. apply (cbo_step_pre_gen c o s 1 W P). intros. apply CS. Qed.

  (** full update from a mini-batch with one consensus point per batch particle *)
  Theorem polar_full_raises : forall (c : cfg) s log (o : orc), exec c s log -> perms_valid o s ->
    consensus_per_particle c -> c_partial c = false -> 1 < c_bsize c < s_N s -> s_active s <> [] ->
    step c o s = Err ShapeError.
  Proof.
    intros c s log o E P CP HP Hb Hne. pose proof (exec_wf _ _ _ E) as W. pose proof (perms_valid_ok _ _ P) as P'.
    destruct (cbo_step_pre_gen c o s (c_bsize c) W P') as
      (s1 & s2 & ci & pi & en & cp & xp & n & E1 & E2 & E3 & E4 & E5 & E6 & E7 & E8 & E9 & E10 & E11 & E12 & E13 & E14 & E15 &
       E16 & E17 & E18 & E19 & E20 & E21 & E22 & Gp & Rxp & Rcp & Ren & Hn & Hrow).
    { intros e x a <-. apply CP. }
    unfold step. rewrite E1. cbn [bind]. unfold cbo_step. rewrite E2. cbn [bind]. rewrite E3, E4. cbn [bind].
    rewrite (bc2_incompat_cells _ _ _ (c_vsub c) xp cp _ _ _ _ Rxp Rcp); auto.
    - left; auto.
    - destruct (s_active s); cbn; [congruence|lia].
    - destruct (s_active s); cbn; [congruence|lia].
    - subst n. rewrite HP. destruct (Nat.eqb_spec (c_bsize c) (s_N s)); unfold compat; lia.
  Qed.

  (** ** which steps succeed *)

  Theorem heavi_raises : forall (c : cfg) fac s log (o : orc), exec c s log -> perms_valid o s ->
    c_corr c = Heavi fac -> one_consensus_point c -> s_active s <> [] ->
    length (s_active s) < s_M s \/ (c_bsize c < s_N s /\ c_partial c = true) ->
    step c o s = Err ShapeError.
  Proof.
    intros c fac s log o E P HC CS Hne Hbad. pose proof (exec_wf _ _ _ E) as W. pose proof (perms_valid_ok _ _ P) as P'.
    destruct (cbo_step_pre c o s W P' CS) as
      (s1 & s2 & ci & pi & en & cp & xp & n & E1 & E2 & E3 & E4 & E5 & E6 & E7 & E8 & E9 & E10 & E11 & E12 & E13 & E14 & E15 &
       E16 & E17 & E18 & E19 & E20 & E21 & E22 & Gp & Rxp & Rcp & Ren & Hn & Hrow).
    unfold step. rewrite E1. cbn [bind]. unfold cbo_step. rewrite E2. cbn [bind]. rewrite E3, E4. cbn [bind].
    destruct (bc2_compat _ _ _ (c_vsub c) _ _ _ _ _ _ Rxp Rcp) as (d & Ed & Rd); [left; auto|right; auto|].
    rewrite Ed. cbn [bind]. unfold correction. rewrite HC. sst. rewrite E7.
    pose proof (rect_map _ _ (c_f c) _ _ _ Rcp) as Rf.
    set (A := length (s_active s)) in *. assert (HA : 1 <= A) by (unfold A; destruct (s_active s); cbn; [congruence|lia]).
    assert (HAM : A <= s_M s).
    { unfold A. rewrite <- (seq_length (s_M s) 0). apply NoDup_incl_length. apply incr_NoDup, W.
      intros m Hm. apply in_seq. pose proof (w_actlt _ _ W _ Hm). lia. }
    pose proof (w_N _ _ W) as HN. pose proof (w_bs _ _ W) as Hbs.
    destruct (compat_dec (s_M s) A) as [CM|CM].
    2:{ rewrite bc2_incompat_rows; auto. rewrite (proj1 Ren), (proj1 Rf). auto. }
    destruct (bc2_compat _ _ _ fsub _ _ _ _ _ _ Ren Rf CM) as (z & Ez & Rz). { right; right; auto. }
    rewrite Ez. cbn [bind].
    assert (Rd' : rect A n d).
    { replace A with (bdim A A). 2:{ unfold bdim. destruct (Nat.eqb_spec A 1); lia. }
      replace n with (bdim n 1). 2:{ unfold bdim. destruct (Nat.eqb_spec n 1); lia. } auto. }
    assert (Rz' : rect (s_M s) (s_N s) z).
    { replace (s_M s) with (bdim (s_M s) A). 2:{ unfold bdim. destruct (Nat.eqb_spec (s_M s) 1); lia. }
      replace (s_N s) with (bdim (s_N s) 1). 2:{ unfold bdim. destruct (Nat.eqb_spec (s_N s) 1); lia. } auto. }
    assert (CM' : compat A (s_M s)) by (unfold compat in *; lia).
    destruct (compat_dec n (s_N s)) as [CN|CN].
    2:{ rewrite (bc2_incompat_cells _ _ _ _ _ _ _ _ _ _ Rd' Rz' CM'); auto. lia. }
    destruct (bc2_compat _ _ _ (fun v w => c_vscale c (fac w) v) _ _ _ _ _ _ Rd' Rz' CM' CN) as (d' & Ed' & Rd2).
    rewrite Ed'. cbn [bind]. cbv zeta. sst.
    match goal with |- context [mapi (fun k row => mapi (@?g k) row) d'] =>
      pose proof (rect_mapi _ _ g _ _ _ Rd2) as Ru; set (upd := mapi (fun k row => mapi (g k) row) d') in * end.
    destruct (Nat.eq_dec A (s_M s)) as [HE|HE].
    - assert (n <> s_N s /\ n = 1) as [Hn1 Hn2].
      { destruct Hbad as [|[Hb Hp]]; [lia|]. rewrite Hp in Hn. destruct (Nat.eqb_spec (c_bsize c) (s_N s)); [lia|].
        unfold compat in CN. lia. }
      subst n. unfold upd in *. rewrite (iop2_incompat_cells _ _ _ _ _ A 1 (s_N s)); auto; try lia.
      + rewrite Hn2 in Rxp. auto.
      + replace A with (bdim A (s_M s)). 2:{ unfold bdim. destruct (Nat.eqb_spec A 1); lia. }
        replace (s_N s) with (bdim 1 (s_N s)) by reflexivity. rewrite Hn2 in Ru. auto.
    - assert (A = 1) by (unfold compat in *; lia).
      unfold upd in *. rewrite iop2_incompat_rows; auto; rewrite ?(proj1 Ru), ?(proj1 Rxp); unfold bdim; rewrite H; cbn; lia.
  Qed.

  (** the remaining steps succeed *)
  Theorem heavi_step_char : forall (c : cfg) fac s log (o : orc), exec c s log -> perms_valid o s ->
    c_corr c = Heavi fac -> one_consensus_point c ->
    length (s_active s) = s_M s -> (c_bsize c = s_N s \/ c_partial c = false) ->
    exists s', step c o s = Ok s' /\
      (1 <= s_M s -> s_nfe s' = map (fun n => n + c_bsize c + s_M s) (s_nfe s)) /\
      s_fcalls s' = s_fcalls s + s_M s * c_bsize c + s_M s /\
      (forall m xr er a, nth_error (s_x s) m = Some xr -> nth_error (s_energy s) m = Some er ->
         nth_error (s_alpha s) m = Some [a] ->
         exists xb er' cpt, takeM xr (run_sel c o s m) = Ok xb /\
           put1 (run_sel c o s m) er (map (c_f c) xb) = Ok er' /\ nth_error (s_energy s') m = Some er' /\
           c_ccrow c (map (c_f c) xb) xb a = [cpt] /\
           nth_error (s_x s') m = Some (map (c_pp c) (map2 (c_vadd c) xr
             (mapi (fun n v => cbo_update c v (s_lamda s) (s_dt s) (s_sigma s) (c_noise c (s_dt s) v (o_z o m n)))
               (map2 (fun x e => c_vscale c (fac (fsub e (c_f c cpt))) (c_vsub c x cpt)) xr er'))))).
  Proof.
    intros c fac s log o E P HC CS HA Hb. pose proof (exec_wf _ _ _ E) as W. pose proof (perms_valid_ok _ _ P) as P'.
    destruct (cbo_step_pre c o s W P' CS) as
      (s1 & s2 & ci & pi & en & cp & xp & n & E1 & E2 & E3 & E4 & E5 & E6 & E7 & E8 & E9 & E10 & E11 & E12 & E13 & E14 & E15 &
       E16 & E17 & E18 & E19 & E20 & E21 & E22 & Gp & Rxp & Rcp & Ren & Hn & Hrow).
    assert (n = s_N s) as ->.
    { rewrite Hn. destruct (Nat.eqb_spec (c_bsize c) (s_N s)); auto. destruct Hb as [|Hb]; [congruence|]. rewrite Hb; auto. }
    clear Hn. rewrite HA in *.
    assert (Hact : s_active s = seq 0 (s_M s)) by (apply incr_full; auto; apply W).
    pose proof (incr_NoDup _ (w_act _ _ W)) as Hnd.
    unfold step. rewrite E1. cbn [bind]. unfold cbo_step. rewrite E2. cbn [bind]. rewrite E3, E4. cbn [bind].
    rewrite bc2_rows.
    2:{ rewrite (proj1 Rxp), (proj1 Rcp); auto. }
    2:{ intros k x y _ Hy. left. eapply (proj2 Rcp); eauto. }
    cbn [bind]. unfold correction. rewrite HC. sst. rewrite E7.
    pose proof (rect_map _ _ (c_f c) _ _ _ Rcp) as Rf.
    rewrite bc2_rows.
    2:{ rewrite (proj1 Ren), (proj1 Rf); auto. }
    2:{ intros k x y _ Hy. left. eapply (proj2 Rf); eauto. }
    cbn [bind].
    set (d := map2 (rowop (c_vsub c)) xp cp). set (z := map2 (rowop fsub) en (map (map (c_f c)) cp)).
    assert (Ld : length d = s_M s). { unfold d. rewrite map2_length, (proj1 Rxp), (proj1 Rcp). lia. }
    assert (Lz : length z = s_M s). { unfold z. rewrite map2_length, (proj1 Ren), (proj1 Rf). lia. }
    assert (Rd : forall k r, nth_error d k = Some r -> length r = s_N s).
    { intros k r Hk. unfold d in Hk. rewrite map2_nth in Hk. destruct (nth_error xp k) eqn:Ex; [|discriminate].
      destruct (nth_error cp k) eqn:Ec; [|discriminate]. inversion Hk. rewrite rowop_length.
      - eapply (proj2 Rxp); eauto. - left. eapply (proj2 Rcp); eauto. }
    assert (Rz : forall k r, nth_error z k = Some r -> length r = s_N s).
    { intros k r Hk. unfold z in Hk. rewrite map2_nth in Hk. destruct (nth_error en k) eqn:Ex; [|discriminate].
      destruct (nth_error (map (map (c_f c)) cp) k) eqn:Ec; [|discriminate]. inversion Hk. rewrite rowop_length.
      - eapply (proj2 Ren); eauto. - left. eapply (proj2 Rf); eauto. }
    rewrite bc2_rows.
    2:{ congruence. }
    2:{ intros k x y Hx Hy. right. rewrite (Rd _ _ Hx), (Rz _ _ Hy). auto. }
    cbn [bind]. cbv zeta. sst. rewrite E19, E20, E21.
    set (d' := map2 (rowop (fun v w => c_vscale c (fac w) v)) d z).
    assert (Rd' : forall k r, nth_error d' k = Some r -> length r = s_N s).
    { intros k r Hk. unfold d' in Hk. rewrite map2_nth in Hk. destruct (nth_error d k) eqn:Ex; [|discriminate].
      destruct (nth_error z k) eqn:Ec; [|discriminate]. inversion Hk. rewrite rowop_length.
      - eauto. - right. rewrite (Rz _ _ Ec), (Rd _ _ Ex). auto. }
    assert (Ld' : length d' = length (s_active s)). { unfold d'. rewrite map2_length, Ld, Lz, HA. lia. }
    rewrite E5, E6 in *.
    destruct (update_char c o (s_active s) (s_M s) (s_N s) pi (s_x s) d' xp (s_lamda s) (s_dt s) (s_sigma s)
                Gp Hnd (w_actlt _ _ W) (w_x _ _ W) E4 Ld') as (xp' & x' & U1 & U2 & Rx' & Hup & _).
    { intros k r xr H1 H2. rewrite (Rd' _ _ H1), (proj2 Rxp _ _ H2). auto. }
    rewrite U1. cbn [bind]. rewrite U2. cbn [bind].
    match goal with |- context [post_step c ?q] => set (s3 := q) end.
    destruct (post_step_char c s3 (s_x s)) as (s' & Ep & X1 & X2 & _ & X4 & X5 & _); unfold s3; sst; auto.
    { rewrite E11, E12. apply W. }
    { rewrite E11, E12. auto. }
    { rewrite E11, E12, E7. auto. }
    { rewrite E12. apply W. }
    { rewrite E14, E11. apply W. }
    { rewrite E15, E11. apply W. }
    { rewrite E16. apply W. }
    { rewrite E17, E18. apply W. }
    { discriminate. }
    exists s'. split; [exact Ep|]. split; [|split].
    - intros HM. rewrite X4. unfold s3. sst. destruct E9 as [E9|E9]; [|rewrite E9 in HA; cbn in HA; lia].
      rewrite E9, (proj1 Rcp). apply nth_error_ext. intros k. rewrite !nth_error_map, add_at_nth.
      destruct (nth_error (s_nfe s) k) eqn:En; auto. cbn.
      replace (existsb (Nat.eqb k) (s_active s)) with true; auto. symmetry. apply existsb_eqb. rewrite Hact.
      apply in_seq. apply nth_error_lt in En. rewrite (w_nfe _ _ W) in En. lia.
    - rewrite X5. unfold s3. sst. rewrite E10. f_equal. rewrite (npoints_const _ cp 1).
      + rewrite (proj1 Rcp). lia.
      + apply Rcp.
    - intros m xr er a Ex Ee Ea.
      assert (Hm : m < s_M s). { rewrite <- (proj1 (w_x _ _ W)). eapply nth_error_lt; eauto. }
      assert (Em : nth_error (s_active s) m = Some m).
      { rewrite Hact, nth_error_seq, (proj2 (Nat.ltb_lt _ _) Hm). auto. }
      destruct (Hrow m m xr er a Em Ex Ee Ea) as (xb & er' & xpr & T1 & T2 & T3 & T4 & T5 & T6 & T7).
      pose proof (proj2 Rcp _ _ T4) as Lc. destruct (c_ccrow c (map (c_f c) xb) xb a) as [|cpt [|]] eqn:Ecc; try discriminate.
      assert (Esel : run_selp c o s m = seq 0 (s_N s)).
      { unfold run_selp. destruct (Nat.eqb_spec (c_bsize c) (s_N s)); auto. destruct Hb as [|Hb]; [congruence|]. rewrite Hb; auto. }
      assert (Lxr : length xr = s_N s) by (eapply (proj2 (w_x _ _ W)); eauto).
      assert (xpr = xr). { rewrite Esel, <- Lxr, takeM_all in T6. inversion T6; auto. } subst xpr.
      assert (Ed : nth_error d' m = Some (map2 (fun x e => c_vscale c (fac (fsub e (c_f c cpt))) (c_vsub c x cpt)) xr er')).
      { assert (Ler : length er' = s_N s) by (eapply (proj2 Ren); eauto).
        unfold d', d, z. rewrite !map2_nth, T5, T4, T3, nth_error_map, T4. cbn [option_map map rowop].
        f_equal. apply nth_error_ext. intros k. rewrite map2_nth.
        assert (Hrr : forall (x : list V) (y : list F), length y = length x ->
           rowop (fun v w => c_vscale c (fac w) v) x y = map2 (fun v w => c_vscale c (fac w) v) x y).
        { intros x [|y0 [|]] Hl; auto. destruct x as [|x0 [|]]; try discriminate. reflexivity. }
        rewrite Hrr by (rewrite !map_length; lia). rewrite map2_nth, !nth_error_map.
        destruct (nth_error xr k); auto. destruct (nth_error er' k); auto. }
      destruct (Hup m m xr _ Em Ex Ed) as (xpr & xr' & V1 & V2 & V3 & V4).
      rewrite T7, Esel in V3. rewrite T7, Esel, <- Lxr, takeM_all in V1. inversion V1; subst xpr.
      exists xb, er', cpt. split; auto. split; auto. split. { rewrite X2. unfold s3. sst. rewrite E7. auto. }
      split; auto. rewrite X1. unfold s3. sst. rewrite nth_error_map, V4. cbn. f_equal. f_equal.
      rewrite <- Lxr, put1_all in V3.
      + inversion V3. auto.
      + rewrite map2_length, mapi_length, (Rd' _ _ Ed). lia.
  Qed.

  Lemma list_sum_map_add : forall k l, list_sum (map (fun n => n + k) l) = list_sum l + length l * k.
  Proof. induction l; cbn [map length list_sum fold_right] in *; [auto|]. unfold list_sum in *. cbn. lia. Qed.

  (** the counters after one step *)
  Theorem heavi_counts : forall (c : cfg) fac s log (o : orc) s', exec c s log -> perms_valid o s ->
    c_corr c = Heavi fac -> one_consensus_point c -> s_active s <> [] ->
    step c o s = Ok s' ->
    s_fcalls s' = s_fcalls s + s_M s * (c_bsize c + 1) /\
    (forall m n, nth_error (s_nfe s) m = Some n -> nth_error (s_nfe s') m = Some (n + c_bsize c + s_M s)) /\
    list_sum (s_nfe s') = list_sum (s_nfe s) + s_M s * (c_bsize c + s_M s) /\
    (list_sum (s_nfe s) = s_fcalls s -> (list_sum (s_nfe s') = s_fcalls s' <-> s_M s = 1)).
  Proof.
    intros c fac s log o s' E P HC CS Hne HS. pose proof (exec_wf _ _ _ E) as W.
    assert (HAM : length (s_active s) <= s_M s).
    { rewrite <- (seq_length (s_M s) 0). apply NoDup_incl_length. apply incr_NoDup, W.
      intros m Hm. apply in_seq. pose proof (w_actlt _ _ W _ Hm). lia. }
    assert (HM : 1 <= s_M s). { destruct (s_active s); cbn in *; [congruence|lia]. }
    pose proof (w_bs _ _ W) as Hbs.
    assert (HA : length (s_active s) = s_M s).
    { destruct (Nat.eq_dec (length (s_active s)) (s_M s)); auto.
      rewrite (heavi_raises c fac s log o) in HS; auto; [discriminate|]. left; lia. }
    assert (Hb : c_bsize c = s_N s \/ c_partial c = false).
    { destruct (Nat.eq_dec (c_bsize c) (s_N s)); auto. destruct (c_partial c) eqn:Ep; auto.
      rewrite (heavi_raises c fac s log o) in HS; auto; [discriminate|]. right; split; auto; lia. }
    destruct (heavi_step_char c fac s log o E P HC CS HA Hb) as (s2 & E2 & Hn & Hf & _).
    rewrite HS in E2. inversion E2; subst s2. specialize (Hn HM).
    assert (Hsum : list_sum (s_nfe s') = list_sum (s_nfe s) + s_M s * (c_bsize c + s_M s)).
    { rewrite Hn, (map_ext _ (fun n => n + (c_bsize c + s_M s))), list_sum_map_add, (w_nfe _ _ W); auto.
      intros; lia. }
    split; [rewrite Hf; lia|]. split.
    - intros m n Hm. rewrite Hn, nth_error_map, Hm. reflexivity.
    - split; auto. intros H0. rewrite Hsum, Hf, H0. nia.
  Qed.

  Theorem heavi_works : forall (c : cfg) fac s log (o : orc), exec c s log -> perms_valid o s ->
    c_corr c = Heavi fac -> one_consensus_point c ->
    length (s_active s) = s_M s -> (c_bsize c = s_N s \/ c_partial c = false) ->
    exists s', step c o s = Ok s'.
  Proof. intros c fac s log o E P H1 H2 H3 H4. destruct (heavi_step_char c fac s log o E P H1 H2 H3 H4) as (s' & A & _). eauto. Qed.
End Heavi.
