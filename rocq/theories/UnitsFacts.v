(** * Two dynamics in different units: proofs *)
From Coq Require Import String List Arith Bool Permutation Lia.
From Verif Require Import Scalar Np NpFacts State Pdyn PdynFacts PdynStep PdynRun PdynOk Exec TermSpec TermFacts RunFacts MoveFacts TwinFacts UnitsSpec.
Import ListNotations.
Open Scope nat_scope.
Open Scope list_scope.

Section Units.
  Context {K V : Type} {O : KOps K} {OL : KOrd K}.
  Notation F := (fl K).
  Notation st := (st K V).
  Notation cfg := (cfg K V).
  Notation orc := (orc V).
  Variables (uu : units K V) (c c' : cfg).
  Notation phi := (u_x uu).
  Notation chi := (u_z uu).
  Notation psi := (u_e uu).
  Notation om := (u_n uu).
  Notation al := (u_alpha uu).
  Notation tm := (u_t uu).
  (** points, draws, parameters and values of alpha the laws are needed for *)
  Variables (PV : V -> Prop) (QO : orc -> Prop) (Q : st -> Prop).

  Record equivariant : Prop := {
    q_b : c_bsize c' = c_bsize c /\ c_partial c' = c_partial c /\ c_concat c' = c_concat c;
    q_one : one_consensus_point c /\ one_consensus_point c';
    q_plain : c_corr c = NoCorr /\ c_corr c' = NoCorr;
    q_crit : c_crit c' = map (converted_crit uu) (c_crit c) /\ Forall builtin (c_crit c);
    q_lt : forall a b, fltb (psi a) (psi b) = fltb a b;
    q_olt : forall a b, fltb (om a) (om b) = fltb a b;
    q_tle : forall a b, fleb (tm a) (tm b) = fleb a b;
    q_tadd : forall a b, fadd (tm a) (tm b) = tm (fadd a b);
    q_t0 : tm (Fin k0) = Fin k0;
    q_nan : forall a, is_nan (psi a) = is_nan a;
    q_inf : psi PInf = PInf /\ om PInf = PInf;
    q_f : forall v, PV v -> c_f c' (phi v) = psi (c_f c v);
    q_cc : forall (s : st) m a X, Q s -> m < s_M s -> nth_error (s_alpha s) m = Some [a] -> X <> [] -> (forall v, In v X -> PV v) ->
      exists cp, c_ccrow c (map (c_f c) X) X a = [cp] /\ PV cp /\ c_ccrow c' (map psi (map (c_f c) X)) (map phi X) (al a) = [phi cp];
    q_moved : forall (s s' : st) o k n cp v, Q s -> QO o -> s_lamda s' = u_lamda uu (s_lamda s) -> s_dt s' = tm (s_dt s) -> s_sigma s' = u_sigma uu (s_sigma s) ->
      PV cp -> PV v -> moved c' s' (phi cp) (phi v) (chi (o_z o k n)) = phi (moved c s cp v (o_z o k n)) /\ PV (moved c s cp v (o_z o k n));
    q_pp : forall v, PV v -> c_pp c' (phi v) = phi (c_pp c v) /\ PV (c_pp c v);
    q_norm : forall l l', (forall v, In v l -> PV v) -> (forall v, In v l' -> PV v) ->
      c_norm c' (map2 (c_vsub c') (map phi l) (map phi l')) = om (c_norm c (map2 (c_vsub c) l l'));
    q_Q : forall s s' : st, s_alpha s' = s_alpha s -> s_lamda s' = s_lamda s -> s_dt s' = s_dt s -> s_sigma s' = s_sigma s -> s_M s' = s_M s -> Q s -> Q s' }.

  Hypothesis EQ : equivariant.

  Definition rmap (r : rowst) : rowst (K := K) (V := V) :=
    mkrow (map phi (r_x r)) (map psi (r_e r)) (map al (r_a r)) (psi (r_be r)) (phi (r_bp r)) (r_nfe r) (om (r_ud r)) (psi (r_fmin r))
          (option_map psi (r_bce r)) (option_map phi (r_bcp r)).

  Lemma argmin_from_map : forall l i bi bv, argmin_from i bi (psi bv) (map psi l) = (fst (argmin_from i bi bv l), psi (snd (argmin_from i bi bv l))).
  Proof.
    induction l as [|a l IH]; intros; cbn; auto. rewrite !(q_nan EQ), (q_lt EQ).
    destruct (is_nan bv); auto. destruct (is_nan a); auto. destruct (fltb a bv); auto.
  Qed.
  Lemma argmin_map : forall l am, argmin l = Ok am -> argmin (map psi l) = Ok (fst am, psi (snd am)).
  Proof. intros [|a l] am H; [discriminate|]. cbn in *. injection H as <-. rewrite argmin_from_map. auto. Qed.

  Lemma post_map : forall xo r r', (forall v, In v xo -> PV v) -> (forall v, In v (r_x r) -> PV v) ->
    run_post c xo r = Ok r' -> run_post c' (map phi xo) (rmap r) = Ok (rmap r') /\ (forall v, In v (r_x r') -> PV v).
  Proof.
    intros xo r r' Ho Hx H. pose proof (run_post_x _ _ _ _ H) as HX.
    assert (PX : forall v, In v (map (c_pp c) (r_x r)) -> PV v).
    { intros v Hv. apply in_map_iff in Hv. destruct Hv as (u & <- & Hu). apply (q_pp EQ). auto. }
    split; [|rewrite HX; exact PX].
    unfold run_post in *. cbn [rmap r_x r_e r_be r_bp r_nfe r_a].
    apply bind_ok in H. destruct H as (am & H1 & H). apply bind_ok in H. destruct H as (p & H2 & H). apply bind_ok in H. destruct H as (e & H3 & H).
    rewrite (argmin_map _ _ H1). cbn [bind fst snd]. rewrite !take1_map, H2, H3. cbn [bind]. injection H as <-.
    rewrite (q_lt EQ). unfold rmap. cbn.
    assert (E : map (c_pp c') (map phi (r_x r)) = map phi (map (c_pp c) (r_x r))).
    { rewrite !map_map. apply map_ext_in. intros v Hv. apply (q_pp EQ). auto. }
    rewrite E. rewrite (q_norm EQ _ xo) by auto. destruct (fltb e (r_be r)); reflexivity.
  Qed.

  Lemma move_map : forall (s s' : st) m o k r sl slp r1 cp d, Q s -> QO o ->
    s_lamda s' = u_lamda uu (s_lamda s) -> s_dt s' = tm (s_dt s) -> s_sigma s' = u_sigma uu (s_sigma s) -> row_at s m = Some r -> m < s_M s -> sl <> [] ->
    (forall v, In v (r_x r) -> PV v) ->
    run_move c (s_lamda s) (s_dt s) (s_sigma s) sl slp (o_z o k) r = Ok (r1, (cp, d)) ->
    exists d', run_move c' (s_lamda s') (s_dt s') (s_sigma s') sl slp (fun n => chi (o_z o k n)) (rmap r) = Ok (rmap r1, (map phi cp, d')) /\
      (forall v, In v (r_x r1) -> PV v).
  Proof.
    intros s s' m o k r sl slp r1 cp d HQ HO P1 P2 P3 Hr Hm Hsl Hx H. unfold run_move in *. cbn [rmap r_x r_e r_be r_bp r_nfe r_a r_ud r_fmin r_bce r_bcp].
    destruct (r_a r) as [|a [|]] eqn:Ea; try discriminate. cbn [map].
    apply bind_ok in H. destruct H as (xb & HB & H). apply bind_ok in H. destruct H as (er & HE & H).
    apply bind_ok in H. destruct H as (xp & HP & H). cbv zeta in H. apply bind_ok in H. destruct H as (xr & HX & H).
    rewrite (takeM_map _ _ phi _ _ _ HB). cbn [bind].
    assert (PB : forall v, In v xb -> PV v) by (intros v Hv; apply Hx; exact (takeM_In _ _ _ _ _ HB Hv)).
    assert (PP : forall v, In v xp -> PV v) by (intros v Hv; apply Hx; exact (takeM_In _ _ _ _ _ HP Hv)).
    assert (NB : xb <> []).
    { intros ->. apply takeM_length in HB. destruct sl; [congruence|discriminate]. }
    assert (EF : map (c_f c') (map phi xb) = map psi (map (c_f c) xb)).
    { rewrite !map_map. apply map_ext_in. intros v Hv. apply (q_f EQ). auto. }
    rewrite EF.
    assert (Ea' : nth_error (s_alpha s) m = Some [a]). { destruct (row_at_fields _ _ _ Hr) as (_ & E2 & _). rewrite E2, Ea. auto. }
    destruct (q_cc EQ s m a xb HQ Hm Ea' NB PB) as (q & C1 & PQ & C2). rewrite C1 in *.
    rewrite (put1_map _ _ psi _ _ _ _ HE). cbn [bind]. rewrite (takeM_map _ _ phi _ _ _ HP). cbn [bind]. rewrite C2, rowop_one in *.
    assert (EU : forall (cc : cfg) (t : st) cpt (z : nat -> V) l, map2 (c_vadd cc) l (mapi (fun n v => cbo_update cc v (s_lamda t) (s_dt t) (s_sigma t) (c_noise cc (s_dt t) v (z n))) (map (fun v => c_vsub cc v cpt) l)) =
       mapi (fun n v => moved cc t cpt v (z n)) l).
    { intros. apply nth_error_ext. intros n. rewrite map2_nth, !mapi_nth, nth_error_map. destruct (nth_error l n); reflexivity. }
    rewrite (EU c s q (o_z o k)) in HX. rewrite ?rowop_one, (EU c' s' (phi q) (fun n => chi (o_z o k n))).
    assert (EM : mapi (fun n v => moved c' s' (phi q) v (chi (o_z o k n))) (map phi xp) = map phi (mapi (fun n v => moved c s q v (o_z o k n)) xp)).
    { apply nth_error_ext. intros n. rewrite mapi_nth, !nth_error_map, mapi_nth. destruct (nth_error xp n) as [v|] eqn:En; cbn; auto. f_equal.
      apply (q_moved EQ); auto. apply PP. eapply nth_error_In; eauto. }
    rewrite EM, (put1_map _ _ phi _ _ _ _ HX). cbn [bind]. injection H as <- <- <-.
    eexists. split; [reflexivity|]. cbn [r_x].
    intros v Hv. apply In_nth_error in Hv. destruct Hv as (n & Hn).
    assert (LL : length (mapi (fun n v => moved c s q v (o_z o k n)) xp) = length slp).
    { rewrite mapi_length. apply (takeM_length _ _ _ _ HP). }
    rewrite (put1_nth _ _ _ _ _ n LL HX) in Hn. destruct (last_index n slp) as [i|].
    - destruct (n <? length (r_x r)); [|discriminate]. rewrite mapi_nth in Hn. destruct (nth_error xp i) as [u|] eqn:Eu; [|discriminate].
      injection Hn as <-. apply (q_moved EQ s s'); auto. apply PP. eapply nth_error_In; eauto.
    - apply Hx. eapply nth_error_In; eauto.
  Qed.

  Lemma conv_row : forall s s' m r, converted uu s s' -> (forall k, k < s_M s -> True) -> row_at s m = Some r ->
    exists bce bcp, row_at s' m = Some (mkrow (map phi (r_x r)) (map psi (r_e r)) (map al (r_a r)) (psi (r_be r)) (phi (r_bp r)) (r_nfe r) (om (r_ud r)) (psi (r_fmin r)) bce bcp).
  Proof.
    intros s s' m r H _ Hr. destruct (row_at_lt _ _ _ Hr) as (_ & A1 & A2 & A3 & A4 & A5 & A6 & A7 & A8 & _).
    destruct H. unfold row_at. rewrite cv_x, cv_energy, cv_alpha, cv_be, cv_bp, cv_nfe, cv_udiff, cv_fmin.
    rewrite !nth_error_map, A1, A2, A3, A4, A5, A6, A7, A8. cbn. eauto.
  Qed.

  (** r_bce and r_bcp are overwritten by run_post and do not matter for run_move *)
  Lemma post_forget : forall (cc : cfg) xo r bce bcp, run_post cc xo (mkrow (r_x r) (r_e r) (r_a r) (r_be r) (r_bp r) (r_nfe r) (r_ud r) (r_fmin r) bce bcp) = run_post cc xo r.
  Proof. intros. reflexivity. Qed.
  Lemma move_forget : forall (cc : cfg) l d g sl slp z r bce bcp r1 p, run_move cc l d g sl slp z r = Ok (r1, p) ->
    run_move cc l d g sl slp z (mkrow (r_x r) (r_e r) (r_a r) (r_be r) (r_bp r) (r_nfe r) (r_ud r) (r_fmin r) bce bcp) =
    Ok (mkrow (r_x r1) (r_e r1) (r_a r1) (r_be r1) (r_bp r1) (r_nfe r1) (r_ud r1) (r_fmin r1) bce bcp, p).
  Proof.
    intros cc l d g sl slp z r bce bcp r1 p H. unfold run_move in *. cbn [r_x r_e r_be r_bp r_nfe r_a r_ud r_fmin r_bce r_bcp].
    destruct (r_a r) as [|a [|]]; try discriminate.
    apply bind_ok in H. destruct H as (xb & HB & H). rewrite HB. cbn [bind]. apply bind_ok in H. destruct H as (er & HE & H). rewrite HE. cbn [bind].
    apply bind_ok in H. destruct H as (xp & HP & H). rewrite HP. cbn [bind]. cbv zeta in H. apply bind_ok in H. destruct H as (xr & HX & H). rewrite HX. cbn [bind].
    injection H as <- <-. reflexivity.
  Qed.

  Lemma rows_eq : forall A (l l' : list A) n, length l = n -> length l' = n -> (forall m, m < n -> nth_error l' m = nth_error l m) -> l' = l.
  Proof.
    intros A l l' n H1 H2 H. apply nth_error_ext. intros m. destruct (Nat.lt_ge_cases m n); auto.
    rewrite !(proj2 (nth_error_None _ _)); auto; lia.
  Qed.

  Theorem step_conv : forall s log s' log' o s1 s1', exec c s log -> exec c' s' log' -> perms_valid o s -> Q s -> QO o ->
    (forall row v, In row (s_x s) -> In v row -> PV v) -> converted uu s s' ->
    step c o s = Ok s1 -> step c' {| o_z := fun k n => chi (o_z o k n); o_perm := o_perm o |} s' = Ok s1' ->
    converted uu s1 s1' /\ (forall row v, In row (s_x s1) -> In v row -> PV v).
  Proof.
    intros s log s' log' o s1 s1' E E' P HQ HO HPV IM HS HS'.
    pose proof (exec_wf _ _ _ E) as W. pose proof (exec_wf _ _ _ E') as W'.
    set (o' := {| o_z := fun k n => chi (o_z o k n); o_perm := o_perm o |}) in *.
    assert (P' : perms_valid o' s').
    { intros m Hm. rewrite (cv_M _ _ _ IM) in Hm. rewrite (cv_N _ _ _ IM). apply P. auto. }
    destruct (q_one EQ) as [G G']. destruct (q_plain EQ) as [NC NC']. destruct (q_b EQ) as (B1 & B2 & B3).
    destruct (step_char c o s W (perms_valid_ok _ _ P) (or_introl G) NC) as
      (t & HSt & Wt & (M1 & N1 & Al1 & Sg1 & La1 & D1 & T1 & I1 & Ac1 & _) & Hi1 & Hi2 & (cp & d & Ec & Ed & Lc & _ & Hact) & Hina & _).
    rewrite HS in HSt. injection HSt as <-.
    destruct (step_char c' o' s' W' (perms_valid_ok _ _ P') (or_introl G') NC') as
      (t & HSt & Wt' & (M1' & N1' & Al1' & Sg1' & La1' & D1' & T1' & I1' & Ac1' & _) & Hi1' & Hi2' & (cp' & d' & Ec' & Ed' & Lc' & _ & Hact') & Hina' & _).
    rewrite HS' in HSt. injection HSt as <-.
    destruct (cv_par _ _ _ IM) as (Pa1 & Pa2 & Pa3). destruct (cv_time _ _ _ IM) as (Tm1 & Tm2).
    pose proof (cv_M _ _ _ IM) as IMM. pose proof (cv_N _ _ _ IM) as IMN. pose proof (cv_active _ _ _ IM) as IMA. pose proof (cv_ind _ _ _ IM) as IMI.
    assert (Hsel : forall m, run_sel c' o' s' m = run_sel c o s m /\ run_selp c' o' s' m = run_selp c o s m).
    { intros m. unfold run_sel, run_selp, ind_next. rewrite B1, B2, B3, IMN, IMI. split; reflexivity. }
    assert (Hsln : forall m, m < s_M s -> run_sel c o s m <> []).
    { intros m Hm Hnil. pose proof (run_sel_length c o s m W (perms_valid_ok _ _ P) Hm) as L. rewrite Hnil in L. destruct W. cbn in L. lia. }
    (* rows *)
    assert (ROW : forall m, m < s_M s -> exists r r', row_at s m = Some r /\ row_at s1 m = Some r' /\ row_at s1' m = Some (rmap r') /\ (forall v, In v (r_x r') -> PV v) /\
              forall k, nth_error (s_active s) k = Some m -> exists q, nth_error cp k = Some q /\ nth_error cp' k = Some (map phi q)).
    { intros m Hm. destruct (row_at_Some c s m W Hm) as (r & Er & _).
      destruct (conv_row s s' m r IM (fun _ _ => I) Er) as (bce & bcp & Er').
      assert (PX : forall v, In v (r_x r) -> PV v).
      { intros v Hv. destruct (row_at_fields _ _ _ Er) as (A1 & _). eapply HPV; eauto. eapply nth_error_In; eauto. }
      destruct (in_dec Nat.eq_dec m (s_active s)) as [Hin|Hni].
      - destruct (In_nth_error _ _ Hin) as (k & Hk).
        destruct (Hact _ _ _ Hk Er) as (r1 & cpr & dr & r' & Q1 & Q2 & Q3 & Q4 & Q5).
        assert (Hk' : nth_error (s_active s') k = Some m) by congruence.
        destruct (Hact' _ _ _ Hk' Er') as (r1' & cpr' & dr' & r'' & Q1' & Q2' & Q3' & Q4' & Q5').
        destruct (Hsel m) as [S1 S2]. rewrite S1, S2 in Q1'.
        destruct (move_map s s' m o k r _ _ r1 cpr dr HQ HO Pa2 Pa3 Pa1 Er Hm (Hsln m Hm) PX Q1) as (d2 & MM & PX1).
        apply (move_forget _ _ _ _ _ _ _ _ bce bcp) in MM. cbn [rmap r_x r_e r_be r_bp r_nfe r_a r_ud r_fmin r_bce r_bcp] in MM.
        cbn [o' o_z] in Q1'. rewrite MM in Q1'. injection Q1' as <- <- <-.
        destruct (post_map (r_x r) r1 r' PX PX1 Q4) as (PM & PX2).
        cbn [r_x] in Q4'. rewrite <- (post_forget c' (map phi (r_x r)) (rmap r1) bce bcp) in PM.
        cbn [rmap r_x r_e r_be r_bp r_nfe r_a r_ud r_fmin r_bce r_bcp] in PM. rewrite PM in Q4'. injection Q4' as <-.
        exists r, r'. split; auto. split; auto. split; auto. split; auto.
        intros k2 Hk2. assert (k2 = k). { apply (proj1 (NoDup_nth_error (s_active s))); [apply incr_NoDup; apply W| eapply nth_error_lt; eauto|congruence]. }
        subst k2. eauto.
      - destruct (Hina _ _ Hni Er) as (r' & Q4 & Q5).
        assert (Hni' : ~ In m (s_active s')) by congruence.
        destruct (Hina' _ _ Hni' Er') as (r'' & Q4' & Q5').
        destruct (post_map (r_x r) r r' PX PX Q4) as (PM & PX2).
        cbn [r_x] in Q4'. rewrite <- (post_forget c' (map phi (r_x r)) (rmap r) bce bcp) in PM.
        cbn [rmap r_x r_e r_be r_bp r_nfe r_a r_ud r_fmin r_bce r_bcp] in PM. rewrite PM in Q4'. injection Q4' as <-.
        exists r, r'. split; auto. split; auto. split; auto. split; auto. intros k Hk. exfalso. apply Hni. eapply nth_error_In; eauto. }
    assert (RF : forall m, m < s_M s -> exists r', row_at s1 m = Some r' /\ row_at s1' m = Some (rmap r')).
    { intros m Hm. destruct (ROW m Hm) as (r & r' & _ & H1 & H2 & _). eauto. }
    split.
    - constructor; try congruence.
      + apply (rows_eq _ _ _ (s_M s)); [rewrite map_length, (proj1 (w_x _ _ Wt)); auto|rewrite (proj1 (w_x _ _ Wt')); congruence|].
        intros m Hm. destruct (RF m Hm) as (r & H1 & H2). apply row_at_lt in H1, H2. rewrite nth_error_map. destruct H1 as (_ & -> & _), H2 as (_ & -> & _). auto.
      + apply (rows_eq _ _ _ (s_M s)); [rewrite map_length, (proj1 (w_e _ _ Wt)); auto|rewrite (proj1 (w_e _ _ Wt')); congruence|].
        intros m Hm. destruct (RF m Hm) as (r & H1 & H2). apply row_at_lt in H1, H2. rewrite nth_error_map. destruct H1 as (_ & _ & -> & _), H2 as (_ & _ & -> & _). auto.
      + apply (rows_eq _ _ _ (s_M s)); [rewrite map_length, (w_be _ _ Wt); auto|rewrite (w_be _ _ Wt'); congruence|].
        intros m Hm. destruct (RF m Hm) as (r & H1 & H2). apply row_at_lt in H1, H2. rewrite nth_error_map. destruct H1 as (_ & _ & _ & _ & -> & _), H2 as (_ & _ & _ & _ & -> & _). auto.
      + apply (rows_eq _ _ _ (s_M s)); [rewrite map_length, (w_bp _ _ Wt); auto|rewrite (w_bp _ _ Wt'); congruence|].
        intros m Hm. destruct (RF m Hm) as (r & H1 & H2). apply row_at_lt in H1, H2. rewrite nth_error_map. destruct H1 as (_ & _ & _ & _ & _ & -> & _), H2 as (_ & _ & _ & _ & _ & -> & _). auto.
      + apply (rows_eq _ _ _ (s_M s)); [rewrite map_length, (w_fmin _ _ Wt); auto|rewrite (w_fmin _ _ Wt'); congruence|].
        intros m Hm. destruct (RF m Hm) as (r & H1 & H2). apply row_at_lt in H1, H2. rewrite nth_error_map. destruct H1 as (_ & _ & _ & _ & _ & _ & _ & _ & -> & _), H2 as (_ & _ & _ & _ & _ & _ & _ & _ & -> & _). auto.
      + apply (rows_eq _ _ _ (s_M s)); [rewrite map_length, (w_ud _ _ Wt); auto|rewrite (w_ud _ _ Wt'); congruence|].
        intros m Hm. destruct (RF m Hm) as (r & H1 & H2). apply row_at_lt in H1, H2. rewrite nth_error_map. destruct H1 as (_ & _ & _ & _ & _ & _ & _ & -> & _), H2 as (_ & _ & _ & _ & _ & _ & _ & -> & _). auto.
      + apply (rows_eq _ _ _ (s_M s)); [rewrite (w_nfe _ _ Wt); auto|rewrite (w_nfe _ _ Wt'); congruence|].
        intros m Hm. destruct (RF m Hm) as (r & H1 & H2). apply row_at_lt in H1, H2. destruct H1 as (_ & _ & _ & _ & _ & _ & -> & _), H2 as (_ & _ & _ & _ & _ & _ & -> & _). auto.
      + rewrite Ec, Ec'. cbn. f_equal. apply (rows_eq _ _ _ (length (s_active s))); [rewrite map_length; auto|congruence|].
        intros k Hk. destruct (nth_error_lt_Some _ _ _ Hk) as (m & Hm). assert (m < s_M s) by (apply W; eapply nth_error_In; eauto).
        destruct (ROW m H) as (r & r' & _ & _ & _ & _ & HC). destruct (HC k Hm) as (q & H3 & H4). rewrite nth_error_map, H3, H4. reflexivity.
      + destruct (Nat.eq_dec (c_bsize c) (s_N s)) as [Hb|Hb]; [rewrite (Hi1 Hb), Hi1'; congruence|].
        assert (Hb' : c_bsize c' <> s_N s') by congruence.
        assert (Hb1 : c_bsize c <> s_N s1) by congruence. assert (Hb1' : c_bsize c' <> s_N s1') by congruence.
        apply (rows_eq _ _ _ (s_M s)); [rewrite (proj1 (w_ind _ _ Wt Hb1)); auto|rewrite (proj1 (w_ind _ _ Wt' Hb1')); congruence|].
        intros m Hm. rewrite (Hi2 Hb m Hm), (Hi2' Hb') by congruence. unfold ind_next. rewrite B1, B3, IMI. reflexivity.
      + rewrite Al1, Al1'. apply IM.
      + rewrite Sg1, Sg1', La1, La1', D1, D1'. auto.
      + rewrite T1, T1', I1, I1', Tm1, Pa3, (q_tadd EQ). split; congruence.
    - intros row v Hr Hv. apply In_nth_error in Hr. destruct Hr as (m & Hm).
      assert (Lm : m < s_M s). { rewrite <- M1, <- (proj1 (w_x _ _ Wt)). eapply nth_error_lt; eauto. }
      destruct (ROW m Lm) as (r & r' & _ & H1 & _ & H2 & _). apply row_at_lt in H1. destruct H1 as (_ & H1 & _). rewrite H1 in Hm. injection Hm as <-. auto.
  Qed.

  Lemma term_conv : forall s s' b b' s1 s1', wf c s -> wf c' s' -> converted uu s s' ->
    terminate c s = Ok (b, s1) -> terminate c' s' = Ok (b', s1') -> converted uu s1 s1' /\ b = b'.
  Proof.
    intros s s' b b' s1 s1' W W' IM H H'.
    assert (MS : forall m, meets_some c' s' m = meets_some c s m).
    { intros m. unfold meets_some. destruct (q_crit EQ) as [-> HB]. revert HB. generalize (c_crit c). induction 1 as [|k ks Hk _ IH]; cbn [map existsb]; auto.
      rewrite IH. f_equal. destruct (cv_time _ _ _ IM) as (Tm1 & Tm2). destruct (q_b EQ) as (B1 & _).
      destruct k as [tol|tol|B|[n|]|T|g]; cbn in Hk; try contradiction; cbn [converted_crit holds]; rewrite ?B1, ?Tm1, ?Tm2, ?(cv_nfe _ _ _ IM), ?(q_tle EQ); auto.
      - rewrite (cv_fmin _ _ _ IM), nth_error_map. destruct (nth_error (s_fmin s) m); cbn; auto. apply (q_lt EQ).
      - rewrite (cv_udiff _ _ _ IM), nth_error_map. destruct (nth_error (s_udiff s) m); cbn; auto. apply (q_olt EQ). }
    destruct (terminate_spec c s b s1 W H) as (A1 & A2 & _ & A3). destruct (terminate_spec c' s' b' s1' W' H') as (B1 & B2 & _ & B3).
    rewrite (cv_M _ _ _ IM) in *.
    assert (EA : s_active s1' = s_active s1). { rewrite A1, B1. apply filter_ext. intros m. rewrite MS. auto. }
    split.
    - clear - A3 B3 EA IM. rewrite A3, B3. revert EA. generalize (s_reason s1') (s_active s1') (s_reason s1) (s_active s1). intros r1 a1 r2 a2 ->.
      destruct IM. destruct s, s'. constructor; cbn in *; auto.
    - assert (X : b = true <-> b' = true). { rewrite A2, B2. split; intros HH m Hm; [rewrite MS|rewrite <- MS]; auto. }
      destruct b, b'; intuition congruence.
  Qed.

  Lemma mapM_take_map : forall (x0 : arr V) bp, mapM (fun row => take1 row 0) x0 = Ok bp -> mapM (fun row => take1 row 0) (map (map phi) x0) = Ok (map phi bp).
  Proof.
    induction x0 as [|r x0 IH]; cbn; intros bp H; [injection H as <-; auto|].
    apply bind_ok in H. destruct H as (v & H1 & H). apply bind_ok in H. destruct H as (vs & H2 & H). injection H as <-.
    rewrite take1_map, H1. cbn [bind]. rewrite (IH _ H2). reflexivity.
  Qed.

  Lemma repeat_map : forall A B (g : A -> B) a n, map g (repeat a n) = repeat (g a) n.
  Proof. induction n; cbn; congruence. Qed.

  Lemma init_conv : forall x0 checked alpha sigma lamda dt perm0 names extra save s s',
    init c x0 checked alpha sigma lamda dt perm0 names extra save = Ok s ->
    init c' (map (map phi) x0) checked (al alpha) (u_sigma uu sigma) (u_lamda uu lamda) (tm dt) perm0 names extra save = Ok s' -> converted uu s s' /\ s_x s = x0.
  Proof.
    intros x0 checked alpha sigma lamda dt perm0 names extra save s s' H1 H2.
    unfold init in H1, H2. apply bind_ok in H1, H2. destruct H1 as (bp & B1 & H1). destruct H2 as (bpt & B2 & H2).
    rewrite (mapM_take_map _ _ B1) in B2. injection B2 as <-. rewrite map_length, shape1_map in H2.
    injection H1 as E1. injection H2 as E2.
    match type of E1 with init_history _ _ _ ?s1 = _ => destruct (init_history_char names extra save s1) as (ts & h & E & _ & _) end.
    rewrite E in E1. clear E. rewrite <- E1. clear E1 s.
    match type of E2 with init_history _ _ _ ?s1 = _ => destruct (init_history_char names extra save s1) as (ts2 & h2 & E & _ & _) end.
    rewrite E in E2. clear E. rewrite <- E2. clear E2 s'. destruct (q_b EQ) as (B & _).
    split; [|reflexivity].
    destruct (q_inf EQ) as [Q1 Q2]. constructor; cbn; auto; rewrite ?repeat_map, ?Q1, ?Q2, ?B, ?(q_t0 EQ); auto.
  Qed.

  Lemma both_gen : forall s s', both uu c c' (fun t => Q t /\ (forall row v, In row (s_x t) -> In v row -> PV v)) QO s s' ->
    (exists log log', exec c s log /\ exec c' s' log') /\ Q s /\ (forall row v, In row (s_x s) -> In v row -> PV v) /\ converted uu s s'.
  Proof.
    intros s s' H. destruct (q_b EQ) as (B1 & B2 & B3).
    induction H as [x0 chk ala sg la dt perm0 names extra save s s' HA HN HB HP HSV HI HI' [HQ HV]
      |s s' o s1 s1' H ((log & log' & E & E') & HQ & HV & IM) P HO HS HS'
      |s s' b b' s1 s1' H ((log & log' & E & E') & HQ & HV & IM) HT HT'
      |s s' ala sg la d H ((log & log' & E & E') & HQ & HV & IM) HAL [HQ2 HV2]
      |s s' H ((log & log' & E & E') & HQ & HV & IM)].
    - destruct (init_conv _ _ _ _ _ _ _ _ _ _ _ _ HI HI') as [IM _]. split; [|auto]. exists [], []. split.
      + apply ex_init. exists x0, chk, ala, sg, la, dt, perm0, names, extra, save. repeat (split; [assumption|]). assumption.
      + apply ex_init. exists (map (map phi) x0), chk, (u_alpha uu ala), (u_sigma uu sg), (u_lamda uu la), (tm dt), perm0, names, extra, save. rewrite map_length, shape1_map, B1. split.
        { destruct HA as [_ HA]. split; [apply map_length|]. apply Forall_map. eapply Forall_impl; [|exact HA]. cbn. intros r Hr. rewrite map_length. auto. }
        repeat (split; [assumption|]). assumption.
    - destruct (step_conv s log s' log' o s1 s1' E E' P HQ HO HV IM HS HS') as [IM2 HV2].
      set (o' := {| o_z := fun k n => chi (o_z o k n); o_perm := o_perm o |}) in *.
      assert (P' : perms_valid o' s').
      { intros m Hm. rewrite (cv_M _ _ _ IM) in Hm. rewrite (cv_N _ _ _ IM). apply P. auto. }
      split; [|split; [|split]]; auto.
      + exists (log ++ evaluated s s1), (log' ++ evaluated s' s1'). split; econstructor; eauto.
      + destruct (step_char c o s (exec_wf _ _ _ E) (perms_valid_ok _ _ P) (or_introl (proj1 (q_one EQ))) (proj1 (q_plain EQ))) as
          (t & HSt & _ & (M1 & N1 & Al1 & Sg1 & La1 & D1 & _) & _).
        rewrite HS in HSt. injection HSt as <-. apply (q_Q EQ s); auto.
    - destruct (term_conv s s' b b' s1 s1' (exec_wf _ _ _ E) (exec_wf _ _ _ E') IM HT HT') as [IM2 _].
      destruct (terminate_char _ _ _ _ HT) as (act & reason & ES & _).
      split; [exists log, log'; split; econstructor; eauto|]. split; [|split]; auto.
      + apply (q_Q EQ s); auto; rewrite ES; destruct s; reflexivity.
      + rewrite ES. destruct s; auto.
    - split; [exists log, log'; split|].
      + eapply ex_params; eauto. exists ala, sg, la, d. split; auto.
      + eapply ex_params; eauto. exists (map (map (u_alpha uu)) ala), (u_sigma uu sg), (u_lamda uu la), (tm d). rewrite (cv_M _ _ _ IM). split; [|auto]. intros _. destruct HAL as [L1 L2]. split; [rewrite map_length; auto|]. apply Forall_map. eapply Forall_impl; [|exact L2]. cbn. intros r Hr. rewrite map_length. auto.
      + split; auto. split; auto. destruct IM. destruct s, s'. constructor; cbn in *; auto.
    - destruct (reset_char s) as (ts & h & E1 & _). destruct (reset_char s') as (ts2 & h2 & E2 & _).
      split; [exists log, log'; split; apply ex_reset; auto|]. split; [|split].
      + apply (q_Q EQ s); auto; rewrite E1; destruct s; reflexivity.
      + rewrite E1. destruct s; auto.
      + rewrite E1, E2. destruct IM. destruct s, s'. constructor; cbn in *; auto. split; auto. symmetry. apply (q_t0 EQ).
  Qed.
End Units.
