(** * Two dynamics driven by the same calls, with consensus points per particle

    As TwinFacts.v, but the consensus rows may have one point or one point per particle. *)
From Coq Require Import String List Arith Bool Permutation Lia.
From Verif Require Import Scalar Np NpFacts State Pdyn PdynFacts PdynStep PdynRun PdynOk Exec RunFacts TermSpec TermFacts MoveFacts TwinSpec TwinFacts PolarRunSpec.
Import ListNotations.
Open Scope nat_scope.
Open Scope list_scope.

Lemma rowop_spread : forall A B C (f : A -> B -> C) x y, rowop f x y = map2 f x (spread (length x) y).
Proof.
  intros A B C f x y. destruct y as [|b [|b' y]]; cbn; auto. induction x; cbn; auto. rewrite IHx. auto.
Qed.

Section TwinRow.
  Context {K V : Type} {O : KOps K} {OL : KOrd K}.
  Notation F := (fl K).
  Notation st := (st K V).
  Notation cfg := (cfg K V).
  Notation orc := (orc V).
  Variables (phi chi : V -> V) (psi : F -> F) (c c' : cfg).
  (** points, draws, parameters and values of alpha the laws are needed for *)
  Variables (PV : V -> Prop) (QO : orc -> Prop) (Q : st -> Prop).

  Record row_equivariant : Prop := {
    rq_b : c_bsize c' = c_bsize c /\ c_partial c' = c_partial c /\ c_concat c' = c_concat c;
    rq_shape : forall s : st, Q s -> cc_shape c (s_N s) /\ cc_shape c' (s_N s);
    rq_plain : c_corr c = NoCorr /\ c_corr c' = NoCorr;
    rq_crit : c_crit c' = map (image_crit psi) (c_crit c) /\ Forall builtin (c_crit c);
    rq_lt : forall a b, fltb (psi a) (psi b) = fltb a b;
    rq_nan : forall a, is_nan (psi a) = is_nan a;
    rq_inf : psi PInf = PInf;
    rq_f : forall v, PV v -> c_f c' (phi v) = psi (c_f c v);
    rq_cc : forall (s : st) m a X n, Q s -> m < s_M s -> nth_error (s_alpha s) m = Some [a] -> X <> [] -> (forall v, In v X -> PV v) ->
      (n = length X \/ (c_bsize c <> s_N s /\ c_partial c = false)) ->
      spread n (c_ccrow c' (map psi (map (c_f c) X)) (map phi X) a) = map phi (spread n (c_ccrow c (map (c_f c) X) X a)) /\
      length (spread n (c_ccrow c (map (c_f c) X) X a)) = n /\ forall v, In v (spread n (c_ccrow c (map (c_f c) X) X a)) -> PV v;
    rq_moved : forall (s s' : st) o k n cp v, Q s -> QO o -> s_lamda s' = s_lamda s -> s_dt s' = s_dt s -> s_sigma s' = s_sigma s ->
      PV cp -> PV v -> moved c' s' (phi cp) (phi v) (chi (o_z o k n)) = phi (moved c s cp v (o_z o k n)) /\ PV (moved c s cp v (o_z o k n));
    rq_pp : forall v, PV v -> c_pp c' (phi v) = phi (c_pp c v) /\ PV (c_pp c v);
    rq_norm : forall l l', (forall v, In v l -> PV v) -> (forall v, In v l' -> PV v) ->
      c_norm c' (map2 (c_vsub c') (map phi l) (map phi l')) = c_norm c (map2 (c_vsub c) l l');
    rq_Q : forall s s' : st, s_N s' = s_N s -> s_alpha s' = s_alpha s -> s_lamda s' = s_lamda s -> s_dt s' = s_dt s -> s_sigma s' = s_sigma s -> s_M s' = s_M s -> Q s -> Q s' }.

  Hypothesis EQ : row_equivariant.

  Definition rmap (r : rowst) : rowst (K := K) (V := V) :=
    mkrow (map phi (r_x r)) (map psi (r_e r)) (r_a r) (psi (r_be r)) (phi (r_bp r)) (r_nfe r) (r_ud r) (psi (r_fmin r))
          (option_map psi (r_bce r)) (option_map phi (r_bcp r)).

  Lemma argmin_from_map : forall l i bi bv, argmin_from i bi (psi bv) (map psi l) = (fst (argmin_from i bi bv l), psi (snd (argmin_from i bi bv l))).
  Proof.
    induction l as [|a l IH]; intros; cbn; auto. rewrite !(rq_nan EQ), (rq_lt EQ).
    destruct (is_nan bv); auto. destruct (is_nan a); auto. destruct (fltb a bv); auto.
  Qed.
  Lemma argmin_map : forall l am, argmin l = Ok am -> argmin (map psi l) = Ok (fst am, psi (snd am)).
  Proof. intros [|a l] am H; [discriminate|]. cbn in *. injection H as <-. rewrite argmin_from_map. auto. Qed.

  Lemma post_map : forall xo r r', (forall v, In v xo -> PV v) -> (forall v, In v (r_x r) -> PV v) ->
    run_post c xo r = Ok r' -> run_post c' (map phi xo) (rmap r) = Ok (rmap r') /\ (forall v, In v (r_x r') -> PV v).
  Proof.
    intros xo r r' Ho Hx H. pose proof (run_post_x _ _ _ _ H) as HX.
    assert (PX : forall v, In v (map (c_pp c) (r_x r)) -> PV v).
    { intros v Hv. apply in_map_iff in Hv. destruct Hv as (u & <- & Hu). apply (rq_pp EQ). auto. }
    split; [|rewrite HX; exact PX].
    unfold run_post in *. cbn [rmap r_x r_e r_be r_bp r_nfe r_a].
    apply bind_ok in H. destruct H as (am & H1 & H). apply bind_ok in H. destruct H as (p & H2 & H). apply bind_ok in H. destruct H as (e & H3 & H).
    rewrite (argmin_map _ _ H1). cbn [bind fst snd]. rewrite !take1_map, H2, H3. cbn [bind]. injection H as <-.
    rewrite (rq_lt EQ). unfold rmap. cbn.
    assert (E : map (c_pp c') (map phi (r_x r)) = map phi (map (c_pp c) (r_x r))).
    { rewrite !map_map. apply map_ext_in. intros v Hv. apply (rq_pp EQ). auto. }
    rewrite E. rewrite (rq_norm EQ _ xo) by auto. destruct (fltb e (r_be r)); reflexivity.
  Qed.

  Lemma move_map : forall (s s' : st) m o k r sl slp r1 cp d, Q s -> QO o ->
    s_lamda s' = s_lamda s -> s_dt s' = s_dt s -> s_sigma s' = s_sigma s -> row_at s m = Some r -> m < s_M s -> sl <> [] ->
    (length slp = length sl \/ (c_bsize c <> s_N s /\ c_partial c = false)) ->
    (forall v, In v (r_x r) -> PV v) ->
    run_move c (s_lamda s) (s_dt s) (s_sigma s) sl slp (o_z o k) r = Ok (r1, (cp, d)) ->
    exists cp' d', run_move c' (s_lamda s') (s_dt s') (s_sigma s') sl slp (fun n => chi (o_z o k n)) (rmap r) = Ok (rmap r1, (cp', d')) /\
      spread (length sl) cp' = map phi (spread (length sl) cp) /\ (forall v, In v (r_x r1) -> PV v).
  Proof.
    intros s s' m o k r sl slp r1 cp d HQ HO P1 P2 P3 Hr Hm Hsl Hfit Hx H. unfold run_move in *. cbn [rmap r_x r_e r_be r_bp r_nfe r_a r_ud r_fmin r_bce r_bcp].
    destruct (r_a r) as [|a [|]] eqn:Ea; try discriminate.
    apply bind_ok in H. destruct H as (xb & HB & H). apply bind_ok in H. destruct H as (er & HE & H).
    apply bind_ok in H. destruct H as (xp & HP & H). cbv zeta in H. apply bind_ok in H. destruct H as (xr & HX & H).
    rewrite (takeM_map _ _ phi _ _ _ HB). cbn [bind].
    assert (PB : forall v, In v xb -> PV v) by (intros v Hv; apply Hx; exact (takeM_In _ _ _ _ _ HB Hv)).
    assert (PP : forall v, In v xp -> PV v) by (intros v Hv; apply Hx; exact (takeM_In _ _ _ _ _ HP Hv)).
    pose proof (takeM_length _ _ _ _ HB) as LB. pose proof (takeM_length _ _ _ _ HP) as LP.
    assert (NB : xb <> []).
    { intros ->. destruct sl; [congruence|discriminate]. }
    assert (EF : map (c_f c') (map phi xb) = map psi (map (c_f c) xb)).
    { rewrite !map_map. apply map_ext_in. intros v Hv. apply (rq_f EQ). auto. }
    rewrite EF.
    assert (Ea' : nth_error (s_alpha s) m = Some [a]). { destruct (row_at_fields _ _ _ Hr) as (_ & E2 & _). rewrite E2, Ea. auto. }
    assert (HF1 : length xp = length xb \/ (c_bsize c <> s_N s /\ c_partial c = false)) by (rewrite LB, LP; auto).
    destruct (rq_cc EQ s m a xb (length xp) HQ Hm Ea' NB PB HF1) as (C1 & C2 & C3).
    destruct (rq_cc EQ s m a xb (length xb) HQ Hm Ea' NB PB (or_introl eq_refl)) as (D1 & _ & _). rewrite LB in D1.
    rewrite (put1_map _ _ psi _ _ _ _ HE). cbn [bind]. rewrite (takeM_map _ _ phi _ _ _ HP). cbn [bind]. rewrite !rowop_spread in *.
    rewrite map_length, C1.
    set (L := spread (length xp) (c_ccrow c (map (c_f c) xb) xb a)) in *.
    assert (EM : map2 (c_vadd c') (map phi xp) (mapi (fun n v => cbo_update c' v (s_lamda s') (s_dt s') (s_sigma s') (c_noise c' (s_dt s') v (chi (o_z o k n)))) (map2 (c_vsub c') (map phi xp) (map phi L))) =
                 map phi (map2 (c_vadd c) xp (mapi (fun n v => cbo_update c v (s_lamda s) (s_dt s) (s_sigma s) (c_noise c (s_dt s) v (o_z o k n))) (map2 (c_vsub c) xp L)))).
    { apply nth_error_ext. intros n. rewrite nth_error_map, !map2_nth, !mapi_nth, !map2_nth, !nth_error_map.
      destruct (nth_error xp n) as [v|] eqn:En; cbn [option_map]; auto. destruct (nth_error L n) as [q|] eqn:Eq; cbn [option_map]; auto. f_equal.
      apply (rq_moved EQ s s' o k n q v); auto; [apply C3|apply PP]; eapply nth_error_In; eauto. }
    rewrite EM, (put1_map _ _ phi _ _ _ _ HX). cbn [bind]. injection H as <- <- <-.
    eexists. eexists. split; [reflexivity|]. split; [exact D1|]. cbn [r_x].
    intros v Hv. apply In_nth_error in Hv. destruct Hv as (n & Hn).
    assert (LL : length (map2 (c_vadd c) xp (mapi (fun n v => cbo_update c v (s_lamda s) (s_dt s) (s_sigma s) (c_noise c (s_dt s) v (o_z o k n))) (map2 (c_vsub c) xp L))) = length slp).
    { rewrite map2_length, mapi_length, map2_length. lia. }
    rewrite (put1_nth _ _ _ _ _ n LL HX) in Hn. destruct (last_index n slp) as [i|].
    - destruct (n <? length (r_x r)); [|discriminate]. rewrite map2_nth, mapi_nth, map2_nth in Hn. destruct (nth_error xp i) as [u|] eqn:Eu; [|discriminate].
      destruct (nth_error L i) as [q|] eqn:Eq; [|discriminate].
      injection Hn as <-. apply (rq_moved EQ s s o k i q u); auto; [apply C3|apply PP]; eapply nth_error_In; eauto.
    - apply Hx. eapply nth_error_In; eauto.
  Qed.

  Lemma same_row : forall s s' m r, same_run phi psi (c_bsize c) s s' -> (forall k, k < s_M s -> True) -> row_at s m = Some r ->
    exists bce bcp, row_at s' m = Some (mkrow (map phi (r_x r)) (map psi (r_e r)) (r_a r) (psi (r_be r)) (phi (r_bp r)) (r_nfe r) (r_ud r) (psi (r_fmin r)) bce bcp).
  Proof.
    intros s s' m r H _ Hr. destruct (row_at_lt _ _ _ Hr) as (_ & A1 & A2 & A3 & A4 & A5 & A6 & A7 & A8 & _).
    destruct H. unfold row_at. rewrite sr_x, sr_energy, sr_alpha, sr_be, sr_bp, sr_nfe, sr_udiff, sr_fmin.
    rewrite !nth_error_map, A1, A2, A3, A4, A5, A6, A7, A8. cbn. eauto.
  Qed.

  (** r_bce and r_bcp are overwritten by run_post and do not matter for run_move *)
  Lemma post_forget : forall (cc : cfg) xo r bce bcp, run_post cc xo (mkrow (r_x r) (r_e r) (r_a r) (r_be r) (r_bp r) (r_nfe r) (r_ud r) (r_fmin r) bce bcp) = run_post cc xo r.
  Proof. intros. reflexivity. Qed.
  Lemma move_forget : forall (cc : cfg) l d g sl slp z r bce bcp r1 p, run_move cc l d g sl slp z r = Ok (r1, p) ->
    run_move cc l d g sl slp z (mkrow (r_x r) (r_e r) (r_a r) (r_be r) (r_bp r) (r_nfe r) (r_ud r) (r_fmin r) bce bcp) =
    Ok (mkrow (r_x r1) (r_e r1) (r_a r1) (r_be r1) (r_bp r1) (r_nfe r1) (r_ud r1) (r_fmin r1) bce bcp, p).
  Proof.
    intros cc l d g sl slp z r bce bcp r1 p H. unfold run_move in *. cbn [r_x r_e r_be r_bp r_nfe r_a r_ud r_fmin r_bce r_bcp].
    destruct (r_a r) as [|a [|]]; try discriminate.
    apply bind_ok in H. destruct H as (xb & HB & H). rewrite HB. cbn [bind]. apply bind_ok in H. destruct H as (er & HE & H). rewrite HE. cbn [bind].
    apply bind_ok in H. destruct H as (xp & HP & H). rewrite HP. cbn [bind]. cbv zeta in H. apply bind_ok in H. destruct H as (xr & HX & H). rewrite HX. cbn [bind].
    injection H as <- <-. reflexivity.
  Qed.

  Lemma rows_eq : forall A (l l' : list A) n, length l = n -> length l' = n -> (forall m, m < n -> nth_error l' m = nth_error l m) -> l' = l.
  Proof.
    intros A l l' n H1 H2 H. apply nth_error_ext. intros m. destruct (Nat.lt_ge_cases m n); auto.
    rewrite !(proj2 (nth_error_None _ _)); auto; lia.
  Qed.

  Theorem step_same : forall s log s' log' o s1 s1', exec c s log -> exec c' s' log' -> perms_valid o s -> Q s -> QO o ->
    (forall row v, In row (s_x s) -> In v row -> PV v) -> same_run phi psi (c_bsize c) s s' ->
    step c o s = Ok s1 -> step c' {| o_z := fun k n => chi (o_z o k n); o_perm := o_perm o |} s' = Ok s1' ->
    same_run phi psi (c_bsize c) s1 s1' /\ (forall row v, In row (s_x s1) -> In v row -> PV v).
  Proof.
    intros s log s' log' o s1 s1' E E' P HQ HO HPV IM HS HS'.
    pose proof (exec_wf _ _ _ E) as W. pose proof (exec_wf _ _ _ E') as W'.
    set (o' := {| o_z := fun k n => chi (o_z o k n); o_perm := o_perm o |}) in *.
    assert (P' : perms_valid o' s').
    { intros m Hm. rewrite (sr_M _ _ _ _ _ IM) in Hm. rewrite (sr_N _ _ _ _ _ IM). apply P. auto. }
    destruct (rq_shape EQ s HQ) as [G G']. destruct (rq_plain EQ) as [NC NC']. destruct (rq_b EQ) as (B1 & B2 & B3).
    destruct (step_char c o s W (perms_valid_ok _ _ P) G NC) as
      (t & HSt & Wt & (M1 & N1 & Al1 & Sg1 & La1 & D1 & T1 & I1 & Ac1 & _) & Hi1 & Hi2 & (cp & d & Ec & Ed & Lc & _ & Hact) & Hina & _).
    rewrite HS in HSt. injection HSt as <-.
    destruct (step_char c' o' s' W' (perms_valid_ok _ _ P') ltac:(rewrite (sr_N _ _ _ _ _ IM); exact G') NC') as
      (t & HSt & Wt' & (M1' & N1' & Al1' & Sg1' & La1' & D1' & T1' & I1' & Ac1' & _) & Hi1' & Hi2' & (cp' & d' & Ec' & Ed' & Lc' & _ & Hact') & Hina' & _).
    rewrite HS' in HSt. injection HSt as <-.
    destruct (sr_par _ _ _ _ _ IM) as (Pa1 & Pa2 & Pa3). destruct (sr_time _ _ _ _ _ IM) as (Tm1 & Tm2).
    pose proof (sr_M _ _ _ _ _ IM) as IMM. pose proof (sr_N _ _ _ _ _ IM) as IMN. pose proof (sr_active _ _ _ _ _ IM) as IMA. pose proof (sr_ind _ _ _ _ _ IM) as IMI.
    assert (Hsel : forall m, run_sel c' o' s' m = run_sel c o s m /\ run_selp c' o' s' m = run_selp c o s m).
    { intros m. unfold run_sel, run_selp, ind_next. rewrite B1, B2, B3, IMN, IMI. split; reflexivity. }
    assert (Hsln : forall m, m < s_M s -> run_sel c o s m <> []).
    { intros m Hm Hnil. pose proof (run_sel_length c o s m W (perms_valid_ok _ _ P) Hm) as L. rewrite Hnil in L. destruct W. cbn in L. lia. }
    (* rows *)
    assert (ROW : forall m, m < s_M s -> exists r r', row_at s m = Some r /\ row_at s1 m = Some r' /\ row_at s1' m = Some (rmap r') /\ (forall v, In v (r_x r') -> PV v) /\
              forall k, nth_error (s_active s) k = Some m -> exists q q', nth_error cp k = Some q /\ nth_error cp' k = Some q' /\ spread (c_bsize c) q' = map phi (spread (c_bsize c) q)).
    { intros m Hm. destruct (row_at_Some c s m W Hm) as (r & Er & _).
      destruct (same_row s s' m r IM (fun _ _ => I) Er) as (bce & bcp & Er').
      assert (PX : forall v, In v (r_x r) -> PV v).
      { intros v Hv. destruct (row_at_fields _ _ _ Er) as (A1 & _). eapply HPV; eauto. eapply nth_error_In; eauto. }
      destruct (in_dec Nat.eq_dec m (s_active s)) as [Hin|Hni].
      - destruct (In_nth_error _ _ Hin) as (k & Hk).
        destruct (Hact _ _ _ Hk Er) as (r1 & cpr & dr & r' & Q1 & Q2 & Q3 & Q4 & Q5).
        assert (Hk' : nth_error (s_active s') k = Some m) by congruence.
        destruct (Hact' _ _ _ Hk' Er') as (r1' & cpr' & dr' & r'' & Q1' & Q2' & Q3' & Q4' & Q5').
        destruct (Hsel m) as [S1 S2]. rewrite S1, S2 in Q1'.
        pose proof (run_sel_length c o s m W (perms_valid_ok _ _ P) Hm) as LS.
        assert (FIT : length (run_selp c o s m) = length (run_sel c o s m) \/ (c_bsize c <> s_N s /\ c_partial c = false)).
        { unfold run_selp, run_sel. destruct (Nat.eqb_spec (c_bsize c) (s_N s)); auto. destruct (c_partial c); auto. }
        destruct (move_map s s' m o k r _ _ r1 cpr dr HQ HO Pa2 Pa3 Pa1 Er Hm (Hsln m Hm) FIT PX Q1) as (cp2 & d2 & MM & MC & PX1). rewrite LS in MC.
        apply (move_forget _ _ _ _ _ _ _ _ bce bcp) in MM. cbn [rmap r_x r_e r_be r_bp r_nfe r_a r_ud r_fmin r_bce r_bcp] in MM.
        cbn [o' o_z] in Q1'. rewrite MM in Q1'. injection Q1' as <- <- <-.
        destruct (post_map (r_x r) r1 r' PX PX1 Q4) as (PM & PX2).
        cbn [r_x] in Q4'. rewrite <- (post_forget c' (map phi (r_x r)) (rmap r1) bce bcp) in PM.
        cbn [rmap r_x r_e r_be r_bp r_nfe r_a r_ud r_fmin r_bce r_bcp] in PM. rewrite PM in Q4'. injection Q4' as <-.
        exists r, r'. split; auto. split; auto. split; auto. split; auto.
        intros k2 Hk2. assert (k2 = k). { apply (proj1 (NoDup_nth_error (s_active s))); [apply incr_NoDup; apply W| eapply nth_error_lt; eauto|congruence]. }
        subst k2. eauto 6.
      - destruct (Hina _ _ Hni Er) as (r' & Q4 & Q5).
        assert (Hni' : ~ In m (s_active s')) by congruence.
        destruct (Hina' _ _ Hni' Er') as (r'' & Q4' & Q5').
        destruct (post_map (r_x r) r r' PX PX Q4) as (PM & PX2).
        cbn [r_x] in Q4'. rewrite <- (post_forget c' (map phi (r_x r)) (rmap r) bce bcp) in PM.
        cbn [rmap r_x r_e r_be r_bp r_nfe r_a r_ud r_fmin r_bce r_bcp] in PM. rewrite PM in Q4'. injection Q4' as <-.
        exists r, r'. split; auto. split; auto. split; auto. split; auto. intros k Hk. exfalso. apply Hni. eapply nth_error_In; eauto. }
    assert (RF : forall m, m < s_M s -> exists r', row_at s1 m = Some r' /\ row_at s1' m = Some (rmap r')).
    { intros m Hm. destruct (ROW m Hm) as (r & r' & _ & H1 & H2 & _). eauto. }
    split.
    - constructor; try congruence.
      + apply (rows_eq _ _ _ (s_M s)); [rewrite map_length, (proj1 (w_x _ _ Wt)); auto|rewrite (proj1 (w_x _ _ Wt')); congruence|].
        intros m Hm. destruct (RF m Hm) as (r & H1 & H2). apply row_at_lt in H1, H2. rewrite nth_error_map. destruct H1 as (_ & -> & _), H2 as (_ & -> & _). auto.
      + apply (rows_eq _ _ _ (s_M s)); [rewrite map_length, (proj1 (w_e _ _ Wt)); auto|rewrite (proj1 (w_e _ _ Wt')); congruence|].
        intros m Hm. destruct (RF m Hm) as (r & H1 & H2). apply row_at_lt in H1, H2. rewrite nth_error_map. destruct H1 as (_ & _ & -> & _), H2 as (_ & _ & -> & _). auto.
      + apply (rows_eq _ _ _ (s_M s)); [rewrite map_length, (w_be _ _ Wt); auto|rewrite (w_be _ _ Wt'); congruence|].
        intros m Hm. destruct (RF m Hm) as (r & H1 & H2). apply row_at_lt in H1, H2. rewrite nth_error_map. destruct H1 as (_ & _ & _ & _ & -> & _), H2 as (_ & _ & _ & _ & -> & _). auto.
      + apply (rows_eq _ _ _ (s_M s)); [rewrite map_length, (w_bp _ _ Wt); auto|rewrite (w_bp _ _ Wt'); congruence|].
        intros m Hm. destruct (RF m Hm) as (r & H1 & H2). apply row_at_lt in H1, H2. rewrite nth_error_map. destruct H1 as (_ & _ & _ & _ & _ & -> & _), H2 as (_ & _ & _ & _ & _ & -> & _). auto.
      + apply (rows_eq _ _ _ (s_M s)); [rewrite map_length, (w_fmin _ _ Wt); auto|rewrite (w_fmin _ _ Wt'); congruence|].
        intros m Hm. destruct (RF m Hm) as (r & H1 & H2). apply row_at_lt in H1, H2. rewrite nth_error_map. destruct H1 as (_ & _ & _ & _ & _ & _ & _ & _ & -> & _), H2 as (_ & _ & _ & _ & _ & _ & _ & _ & -> & _). auto.
      + apply (rows_eq _ _ _ (s_M s)); [rewrite (w_ud _ _ Wt); auto|rewrite (w_ud _ _ Wt'); congruence|].
        intros m Hm. destruct (RF m Hm) as (r & H1 & H2). apply row_at_lt in H1, H2. destruct H1 as (_ & _ & _ & _ & _ & _ & _ & -> & _), H2 as (_ & _ & _ & _ & _ & _ & _ & -> & _). auto.
      + apply (rows_eq _ _ _ (s_M s)); [rewrite (w_nfe _ _ Wt); auto|rewrite (w_nfe _ _ Wt'); congruence|].
        intros m Hm. destruct (RF m Hm) as (r & H1 & H2). apply row_at_lt in H1, H2. destruct H1 as (_ & _ & _ & _ & _ & _ & -> & _), H2 as (_ & _ & _ & _ & _ & _ & -> & _). auto.
      + rewrite Ec, Ec'. cbn. f_equal. apply (rows_eq _ _ _ (length (s_active s))); [rewrite map_length; auto|rewrite map_length; congruence|].
        intros k Hk. destruct (nth_error_lt_Some _ _ _ Hk) as (m & Hm). assert (m < s_M s) by (apply W; eapply nth_error_In; eauto).
        destruct (ROW m H) as (r & r' & _ & _ & _ & _ & HC). destruct (HC k Hm) as (q & q' & H3 & H4 & H5). rewrite !nth_error_map, H3, H4. cbn. f_equal. exact H5.
      + destruct (Nat.eq_dec (c_bsize c) (s_N s)) as [Hb|Hb]; [rewrite (Hi1 Hb), Hi1'; congruence|].
        assert (Hb' : c_bsize c' <> s_N s') by congruence.
        assert (Hb1 : c_bsize c <> s_N s1) by congruence. assert (Hb1' : c_bsize c' <> s_N s1') by congruence.
        apply (rows_eq _ _ _ (s_M s)); [rewrite (proj1 (w_ind _ _ Wt Hb1)); auto|rewrite (proj1 (w_ind _ _ Wt' Hb1')); congruence|].
        intros m Hm. rewrite (Hi2 Hb m Hm), (Hi2' Hb') by congruence. unfold ind_next. rewrite B1, B3, IMI. reflexivity.
      + rewrite Al1, Al1'. apply IM.
      + rewrite Sg1, Sg1', La1, La1', D1, D1'. auto.
      + rewrite T1, T1', I1, I1'. split; congruence.
    - intros row v Hr Hv. apply In_nth_error in Hr. destruct Hr as (m & Hm).
      assert (Lm : m < s_M s). { rewrite <- M1, <- (proj1 (w_x _ _ Wt)). eapply nth_error_lt; eauto. }
      destruct (ROW m Lm) as (r & r' & _ & H1 & _ & H2 & _). apply row_at_lt in H1. destruct H1 as (_ & H1 & _). rewrite H1 in Hm. injection Hm as <-. auto.
  Qed.

  Lemma term_same : forall s s' b b' s1 s1', wf c s -> wf c' s' -> same_run phi psi (c_bsize c) s s' ->
    terminate c s = Ok (b, s1) -> terminate c' s' = Ok (b', s1') -> same_run phi psi (c_bsize c) s1 s1' /\ b = b'.
  Proof.
    intros s s' b b' s1 s1' W W' IM H H'.
    assert (MS : forall m, meets_some c' s' m = meets_some c s m).
    { intros m. unfold meets_some. destruct (rq_crit EQ) as [-> HB]. revert HB. generalize (c_crit c). induction 1 as [|k ks Hk _ IH]; cbn [map existsb]; auto.
      rewrite IH. f_equal. destruct (sr_time _ _ _ _ _ IM) as (Tm1 & Tm2). destruct (rq_b EQ) as (B1 & _).
      destruct k as [tol|tol|B|[n|]|T|g]; cbn in Hk; try contradiction; cbn [image_crit holds]; rewrite ?B1, ?Tm1, ?Tm2, ?(sr_udiff _ _ _ _ _ IM), ?(sr_nfe _ _ _ _ _ IM); auto.
      rewrite (sr_fmin _ _ _ _ _ IM), nth_error_map. destruct (nth_error (s_fmin s) m); cbn; auto. apply (rq_lt EQ). }
    destruct (terminate_spec c s b s1 W H) as (A1 & A2 & _ & A3). destruct (terminate_spec c' s' b' s1' W' H') as (B1 & B2 & _ & B3).
    rewrite (sr_M _ _ _ _ _ IM) in *.
    assert (EA : s_active s1' = s_active s1). { rewrite A1, B1. apply filter_ext. intros m. rewrite MS. auto. }
    split.
    - clear - A3 B3 EA IM. rewrite A3, B3. revert EA. generalize (s_reason s1') (s_active s1') (s_reason s1) (s_active s1). intros r1 a1 r2 a2 ->.
      destruct IM. destruct s, s'. constructor; cbn in *; auto.
    - assert (X : b = true <-> b' = true). { rewrite A2, B2. split; intros HH m Hm; [rewrite MS|rewrite <- MS]; auto. }
      destruct b, b'; intuition congruence.
  Qed.

  Lemma mapM_take_map : forall (x0 : arr V) bp, mapM (fun row => take1 row 0) x0 = Ok bp -> mapM (fun row => take1 row 0) (map (map phi) x0) = Ok (map phi bp).
  Proof.
    induction x0 as [|r x0 IH]; cbn; intros bp H; [injection H as <-; auto|].
    apply bind_ok in H. destruct H as (v & H1 & H). apply bind_ok in H. destruct H as (vs & H2 & H). injection H as <-.
    rewrite take1_map, H1. cbn [bind]. rewrite (IH _ H2). reflexivity.
  Qed.

  Lemma repeat_map : forall A B (g : A -> B) a n, map g (repeat a n) = repeat (g a) n.
  Proof. induction n; cbn; congruence. Qed.

  Lemma init_same : forall x0 checked alpha sigma lamda dt perm0 names extra save s s',
    init c x0 checked alpha sigma lamda dt perm0 names extra save = Ok s ->
    init c' (map (map phi) x0) checked alpha sigma lamda dt perm0 names extra save = Ok s' -> same_run phi psi (c_bsize c) s s' /\ s_x s = x0.
  Proof.
    intros x0 checked alpha sigma lamda dt perm0 names extra save s s' H1 H2.
    unfold init in H1, H2. apply bind_ok in H1, H2. destruct H1 as (bp & B1 & H1). destruct H2 as (bpt & B2 & H2).
    rewrite (mapM_take_map _ _ B1) in B2. injection B2 as <-. rewrite map_length, shape1_map in H2.
    injection H1 as E1. injection H2 as E2.
    match type of E1 with init_history _ _ _ ?s1 = _ => destruct (init_history_char names extra save s1) as (ts & h & E & _ & _) end.
    rewrite E in E1. clear E. rewrite <- E1. clear E1 s.
    match type of E2 with init_history _ _ _ ?s1 = _ => destruct (init_history_char names extra save s1) as (ts2 & h2 & E & _ & _) end.
    rewrite E in E2. clear E. rewrite <- E2. clear E2 s'. destruct (rq_b EQ) as (B & _).
    split; [|reflexivity].
    constructor; cbn; auto; rewrite ?repeat_map, ?(rq_inf EQ), ?B; auto.
  Qed.

  Lemma paired_same : forall s s', paired phi c c' chi (fun t => Q t /\ (forall row v, In row (s_x t) -> In v row -> PV v)) QO s s' ->
    (exists log log', exec c s log /\ exec c' s' log') /\ Q s /\ (forall row v, In row (s_x s) -> In v row -> PV v) /\ same_run phi psi (c_bsize c) s s'.
  Proof.
    intros s s' H. destruct (rq_b EQ) as (B1 & B2 & B3).
    induction H as [x0 chk al sg la dt perm0 names extra save s s' HA HN HB HP HSV HI HI' [HQ HV]
      |s s' o s1 s1' H ((log & log' & E & E') & HQ & HV & IM) P HO HS HS'
      |s s' b b' s1 s1' H ((log & log' & E & E') & HQ & HV & IM) HT HT'
      |s s' al sg la d H ((log & log' & E & E') & HQ & HV & IM) HAL [HQ2 HV2]
      |s s' H ((log & log' & E & E') & HQ & HV & IM)].
    - destruct (init_same _ _ _ _ _ _ _ _ _ _ _ _ HI HI') as [IM _]. split; [|auto]. exists [], []. split.
      + apply ex_init. exists x0, chk, al, sg, la, dt, perm0, names, extra, save. repeat (split; [assumption|]). assumption.
      + apply ex_init. exists (map (map phi) x0), chk, al, sg, la, dt, perm0, names, extra, save. rewrite map_length, shape1_map, B1. split.
        { destruct HA as [_ HA]. split; [apply map_length|]. apply Forall_map. eapply Forall_impl; [|exact HA]. cbn. intros r Hr. rewrite map_length. auto. }
        repeat (split; [assumption|]). assumption.
    - destruct (step_same s log s' log' o s1 s1' E E' P HQ HO HV IM HS HS') as [IM2 HV2].
      set (o' := {| o_z := fun k n => chi (o_z o k n); o_perm := o_perm o |}) in *.
      assert (P' : perms_valid o' s').
      { intros m Hm. rewrite (sr_M _ _ _ _ _ IM) in Hm. rewrite (sr_N _ _ _ _ _ IM). apply P. auto. }
      split; [|split; [|split]]; auto.
      + exists (log ++ evaluated s s1), (log' ++ evaluated s' s1'). split; econstructor; eauto.
      + destruct (step_char c o s (exec_wf _ _ _ E) (perms_valid_ok _ _ P) (proj1 (rq_shape EQ s HQ)) (proj1 (rq_plain EQ))) as
          (t & HSt & _ & (M1 & N1 & Al1 & Sg1 & La1 & D1 & _) & _).
        rewrite HS in HSt. injection HSt as <-. apply (rq_Q EQ s); auto.
    - destruct (term_same s s' b b' s1 s1' (exec_wf _ _ _ E) (exec_wf _ _ _ E') IM HT HT') as [IM2 _].
      destruct (terminate_char _ _ _ _ HT) as (act & reason & ES & _).
      split; [exists log, log'; split; econstructor; eauto|]. split; [|split]; auto.
      + apply (rq_Q EQ s); auto; rewrite ES; destruct s; reflexivity.
      + rewrite ES. destruct s; auto.
    - split; [exists log, log'; split|].
      + eapply ex_params; eauto. exists al, sg, la, d. split; auto.
      + eapply ex_params; eauto. exists al, sg, la, d. rewrite (sr_M _ _ _ _ _ IM). split; auto.
      + split; auto. split; auto. destruct IM. destruct s, s'. constructor; cbn in *; auto.
    - destruct (reset_char s) as (ts & h & E1 & _). destruct (reset_char s') as (ts2 & h2 & E2 & _).
      split; [exists log, log'; split; apply ex_reset; auto|]. split; [|split].
      + apply (rq_Q EQ s); auto; rewrite E1; destruct s; reflexivity.
      + rewrite E1. destruct s; auto.
      + rewrite E1, E2. destruct IM. destruct s, s'. constructor; cbn in *; auto.
  Qed.
End TwinRow.
