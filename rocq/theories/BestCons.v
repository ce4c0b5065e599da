(** * The best consensus over the resamplings *)
From Coq Require Import List Arith Bool Lia.
From Verif Require Import Scalar ScalarFacts Np NpFacts State Pdyn PdynFacts MemFacts2 Resampling ResampSpec ResampFacts.
Import ListNotations.

Section BestCons.
  Context {K V : Type} {O : KOps K} {OO : KOrd K}.
  Notation F := (fl K).
  Notation st := (st K V).
  Notation cfg := (cfg K V).

  (** one-column arrays *)
  Lemma put_col : forall A M idx (X Y : arr A), NoDup idx -> (forall m, In m idx -> m < M) -> rect M 1 X -> rect (length idx) 1 Y ->
    exists X', scatter (IRuns idx) X Y = Ok X' /\ rect M 1 X' /\
      (forall k m, nth_error idx k = Some m -> nth_error X' m = nth_error Y k) /\
      (forall m, ~ In m idx -> nth_error X' m = nth_error X m).
  Proof.
    intros A M idx X Y Hnd Hlt RX RY.
    destruct (scatter_rows A idx M 1 (IRuns idx) X Y) as (X' & H1 & H2 & H3 & H4); auto.
    - reflexivity.
    - apply RY.
    - intros k yr E. cbn. apply (proj2 RY _ _ E).
    - exists X'. split; [auto|]. split; [auto|]. split; [|auto].
      intros k m Ek. assert (Hm : m < length X) by (rewrite (proj1 RX); apply Hlt; eapply nth_error_In; eauto).
      assert (Hk : k < length Y) by (rewrite (proj1 RY); eapply nth_error_lt; eauto).
      destruct (nth_error_lt_Some _ _ _ Hm) as [row Er]. destruct (nth_error_lt_Some _ _ _ Hk) as [yr Ey].
      destruct (H3 k m row yr Ek Er Ey) as (row' & E1 & E2). rewrite E1, Ey. f_equal.
      pose proof (proj2 RX _ _ Er) as L1. pose proof (proj2 RY _ _ Ey) as L2.
      cbn [sel] in E2. rewrite <- L1 in E2. rewrite put1_all in E2 by congruence. congruence.
  Qed.

  Lemma take_col : forall A M idx (X : arr A), (forall m, In m idx -> m < M) -> rect M 1 X ->
    exists Y, takeM X idx = Ok Y /\ rect (length idx) 1 Y /\ forall k m, nth_error idx k = Some m -> nth_error Y k = nth_error X m.
  Proof.
    intros A M idx X Hlt RX. destruct (takeM_ok _ X idx) as [Y HY]. { intros i Hi. rewrite (proj1 RX). auto. }
    exists Y. split; [auto|]. pose proof (takeM_length _ _ _ _ HY) as L.
    assert (N : forall k m, nth_error idx k = Some m -> nth_error Y k = nth_error X m) by (intros; eapply takeM_nth; eauto).
    split; [split; [auto|]|auto]. intros k row Er.
    assert (Hk : k < length idx) by (rewrite <- L; eapply nth_error_lt; eauto).
    destruct (nth_error_lt_Some _ _ _ Hk) as [m Em]. rewrite (N _ _ Em) in Er. apply (proj2 RX _ _ Er).
  Qed.

  Lemma rect_map1 : forall A B (f : A -> B) M N X, rect M N X -> rect M N (map (map f) X).
  Proof.
    intros A B f M N X [H1 H2]. split. { rewrite map_length; auto. }
    intros k row E. rewrite nth_error_map in E. destruct (nth_error X k) eqn:E1; [|discriminate].
    injection E as <-. rewrite map_length. eauto.
  Qed.

  (** [b] is the record of run [m] after the calls [l] *)
  Definition record (c : cfg) (l : list (list nat * st)) (m : nat) (bc : arr V) (be : arr F) : Prop :=
    exists v e, nth_error bc m = Some [v] /\ nth_error be m = Some [e] /\
      (forall w, resampled_at l m w -> fltb (c_f c w) e = false) /\
      (e = PInf \/ (resampled_at l m v /\ c_f c v = e)).

  Lemma nth_single : forall A M (X : arr A) m, rect M 1 X -> m < M -> exists v, nth_error X m = Some [v].
  Proof.
    intros A M X m [H1 H2] Hm. rewrite <- H1 in Hm. destruct (nth_error_lt_Some _ _ _ Hm) as [row E].
    pose proof (H2 _ _ E) as L. destruct row as [|v [|]]; try discriminate. eauto.
  Qed.

  Lemma first_call : forall (c : cfg) M idx s, all_runs_active M (idx, s) ->
    exists bc be s', track_best_consensus c idx s None = Ok (Some (bc, be), s') /\ rect M 1 bc /\ rect M 1 be /\
      forall m, m < M -> record c [(idx, s)] m bc be.
  Proof.
    intros c M idx s (HM & Hnd & Hlt & cpt & Ec & Lc & F1). cbn [fst snd] in *.
    assert (Rc : rect M 1 cpt). { split; auto. intros k row E. rewrite Forall_forall in F1. apply F1. eapply nth_error_In; eauto. }
    unfold track_best_consensus. rewrite Ec.
    destruct (take_col _ M idx cpt Hlt Rc) as (pts & E1 & R1 & N1). rewrite E1. cbn [bind]. unfold eval_f.
    assert (R0 : rect M 1 (repeat [@PInf K] (s_M s))).
    { rewrite HM. split; [apply repeat_length|]. intros k row E. apply nth_error_In, repeat_spec in E. subst. auto. }
    destruct (put_col F M idx (repeat [PInf] (s_M s)) (map (map (c_f c)) pts) Hnd Hlt R0 (rect_map1 _ _ _ _ _ _ R1))
      as (be & E2 & R2 & N2 & U2).
    rewrite E2. cbn [bind]. eexists. eexists. eexists. split; [reflexivity|]. split; [auto|]. split; [auto|].
    intros m Hm. destruct (nth_single _ _ _ m Rc Hm) as [v Ev].
    destruct (in_dec Nat.eq_dec m idx) as [Hin|Hni].
    - destruct (In_nth_error _ _ Hin) as [k Ek]. exists v, (c_f c v).
      split; [auto|]. split. { rewrite (N2 _ _ Ek), nth_error_map, (N1 _ _ Ek), Ev. reflexivity. }
      split.
      + intros w (i & s' & cpt' & [H|[]] & _ & H2 & H3). injection H as <- <-. rewrite Ec in H2. injection H2 as <-.
        rewrite Ev in H3. injection H3 as <-. apply fltb_irrefl.
      + right. split; [|reflexivity]. exists idx, s, cpt. repeat split; auto. left; auto.
    - exists v, PInf. split; [auto|]. split.
      { rewrite (U2 _ Hni), nth_error_repeat. destruct (Nat.ltb_spec m (s_M s)); [reflexivity|lia]. }
      split; [|left; auto]. intros w (i & s' & cpt' & [H|[]] & Hi & _). injection H as <- <-. contradiction.
  Qed.

  Lemma next_call : forall (c : cfg) M l idx s bc be, all_runs_active M (idx, s) -> rect M 1 bc -> rect M 1 be ->
    (forall m, m < M -> record c l m bc be) ->
    exists bc' be' s', track_best_consensus c idx s (Some (bc, be)) = Ok (Some (bc', be'), s') /\ rect M 1 bc' /\ rect M 1 be' /\
      forall m, m < M -> record c (l ++ [(idx, s)]) m bc' be'.
  Proof.
    intros c M l idx s bc be (HM & Hnd & Hlt & cpt & Ec & Lc & F1) Rbc Rbe Hrec. cbn [fst snd] in *.
    assert (Rc : rect M 1 cpt). { split; auto. intros k row E. rewrite Forall_forall in F1. apply F1. eapply nth_error_In; eauto. }
    unfold track_best_consensus. rewrite Ec.
    destruct (take_col _ M idx cpt Hlt Rc) as (pts & E1 & R1 & N1). rewrite E1. cbn [bind]. unfold eval_f.
    set (ce := map (map (c_f c)) pts).
    assert (Rce : rect (length idx) 1 ce) by (apply rect_map1; auto).
    destruct (take_col _ M idx be Hlt Rbe) as (old & E2 & R2 & N2). rewrite E2. cbn [bind].
    rewrite (bc2_same _ _ _ (fun a e => fltb a e) _ _ ce old Rce R2). cbn [bind].
    set (cmp := map2 (map2 (fun a e : F => fltb a e)) ce old).
    set (idx2 := np_where (map (existsb (fun q => q)) cmp)).
    assert (Ece : forall k m v, nth_error idx k = Some m -> nth_error cpt m = Some [v] -> nth_error ce k = Some [c_f c v]).
    { intros k m v Ek Ev. unfold ce. rewrite nth_error_map, (N1 _ _ Ek), Ev. reflexivity. }
    assert (W : forall k m v e, nth_error idx k = Some m -> nth_error cpt m = Some [v] -> nth_error be m = Some [e] ->
      (In k idx2 <-> fltb (c_f c v) e = true)).
    { intros k m v e Ek Ev Ee. unfold idx2. rewrite np_where_spec, nth_error_map. unfold cmp. rewrite map2_nth.
      rewrite (Ece _ _ _ Ek Ev), (N2 _ _ Ek), Ee. cbn. rewrite orb_false_r. split; congruence. }
    assert (L2 : forall k, In k idx2 -> k < length idx).
    { intros k Hk. unfold idx2 in Hk. apply np_where_spec in Hk. apply nth_error_lt in Hk. rewrite map_length in Hk.
      unfold cmp in Hk. rewrite map2_length, (proj1 Rce), (proj1 R2) in Hk. lia. }
    assert (ND2 : NoDup idx2) by (apply incr_NoDup, where_from_incr).
    destruct (takeM_ok _ idx idx2 L2) as [sl E3]. rewrite E3. cbn [bind].
    assert (S1 : forall k q, nth_error idx2 q = Some k -> nth_error sl q = nth_error idx k) by (intros; eapply takeM_nth; eauto).
    pose proof (takeM_length _ _ _ _ E3) as Lsl.
    assert (Sin : forall m, In m sl <-> exists k, In k idx2 /\ nth_error idx k = Some m).
    { intros m. split.
      - intros Hi. destruct (In_nth_error _ _ Hi) as [q Eq].
        assert (Hq : q < length idx2) by (rewrite <- Lsl; eapply nth_error_lt; eauto).
        destruct (nth_error_lt_Some _ _ _ Hq) as [k Ek]. rewrite (S1 _ _ Ek) in Eq. exists k. split; auto. eapply nth_error_In; eauto.
      - intros (k & Hk & Ek). destruct (In_nth_error _ _ Hk) as [q Eq]. rewrite <- (S1 _ _ Eq) in Ek. eapply nth_error_In; eauto. }
    assert (NDs : NoDup sl).
    { apply NoDup_nth_error. intros a b Ha Eab. rewrite Lsl in Ha.
      destruct (nth_error_lt_Some _ _ _ Ha) as [ka Ea]. rewrite (S1 _ _ Ea) in Eab.
      assert (Hka : ka < length idx) by (apply L2; eapply nth_error_In; eauto).
      destruct (nth_error idx2 b) as [kb|] eqn:Eb.
      - rewrite (S1 _ _ Eb) in Eab. assert (ka = kb) by (apply (proj1 (NoDup_nth_error idx) Hnd); auto). subst kb.
        apply (proj1 (NoDup_nth_error idx2) ND2); [auto | congruence].
      - apply nth_error_None in Eb. assert (nth_error sl b = None) by (apply nth_error_None; lia).
        destruct (nth_error_lt_Some _ _ _ Hka) as [z Ez]. congruence. }
    assert (Slt : forall m, In m sl -> m < M).
    { intros m Hm. apply Sin in Hm. destruct Hm as (k & _ & Ek). apply Hlt. eapply nth_error_In; eauto. }
    destruct (take_col _ M sl cpt Slt Rc) as (pts2 & E4 & R4 & N4). rewrite E4. cbn [bind].
    destruct (put_col _ M sl bc pts2 NDs Slt Rbc R4) as (bc' & E5 & R5 & N5 & U5). rewrite E5. cbn [bind].
    destruct (take_col _ (length idx) idx2 ce L2 Rce) as (ce2 & E6 & R6 & N6). rewrite E6. cbn [bind].
    rewrite <- Lsl in R6.
    destruct (put_col _ M sl be ce2 NDs Slt Rbe R6) as (be' & E7 & R7 & N7 & U7). rewrite E7. cbn [bind].
    eexists. eexists. eexists. split; [reflexivity|]. split; [auto|]. split; [auto|].
    intros m Hm. destruct (Hrec m Hm) as (v & e & Ev & Ee & Hle & Hat).
    destruct (nth_single _ _ _ m Rc Hm) as [w Ew].
    destruct (in_dec Nat.eq_dec m sl) as [Hs|Hs].
    - pose proof Hs as Hs'. apply Sin in Hs'. destruct Hs' as (k & Hk & Ek).
      pose proof (proj1 (W _ _ _ _ Ek Ew Ee) Hk) as Hlt'.
      exists w, (c_f c w). destruct (In_nth_error _ _ Hs) as [q Eq].
      split. { rewrite (N5 _ _ Eq), (N4 _ _ Eq). auto. }
      split.
      { rewrite (N7 _ _ Eq). assert (Hq : q < length idx2) by (rewrite <- Lsl; eapply nth_error_lt; eauto).
        destruct (nth_error_lt_Some _ _ _ Hq) as [k' Ek']. rewrite (N6 _ _ Ek').
        apply Ece with (m := m); auto. rewrite <- (S1 _ _ Ek'). auto. }
      split.
      + intros u (i & s' & cpt' & H & Hi & H2 & H3). apply in_app_or in H. destruct H as [H|[H|[]]].
        * assert (fltb (c_f c u) e = false) by (apply Hle; exists i, s', cpt'; auto).
          destruct (fltb (c_f c u) (c_f c w)) eqn:E; auto. rewrite (fltb_trans _ _ _ E Hlt') in H0. auto.
        * injection H as <- <-. rewrite Ec in H2. injection H2 as <-. rewrite Ew in H3. injection H3 as <-. apply fltb_irrefl.
      + right. split; [|reflexivity]. exists idx, s, cpt. split. { apply in_or_app. right. left; auto. }
        split; [|auto]. eapply nth_error_In; eauto.
    - exists v, e. rewrite (U5 _ Hs), (U7 _ Hs). split; [auto|]. split; [auto|]. split.
      + intros u (i & s' & cpt' & H & Hi & H2 & H3). apply in_app_or in H. destruct H as [H|[H|[]]].
        * apply Hle. exists i, s', cpt'. auto.
        * injection H as <- <-. rewrite Ec in H2. injection H2 as <-. rewrite Ew in H3. injection H3 as <-.
          destruct (In_nth_error _ _ Hi) as [k Ek]. destruct (fltb (c_f c w) e) eqn:E; auto.
          exfalso. apply Hs, Sin. exists k. split; auto. apply (W _ _ _ _ Ek Ew Ee). auto.
      + destruct Hat as [H|[(i & s' & cpt' & H & Hi & H2) H3]]; [left; auto|]. right. split; auto.
        exists i, s', cpt'. split; [apply in_or_app; left; auto|auto].
  Qed.

  Lemma track_from : forall (c : cfg) M rest l bc be, Forall (all_runs_active M) rest -> rect M 1 bc -> rect M 1 be ->
    (forall m, m < M -> record c l m bc be) ->
    exists bc' be', track_calls c rest (Some (bc, be)) = Ok (Some (bc', be')) /\
      forall m, m < M -> record c (l ++ rest) m bc' be'.
  Proof.
    intros c M rest. induction rest as [|[idx s] rest IH]; intros l bc be HF R1 R2 Hr; cbn [track_calls].
    - exists bc, be. rewrite app_nil_r. auto.
    - inversion HF; subst.
      destruct (next_call c M l idx s bc be) as (bc' & be' & s' & E & R1' & R2' & Hr'); auto.
      rewrite E. cbn [bind fst]. destruct (IH (l ++ [(idx, s)]) bc' be') as (bc2 & be2 & E2 & Hx); auto.
      exists bc2, be2. split; auto. rewrite <- app_assoc in Hx. exact Hx.
  Qed.

  Lemma best_consensus_minimum : forall (c : cfg) M l, l <> [] -> Forall (all_runs_active M) l ->
    exists bc be, track_calls c l None = Ok (Some (bc, be)) /\
      forall m, m < M -> exists v e, nth_error bc m = Some [v] /\ nth_error be m = Some [e] /\
        (forall w, resampled_at l m w -> fltb (c_f c w) e = false) /\
        (e = PInf \/ (resampled_at l m v /\ c_f c v = e)).
  Proof.
    intros c M [|[idx s] l] Hne HF; [congruence|]. inversion HF; subst.
    destruct (first_call c M idx s) as (bc & be & s' & E & R1 & R2 & Hr); auto.
    destruct (track_from c M l [(idx, s)] bc be) as (bc2 & be2 & E2 & Hx); auto.
    exists bc2, be2. cbn [track_calls]. rewrite E. cbn [bind fst]. auto.
  Qed.
End BestCons.
