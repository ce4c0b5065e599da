(** * Facts about loss_update_resampling *)
From Coq Require Import List Arith Bool Lia.
From Verif Require Import Scalar ScalarFacts Np NpFacts State Pdyn PdynStep Resampling ResampSpec.
Import ListNotations.

Section Stale.
  Context {K : Type} {O : KOps K} {OL : KOrd K}.
  Notation F := (fl K).

  Lemma stale_unique : forall (e : nat -> F) k n n', stale e k n -> stale e k n' -> n = n'.
  Proof.
    intros e k n n' (H1 & H2 & H3) (H1' & H2' & H3').
    destruct (lt_eq_lt_dec n n') as [[L | E] | L]; auto.
    - destruct H2 as [E | I]; [lia |]. exfalso. apply (H3' (k - n)); auto; lia.
    - destruct H2' as [E | I]; [lia |]. exfalso. apply (H3 (k - n')); auto; lia.
  Qed.

  Lemma stale_S : forall (e : nat -> F) k n, stale e k n -> ~ improves e (S k) -> stale e (S k) (S n).
  Proof.
    intros e k n (H1 & H2 & H3) N. split; [lia |]. split.
    - destruct H2 as [E | I]; [left; lia | right]. cbn. exact I.
    - intros i L1 L2 I. destruct (Nat.eq_dec i (S k)) as [-> | D]; [auto |]. apply (H3 i); auto; lia.
  Qed.

  Lemma stale_0 : forall (e : nat -> F) k, improves e k -> stale e k 0.
  Proof.
    intros. split; [lia |]. split; [right; rewrite Nat.sub_0_r; auto |]. intros; lia.
  Qed.

  (** [b] is the least value among the first [k] ones and +inf *)
  Definition least (e : nat -> F) (k : nat) (b : F) : Prop :=
    is_nan b = false /\ (forall j, j < k -> is_nan (e j) = true \/ fleb b (e j) = true) /\
    (b = PInf \/ exists j, j < k /\ b = e j).

  Lemma least_improves : forall (e : nat -> F) k b, least e k b -> (improves e k <-> fltb (e k) b = true).
  Proof.
    intros e k b (N & H1 & H2). split.
    - intros [I1 I2]. destruct H2 as [-> | (j & L & ->)]; auto.
      destruct (I2 j L) as [E | E]; congruence.
    - intros E. split.
      + eapply fltb_fleb_trans; eauto. apply fleb_PInf; auto.
      + intros j L. destruct (H1 j L) as [E1 | E1]; auto. right. eapply fltb_fleb_trans; eauto.
  Qed.

  Lemma least_S : forall (e : nat -> F) k b, least e k b ->
    least e (S k) (if fltb (e k) b then e k else b).
  Proof.
    intros e k b (N & H1 & H2). destruct (fltb (e k) b) eqn:E.
    - pose proof (fltb_nan _ _ E) as [Nk _]. split; auto. split.
      + intros j L. destruct (Nat.eq_dec j k) as [-> | D]; [right; apply fleb_refl; auto |].
        destruct (H1 j ltac:(lia)) as [E1 | E1]; auto. right. apply fltb_fleb. eapply fltb_fleb_trans; eauto.
      + right. exists k. split; auto.
    - split; auto. split.
      + intros j L. destruct (Nat.eq_dec j k) as [-> | D]; [| apply H1; lia].
        destruct (is_nan (e k)) eqn:Nk; auto. right. apply fltb_false_fleb; auto.
      + destruct H2 as [-> | (j & L & ->)]; [left; auto | right; exists j; split; auto].
  Qed.

  Lemma least_0 : forall (e : nat -> F), least e 0 PInf.
  Proof. intros. split; auto. split; [intros; lia | auto]. Qed.
End Stale.

Section Loss.
  Context {K V : Type} {O : KOps K} {OL : KOrd K}.
  Notation F := (fl K).
  Notation st := (st K V).

  (** one call, run by run *)
  Lemma lur_call_char : forall thresh (s : st) o, length (s_be s) = s_M s ->
    length (l_best (check_energy_wait (s_M s) o)) = s_M s -> length (l_wait (check_energy_wait (s_M s) o)) = s_M s ->
    exists l' idx, lur_call thresh s o = Ok (l', idx) /\ length (l_best l') = s_M s /\ length (l_wait l') = s_M s /\
      forall m b w e, nth_error (l_best (check_energy_wait (s_M s) o)) m = Some b ->
        nth_error (l_wait (check_energy_wait (s_M s) o)) m = Some w -> nth_error (s_be s) m = Some e ->
        nth_error (l_best l') m = Some (if fltb e b then e else b) /\
        nth_error (l_wait l') m = Some ((if fltb e b then 0 else S w) mod thresh) /\
        (In m idx <-> thresh <= (if fltb e b then 0 else S w)).
  Proof.
    intros thresh s o Lb L1 L2. unfold lur_call. set (l := check_energy_wait (s_M s) o) in *.
    rewrite Lb, L1, Nat.eqb_refl. eexists. eexists. split; [reflexivity |]. cbn [l_best l_wait].
    assert (Lu : length (map2 (fun b e : F => fltb e b) (l_best l) (s_be s)) = s_M s) by (rewrite map2_length; lia).
    assert (Lr : length (repeat 0 (length (map S (l_wait l)))) = s_M s) by (rewrite repeat_length, map_length; lia).
    assert (Lw : length (map S (l_wait l)) = s_M s) by (rewrite map_length; lia).
    split; [rewrite select_length; lia |]. split; [rewrite map_length, select_length; lia |].
    intros m b w e Eb Ew Ee.
    assert (Hm : m < s_M s) by (apply nth_error_lt in Eb; lia).
    rewrite np_where_spec. rewrite !nth_error_map.
    rewrite !select_nth by lia. rewrite map2_nth, Eb, Ee, nth_error_map, Ew. cbn.
    rewrite nth_error_repeat, map_length, L2. destruct (Nat.ltb_spec m (s_M s)); [| lia].
    destruct (fltb e b); cbn; (split; [reflexivity |]; split; [reflexivity |]).
    - split; [intros E; injection E; apply Nat.leb_le | intros; f_equal; apply Nat.leb_le; lia].
    - destruct thresh as [|t].
      + split; intros; [lia | reflexivity].
      + split; [intros E; injection E; intros; apply Nat.leb_le in H0; lia | intros; f_equal; apply Nat.leb_le; lia].
  Qed.

  Lemma loss_spec : forall thresh M (ss : list st), 1 <= thresh ->
    Forall (fun s => s_M s = M /\ length (s_be s) = M) ss ->
    exists outs, loss_calls thresh ss None = Ok outs /\ length outs = length ss /\
      forall k out m, nth_error outs k = Some out -> m < M ->
        (In m out <-> exists q, 1 <= q /\ stale (seen ss m) k (q * thresh)).
  Proof.
    intros thresh M ss Ht Hss.
    (* generalise: the calls made so far *)
    assert (G : forall rest done o, done ++ rest = ss ->
      (o = None -> done = []) ->
      length (l_best (check_energy_wait M o)) = M -> length (l_wait (check_energy_wait M o)) = M ->
      (forall m b w, nth_error (l_best (check_energy_wait M o)) m = Some b ->
         nth_error (l_wait (check_energy_wait M o)) m = Some w ->
         least (seen ss m) (length done) b /\
         exists n, w = n mod thresh /\ (match length done with 0 => n = 0 | S k => stale (seen ss m) k n end)) ->
      exists outs, loss_calls thresh rest o = Ok outs /\ length outs = length rest /\
        forall k out m, nth_error outs k = Some out -> m < M ->
          (In m out <-> exists q, 1 <= q /\ stale (seen ss m) (length done + k) (q * thresh))).
    { induction rest as [|s rest IH]; intros done o Eq _ L1 L2 Inv.
      - exists []. split; auto. split; auto. intros k out m E. destruct k; discriminate.
      - assert (Hs : s_M s = M /\ length (s_be s) = M).
        { rewrite Forall_forall in Hss. apply Hss. rewrite <- Eq. apply in_or_app. right. left. auto. }
        destruct Hs as [EM Lb].
        destruct (lur_call_char thresh s o) as (l' & idx & Hc & L1' & L2' & H);
          try (rewrite EM; assumption).
        rewrite EM in H, L1', L2'.
        assert (Eseen : forall m, seen ss m (length done) = nth m (s_be s) NaN).
        { intros m. unfold seen. rewrite <- Eq. rewrite nth_error_app2, Nat.sub_diag; auto. }
        assert (Cell : forall m, m < M -> exists b w, nth_error (l_best (check_energy_wait M o)) m = Some b /\
                  nth_error (l_wait (check_energy_wait M o)) m = Some w /\
                  nth_error (s_be s) m = Some (seen ss m (length done))).
        { intros m Lm. destruct (nth_error_lt_Some _ (l_best (check_energy_wait M o)) m ltac:(lia)) as [b Eb].
          destruct (nth_error_lt_Some _ (l_wait (check_energy_wait M o)) m ltac:(lia)) as [w Ew].
          exists b, w. split; auto. split; auto. rewrite Eseen. apply nth_error_nth'. lia. }
        (* the number of calls since the last improvement *)
        assert (Now : forall m b w, nth_error (l_best (check_energy_wait M o)) m = Some b ->
                  nth_error (l_wait (check_energy_wait M o)) m = Some w ->
                  exists n, stale (seen ss m) (length done) n /\
                    ((if fltb (seen ss m (length done)) b then 0 else S w) mod thresh = n mod thresh) /\
                    (thresh <= (if fltb (seen ss m (length done)) b then 0 else S w) <->
                       exists q, 1 <= q /\ n = q * thresh)).
        { intros m b w Eb Ew. destruct (Inv m b w Eb Ew) as (Le & n & Ew' & Hn).
          pose proof (least_improves _ _ _ Le) as I.
          destruct (fltb (seen ss m (length done)) b) eqn:E.
          - exists 0. split; [apply stale_0; apply I; auto |]. split; auto.
            split; [lia |]. intros (q & Hq & Z). destruct q; [lia |]. cbn in Z. lia.
          - exists (S n). split.
            + destruct (length done) as [|k] eqn:Ed.
              * subst n. split; [lia |]. split; [left; auto |]. intros i Li1 Li2 Imp.
                assert (i = 0) by lia. subst i. apply I in Imp. congruence.
              * apply stale_S; auto. intros Imp. apply I in Imp. congruence.
            + subst w. split.
              * rewrite <- Nat.add_1_r. rewrite Nat.add_mod_idemp_l by lia. f_equal. lia.
              * pose proof (Nat.mod_upper_bound n thresh ltac:(lia)) as U.
                pose proof (Nat.div_mod n thresh ltac:(lia)) as D.
                split.
                -- intros L. exists (S (n / thresh)). split; [lia |].
                   assert (E1 : n mod thresh = thresh - 1) by lia. rewrite E1 in D. cbn. lia.
                -- intros (q & Hq & Z). 
                   assert (Z' : (S n) mod thresh = 0) by (rewrite Z; apply Nat.mod_mul; lia).
                   destruct (le_lt_dec thresh (S (n mod thresh))); auto.
                   rewrite <- Nat.add_1_r in Z'. rewrite <- Nat.add_mod_idemp_l in Z' by lia.
                   rewrite Nat.mod_small in Z' by lia. lia. }
        destruct (IH (done ++ [s]) (Some l')) as (outs & Ho & Lo & Hout).
        + rewrite <- app_assoc. exact Eq.
        + discriminate.
        + cbn. lia.
        + cbn. lia.
        + cbn [check_energy_wait]. intros m b' w' Eb' Ew'.
          assert (Lm : m < M) by (apply nth_error_lt in Eb'; lia).
          destruct (Cell m Lm) as (b & w & Eb & Ew & Ee).
          destruct (H m b w _ Eb Ew Ee) as (H1 & H2 & _). rewrite H1 in Eb'. rewrite H2 in Ew'.
          injection Eb' as <-. injection Ew' as <-.
          destruct (Inv m b w Eb Ew) as (Le & _).
          rewrite app_length. cbn [length]. rewrite Nat.add_1_r.
          split; [apply least_S; exact Le |].
          destruct (Now m b w Eb Ew) as (n & S1 & S2 & _). exists n. split; auto.
        + exists (idx :: outs). split; [cbn [loss_calls]; rewrite Hc; cbn [bind fst]; rewrite Ho; reflexivity |].
          split; [cbn; lia |].
          intros k out m E Lm. destruct k as [|k].
          * cbn in E. injection E as <-. rewrite Nat.add_0_r.
            destruct (Cell m Lm) as (b & w & Eb & Ew & Ee).
            destruct (H m b w _ Eb Ew Ee) as (_ & _ & H3). rewrite H3.
            destruct (Now m b w Eb Ew) as (n & S1 & _ & S3). rewrite S3. split.
            -- intros (q & Hq & ->). exists q. auto.
            -- intros (q & Hq & St). exists q. split; auto. eapply stale_unique; eauto.
          * cbn in E. specialize (Hout k out m E Lm). rewrite Hout.
            rewrite app_length. cbn [length]. replace (length done + 1 + k) with (length done + S k) by lia. tauto. }
    destruct (G ss [] None) as (outs & Ho & Lo & Hout); auto.
    - cbn. apply repeat_length.
    - cbn. apply repeat_length.
    - cbn. intros m b w Eb Ew. rewrite nth_error_repeat in Eb, Ew. destruct (m <? M); [| discriminate].
      injection Eb as <-. injection Ew as <-. split; [apply least_0 |]. exists 0. split; auto.
      symmetry. apply Nat.mod_0_l. lia.
    - exists outs. auto.
  Qed.
End Loss.
