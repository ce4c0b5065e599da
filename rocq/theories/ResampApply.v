(** * Facts about resampling.__call__ *)
From Coq Require Import List Arith Bool Lia.
From Verif Require Import Scalar ScalarFacts Np NpFacts State Pdyn PdynFacts PdynStep Resampling ResampSpec StagFacts.
Import ListNotations.

Lemma insert_u_In : forall a l m, In m (insert_u a l) <-> m = a \/ In m l.
Proof.
  intros a l m. induction l as [|b l IH]; [cbn; intuition |]. cbn [insert_u].
  destruct (Nat.ltb_spec a b); [cbn; intuition |].
  destruct (Nat.eqb_spec a b) as [E|E]; [subst; cbn; intuition | cbn; intuition].
Qed.

Lemma unique_In : forall l m, In m (unique l) <-> In m l.
Proof. induction l as [|a l IH]; intros m; cbn; [tauto |]. rewrite insert_u_In, IH. intuition. Qed.

Lemma insert_u_incr : forall a l, incr l -> incr (insert_u a l).
Proof.
  intros a l. induction l as [|b l IH]; cbn [insert_u]; intros H; [constructor; [intros ? [] | constructor] |].
  inversion H as [| ? ? H1 H2]; subst. destruct (Nat.ltb_spec a b).
  - constructor; auto. intros m [<- | Hm]; auto. specialize (H1 m Hm). lia.
  - destruct (Nat.eqb_spec a b); auto. constructor; auto.
    intros m Hm. apply insert_u_In in Hm. destruct Hm as [-> | Hm]; auto. lia.
Qed.

Lemma unique_incr : forall l, incr (unique l).
Proof. induction l; cbn; [constructor | apply insert_u_incr; auto]. Qed.

Lemma rowop_map2 : forall A B C (f : A -> B -> C) x y, length y = length x -> rowop f x y = map2 f x y.
Proof.
  intros. destruct y as [|b [|b' y]]; auto. destruct x as [|a [|]]; try discriminate. auto.
Qed.

Section Apply.
  Context {K V : Type} {O : KOps K}.
  Notation F := (fl K).
  Notation st := (st K V).
  Notation cfg := (cfg K V).

  Lemma apply_default_char : forall (c : cfg) amp z idx (s : st) M N, rect M N (s_x s) -> s_N s = N ->
    NoDup idx -> (forall m, In m idx -> m < M) ->
    exists x', apply_default c amp z idx s = Ok (set_x x' s) /\ rect M N x' /\
      (forall m, ~ In m idx -> nth_error x' m = nth_error (s_x s) m) /\
      (forall k m row, nth_error idx k = Some m -> nth_error (s_x s) m = Some row ->
         nth_error x' m = Some (mapi (fun n v => c_vadd c v (c_vscale c amp (z k n))) row)).
  Proof.
    intros c amp z idx s M N [RM RN] EN ND Lt. unfold apply_default.
    destruct (takeM_ok _ (s_x s) idx) as [rows Hrows]; [intros; rewrite RM; auto |].
    pose proof (takeM_length _ _ _ _ Hrows) as Lr. rewrite Hrows. cbn [bind].
    set (zs := map (fun k => map (fun n => c_vscale c amp (z k n)) (seq 0 (s_N s))) (seq 0 (length idx))).
    assert (Lz : length zs = length idx) by (unfold zs; rewrite map_length, seq_length; auto).
    assert (Ez : forall k, k < length idx -> nth_error zs k = Some (map (fun n => c_vscale c amp (z k n)) (seq 0 (s_N s)))).
    { intros k L. unfold zs. rewrite nth_error_map, nth_error_seq. destruct (Nat.ltb_spec k (length idx)); [auto | lia]. }
    assert (Er : forall k r, nth_error rows k = Some r -> length r = N).
    { intros k r E. destruct (nth_error_lt_Some _ idx k) as [m Em]. { rewrite <- Lr. eapply nth_error_lt; eauto. }
      pose proof (takeM_nth _ _ _ _ _ _ Hrows Em) as T. rewrite E in T. eapply RN; eauto. }
    rewrite bc2_rows; [| lia |].
    2:{ intros k x y Ex Ey. right. rewrite (Er _ _ Ex). rewrite Ez in Ey.
        - injection Ey as <-. rewrite map_length, seq_length. auto.
        - rewrite <- Lz. eapply nth_error_lt; eauto. }
    cbn [bind].
    destruct (scatter_rows V idx M N (IRuns idx) (s_x s) (map2 (rowop (c_vadd c)) rows zs)) as (X' & HX & RX & Hin & Hout); auto.
    - cbn. auto.
    - split; auto.
    - rewrite map2_length. lia.
    - intros k yr E. cbn [sel]. rewrite seq_length. rewrite map2_nth in E.
      destruct (nth_error rows k) as [x|] eqn:Ex; [| discriminate].
      destruct (nth_error zs k) as [y|] eqn:Ey; [| discriminate]. injection E as <-.
      rewrite rowop_length; [eauto |]. right. rewrite (Er _ _ Ex). rewrite Ez in Ey.
      + injection Ey as <-. rewrite map_length, seq_length. auto.
      + rewrite <- Lz. eapply nth_error_lt; eauto.
    - rewrite HX. cbn [bind]. exists X'. split; auto. split; auto. split; auto.
      intros k m row Ek Erow.
      assert (Lk : k < length idx) by (eapply nth_error_lt; eauto).
      pose proof (takeM_nth _ _ _ _ _ _ Hrows Ek) as T. rewrite Erow in T.
      pose proof (Ez k Lk) as Ey.
      assert (Lrow : length row = N) by (eapply RN; eauto).
      destruct (Hin k m row (rowop (c_vadd c) row (map (fun n => c_vscale c amp (z k n)) (seq 0 (s_N s)))) Ek Erow)
        as (row' & E1 & E2).
      { rewrite map2_nth, T, Ey. auto. }
      cbn [sel] in E2. rewrite sel_seq in E2; auto.
      + injection E2 as <-. rewrite E1. f_equal. rewrite rowop_map2 by (rewrite map_length, seq_length; lia).
        apply nth_error_ext. intros n. rewrite map2_nth, mapi_nth, nth_error_map, nth_error_seq.
        destruct (nth_error row n) as [v|] eqn:Ev; auto.
        assert (n < s_N s) by (rewrite EN, <- Lrow; eapply nth_error_lt; eauto).
        destruct (Nat.ltb_spec n (s_N s)); [auto | lia].
      + rewrite rowop_length; auto. right. rewrite map_length, seq_length. lia.
  Qed.

  Lemma call_rules_length : forall (c : cfg) norm1 vzero (s : st) rs p, call_rules c norm1 vzero s rs = Ok p ->
    length (fst p) = length rs /\ length (snd p) = length rs.
  Proof.
    induction rs as [|r rs IH]; intros p H; cbn in H.
    - injection H as <-. auto.
    - destruct (rule_call c norm1 vzero s r) as [q|]; [| discriminate]. cbn in H.
      destruct (call_rules c norm1 vzero s rs) as [q'|]; [| discriminate]. cbn in H. injection H as <-.
      destruct (IH q' eq_refl). cbn. auto.
  Qed.

  Lemma add_at_nth : forall act k l m n, nth_error l m = Some n ->
    nth_error (add_at act k l) m = Some (if existsb (Nat.eqb m) act then n + k else n).
  Proof. intros. unfold add_at. rewrite mapi_nth, H. auto. Qed.

  Lemma resampling_spec : forall (c : cfg) norm1 vzero amp z (r : rsm K V) (s : st) rules sels M N num,
    rect M N (s_x s) -> s_M s = M -> s_N s = N ->
    num = (match r_num r with Some l => l | None => repeat 0 M end) -> length num = M ->
    call_rules c norm1 vzero s (r_rules r) = Ok (rules, sels) -> sels <> [] ->
    (forall l m, In l sels -> In m l -> m < M) ->
    exists num' x', resampling_call c norm1 vzero amp false z r s = Ok (mkrsm rules (Some num') (r_bestc r), set_x x' s) /\
      rect M N x' /\ length num' = M /\
      (forall m row n, nth_error (s_x s) m = Some row -> nth_error num m = Some n ->
         (~ (exists l, In l sels /\ In m l) -> nth_error x' m = Some row /\ nth_error num' m = Some n) /\
         ((exists l, In l sels /\ In m l) ->
            nth_error num' m = Some (S n) /\
            exists k, nth_error x' m = Some (mapi (fun j v => c_vadd c v (c_vscale c amp (z k j))) row))).
  Proof.
    intros c norm1 vzero amp z r s rules sels M N num RX EM EN Hnum Lnum Hc Hne Lt.
    unfold resampling_call. rewrite EM, <- Hnum. rewrite Hc. cbn [bind fst snd].
    destruct sels as [|l0 sels]; [congruence |]. set (ss := l0 :: sels) in *. clearbody ss. clear Hne.
    assert (HIn : forall m, In m (unique (concat ss)) <-> exists l, In l ss /\ In m l).
    { intros m. rewrite unique_In, in_concat. split; intros (l & A & B); exists l; auto. }
    destruct (unique (concat ss)) as [|i0 idx] eqn:Eu.
    - exists num, (s_x s). assert (Es : set_x (s_x s) s = s) by (destruct s; reflexivity). rewrite Es.
      split; auto. split; auto. split; auto. intros m row n Er En. split; auto.
      intros H. apply HIn in H. destruct H.
    - assert (ND : NoDup (i0 :: idx)) by (rewrite <- Eu; apply incr_NoDup; apply unique_incr).
      destruct (apply_default_char c amp z (i0 :: idx) s M N) as (x' & Ha & Rx' & Hout & Hin); auto.
      { intros m Hm. apply HIn in Hm. destruct Hm as (l & A & B). eauto. }
      rewrite Ha. cbn [bind]. rewrite Lnum. rewrite forallb_lt.
      2:{ intros m Hm. apply HIn in Hm. destruct Hm as (l & A & B). eauto. }
      exists (add_at (i0 :: idx) 1 num), x'. split; auto. split; auto.
      split; [unfold add_at; rewrite mapi_length; auto |].
      intros m row n Er En. rewrite (add_at_nth _ _ _ _ _ En). split.
      + intros H. assert (NI : ~ In m (i0 :: idx)) by (rewrite HIn; auto).
        rewrite Hout by auto. split; auto.
        destruct (existsb (Nat.eqb m) (i0 :: idx)) eqn:E; auto. apply existsb_In in E. tauto.
      + intros H. apply HIn in H. rewrite (proj2 (existsb_In _ _) H). split; [f_equal; lia |].
        apply In_nth_error in H. destruct H as [k Hk]. exists k. apply Hin; auto.
  Qed.

  Lemma resampling_no_rules : forall (c : cfg) norm1 vzero amp tr z num b (s : st),
    resampling_call c norm1 vzero amp tr z (mkrsm [] num b) s = Err ValueError.
  Proof. reflexivity. Qed.
End Apply.
