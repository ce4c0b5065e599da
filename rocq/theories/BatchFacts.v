(** * Mini-batches *)
From Coq Require Import String List Arith Bool Permutation Lia.
From Verif Require Import Scalar Np NpFacts State Pdyn PdynFacts PdynStep PdynRun Exec PdynOk StepFrame BatchSpec.
Import ListNotations.
Open Scope nat_scope.
Open Scope list_scope.

(** ** Lists *)

Lemma lookup_nth : forall A m keys (vals : list A) k, NoDup keys -> nth_error keys k = Some m ->
  lookup m keys vals = nth_error vals k.
Proof.
  induction keys; intros vals k Hd Hk. { destruct k; discriminate. }
  destruct vals. { cbn. destruct k; auto. }
  destruct k; cbn in *.
  - inversion Hk; subst. rewrite Nat.eqb_refl. auto.
  - inversion Hd; subst. destruct (Nat.eqb_spec a m).
    + subst. exfalso. apply H1. eapply nth_error_In; eauto.
    + auto.
Qed.

Lemma lookup_in : forall A m keys (vals : list A) v, lookup m keys vals = Some v -> In m keys.
Proof.
  induction keys; intros [|v0 vals] v H; cbn in *; try discriminate.
  destruct (Nat.eqb_spec a m); auto. right. eapply IHkeys; eauto.
Qed.

Lemma perm_count : forall N p j, Permutation p (seq 0 N) -> j < N -> count_occ Nat.eq_dec p j = 1.
Proof.
  intros N p j H Hj. rewrite (proj1 (Permutation_count_occ Nat.eq_dec _ _) H).
  apply NoDup_count_occ'. apply seq_NoDup. apply in_seq. lia.
Qed.

Lemma perm_NoDup : forall N p, Permutation p (seq 0 N) -> NoDup p.
Proof. intros. eapply Permutation_NoDup; [symmetry; eauto|apply seq_NoDup]. Qed.

Lemma count_app : forall l l' (j : nat), count_occ Nat.eq_dec (l ++ l') j = count_occ Nat.eq_dec l j + count_occ Nat.eq_dec l' j.
Proof. intros. apply count_occ_app. Qed.

Lemma count_firstn_perm : forall N p j r, Permutation p (seq 0 N) -> j < N ->
  count_occ Nat.eq_dec (firstn r p) j <= 1.
Proof.
  intros. pose proof (perm_count N p j H H0). rewrite <- (firstn_skipn r p), count_app in H1. lia.
Qed.

(** a prefix of a concatenation of permutations is balanced *)
Lemma prefix_balanced : forall N perms pre rest j, Forall (fun p => Permutation p (seq 0 N)) perms ->
  pre ++ rest = concat perms -> j < N ->
  length pre / N <= count_occ Nat.eq_dec pre j /\ count_occ Nat.eq_dec pre j <= (length pre + N - 1) / N.
Proof.
  intros N perms. induction perms as [|p perms IH]; intros pre rest j HF Heq Hj.
  - cbn in Heq. apply app_eq_nil in Heq. destruct Heq. subst. cbn. rewrite Nat.div_small by lia. lia.
  - inversion HF; subst. cbn [concat] in Heq.
    assert (Lp : length p = N) by (rewrite (Permutation_length H1), seq_length; auto).
    destruct (le_lt_dec N (length pre)).
    + assert (Hp : pre = p ++ skipn N pre).
      { rewrite <- (firstn_skipn N pre) at 1. f_equal.
        assert (E : firstn N (pre ++ rest) = firstn N (p ++ concat perms)) by (rewrite Heq; auto).
        rewrite !firstn_app in E. rewrite Lp, Nat.sub_diag in E. replace (N - length pre) with 0 in E by lia.
        cbn in E. rewrite !app_nil_r in E. rewrite E. apply firstn_all2. lia. }
      assert (Hr : skipn N pre ++ rest = concat perms).
      { rewrite Hp in Heq. rewrite <- app_assoc in Heq. apply app_inv_head in Heq. auto. }
      destruct (IH _ _ j H2 Hr Hj) as [A B].
      rewrite Hp at 2 3. rewrite count_app, (perm_count N p j); auto.
      assert (L : length pre = N + length (skipn N pre)) by (rewrite skipn_length; lia).
      rewrite L. replace (N + length (skipn N pre)) with (length (skipn N pre) + 1 * N) by lia.
      rewrite Nat.div_add by lia.
      replace (length (skipn N pre) + 1 * N + N - 1) with (length (skipn N pre) + N - 1 + 1 * N) by lia.
      rewrite Nat.div_add by lia. lia.
    + assert (Hp : pre = firstn (length pre) p).
      { assert (E : firstn (length pre) (pre ++ rest) = firstn (length pre) (p ++ concat perms)) by (rewrite Heq; auto).
        rewrite !firstn_app in E. rewrite Nat.sub_diag in E. replace (length pre - length p) with 0 in E by lia.
        cbn in E. rewrite !app_nil_r in E. rewrite <- E. symmetry. apply firstn_all2. lia. }
      rewrite Nat.div_small by lia. split; [lia|].
      destruct pre as [|a pre'] eqn:Epre. { cbn. lia. }
      rewrite <- Epre in *. assert (1 <= length pre) by (subst pre; cbn; lia).
      replace (length pre + N - 1) with (length pre - 1 + 1 * N) by lia. rewrite Nat.div_add by lia.
      rewrite Nat.div_small by lia. rewrite Hp. apply (count_firstn_perm N); auto.
Qed.

Lemma skipn_skipn' : forall A a b (l : list A), skipn a (skipn b l) = skipn (b + a) l.
Proof.
  intros A a b. induction b; intros l; cbn; auto. destruct l; auto. apply skipn_nil.
Qed.

Lemma concat_snoc : forall A (l : list (list A)) a, concat (l ++ [a]) = concat l ++ a.
Proof. intros. rewrite concat_app. cbn. rewrite app_nil_r. auto. Qed.

Lemma NoDup_firstn : forall A n (l : list A), NoDup l -> NoDup (firstn n l).
Proof.
  intros A n l H. rewrite <- (firstn_skipn n l) in H. revert H. generalize (skipn n l). generalize (firstn n l).
  induction l0; intros l1 H; constructor; inversion H; subst.
  - intros X. apply H2. apply in_or_app; auto.
  - eauto.
Qed.
Lemma NoDup_skipn : forall A n (l : list A), NoDup l -> NoDup (skipn n l).
Proof.
  intros A n. induction n; intros l H; auto. destruct l; auto. inversion H; subst. apply IHn; auto.
Qed.

Section Batch.
  Context {K V : Type} {O : KOps K}.
  Notation F := (fl K).
  Notation st := (st K V).
  Notation cfg := (cfg K V).
  Notation orc := (orc V).

  Lemma pre_step_batched : forall (c : cfg) (o : orc) (s s1 : st), wf c s -> perm_ok o s -> c_bsize c <> s_N s ->
    pre_step c o s = Ok s1 ->
    exists bs, s_cidx s1 = IBatch (s_active s) bs /\ length bs = length (s_active s) /\
      s_pidx s1 = (if c_partial c then IBatch (s_active s) bs else IRuns (s_active s)) /\
      (forall k m, nth_error (s_active s) k = Some m ->
        nth_error bs k = Some (firstn (c_bsize c) (ind_next c o s m))) /\
      (forall m, m < s_M s -> nth_error (s_ind s1) m = Some (skipn (c_bsize c) (ind_next c o s m))).
  Proof.
    intros c o s s1 W P Hb H. pose proof (pre_step_char c o s W P) as (ci & pi & ind & E & _ & _ & _ & _ & Hi).
    rewrite E in H. injection H as Es1. specialize (Hi Hb).
    unfold pre_step, set_batch_idx in E. ssti E. rewrite (proj2 (Nat.eqb_neq _ _) Hb) in E.
    unfold set_batch_idx_batched in E. ssti E. cbv zeta in E.
    apply bind_ok in E. destruct E as (bs & Ebs & E). match type of E with Ok ?a = Ok ?b => assert (E0 : a = b) by congruence end. clear E.
    pose proof (ind_rows c o s W P Hb) as [Hl Hr].
    set (ind1 := if shape1 (s_ind s) <? c_bsize c then _ else _) in *.
    exists bs. subst s1. assert (Eci : ci = IBatch (s_active s) bs) by (apply (f_equal s_cidx) in E0; destruct s; cbn in *; auto).
    assert (Epi : pi = (if c_partial c then IBatch (s_active s) bs else IRuns (s_active s)))
      by (apply (f_equal s_pidx) in E0; destruct s; cbn in *; auto).
    sst. subst ci pi. split; auto. split. { apply (takeM_length _ _ _ _ Ebs). } split; auto. split.
    - intros k m Hk. erewrite takeM_nth; eauto. rewrite nth_error_map.
      assert (m < s_M s) by (apply W; eapply nth_error_In; eauto).
      destruct (Hr m H) as (E1 & _ & _). rewrite E1. reflexivity.
    - apply Hi.
  Qed.

  Lemma pre_step_unbatched : forall (c : cfg) (o : orc) (s s1 : st), c_bsize c = s_N s ->
    pre_step c o s = Ok s1 -> s_ind s1 = s_ind s /\
    s_cidx s1 = (if length (s_active s) =? s_M s then IAll else IRuns (s_active s)) /\
    s_pidx s1 = (if length (s_active s) =? s_M s then IAll else IRuns (s_active s)).
  Proof.
    intros c o s s1 Hb H. unfold pre_step, set_batch_idx in H. ssti H. rewrite (proj2 (Nat.eqb_eq _ _) Hb) in H.
    unfold set_batch_idx_unbatched in H. inversion H. destruct s; cbn. auto.
  Qed.

  (** rows of remaining indices *)
  Lemma ind_next_nodup : forall (c : cfg) (o : orc) s m, c_concat c = false -> perms_valid o s -> m < s_M s ->
    (forall row, nth_error (s_ind s) m = Some row -> NoDup row) -> NoDup (ind_next c o s m).
  Proof.
    intros c o s m Hc P Hm Hr. unfold ind_next. rewrite Hc. destruct (_ <? _).
    - eapply perm_NoDup, P; auto.
    - destruct (nth_error (s_ind s) m) eqn:E.
      + rewrite (nth_error_nth _ _ _ E). auto.
      + rewrite nth_overflow; [constructor|]. apply nth_error_None; auto.
  Qed.

  Lemma exec_ind_nodup : forall (c : cfg) s log, exec c s log -> c_concat c = false -> c_bsize c <> s_N s ->
    forall m row, nth_error (s_ind s) m = Some row -> NoDup row.
  Proof.
    intros c s log E Hc. induction E; intros Hb m row Hm.
    - destruct H as (x0 & chk & al & sg & la & dt & perm0 & names & extra & save & Hx & HN & Hbs & Hp & Hs & H).
      unfold init in H. apply bind_ok in H. destruct H as (bp & Ebp & H). injection H as E0.
      match type of E0 with init_history _ _ _ ?s1 = _ => destruct (init_history_char names extra save s1) as (ts & h & E & _ & _) end.
      rewrite E in E0. clear E. rewrite <- E0 in *. clear E0 s. ssti Hm. ssti Hb.
      rewrite (proj2 (Nat.eqb_neq _ _) Hb) in Hm.
      rewrite nth_error_map, nth_error_seq in Hm. destruct (Nat.ltb_spec m (length x0)); [|discriminate].
      inversion Hm. eapply perm_NoDup. apply Hp. auto.
    - pose proof (exec_wf _ _ _ E) as W. pose proof (perms_valid_ok _ _ H) as P.
      destruct (step_ok_char c o s s' W P H0) as (W' & (M1 & N1 & _) & _).
      destruct (step_idx_frame c o s s' H0) as (s1 & E1 & _ & _ & Ei).
      assert (Hb' : c_bsize c <> s_N s) by congruence.
      destruct (pre_step_batched c o s s1 W P Hb' E1) as (bs & _ & _ & _ & _ & Hi).
      assert (Hlt : m < s_M s).
      { rewrite <- M1. rewrite <- (proj1 (w_ind _ _ W' Hb)). eapply nth_error_lt; eauto. }
      rewrite Ei, (Hi m Hlt) in Hm. inversion Hm. apply NoDup_skipn.
      apply ind_next_nodup; auto. intros. eapply IHE; eauto.
    - apply terminate_char in H. destruct H as (act & re & -> & _). destruct s; eapply IHE; eauto.
    - destruct H as (al & sg & la & d & Hal & ->). destruct s; eapply IHE; eauto.
    - destruct (reset_char s) as (ts & h & Er & _). rewrite Er in *. destruct s; eapply IHE; eauto.
  Qed.

  Theorem batches_valid : forall (c : cfg) s log (o : orc) s', exec c s log -> perms_valid o s -> step c o s = Ok s' ->
    (c_bsize c = s_N s /\ s_cidx s' = (if length (s_active s) =? s_M s then IAll else IRuns (s_active s))) \/
    (c_bsize c < s_N s /\ exists bs, s_cidx s' = IBatch (s_active s) bs /\ length bs = length (s_active s) /\
       s_pidx s' = (if c_partial c then s_cidx s' else IRuns (s_active s)) /\
       forall b, In b bs -> length b = c_bsize c /\ (forall j, In j b -> j < s_N s) /\ (c_concat c = false -> NoDup b)).
  Proof.
    intros c s log o s' E P HS. pose proof (exec_wf _ _ _ E) as W. pose proof (perms_valid_ok _ _ P) as P'.
    destruct (step_idx_frame c o s s' HS) as (s1 & E1 & Ec & Ep & Ei).
    destruct (Nat.eq_dec (c_bsize c) (s_N s)) as [Hb|Hb].
    - left. split; auto. rewrite Ec. eapply pre_step_unbatched; eauto.
    - right. split. { pose proof (w_bs _ _ W). lia. }
      destruct (pre_step_batched c o s s1 W P' Hb E1) as (bs & A1 & A2 & A3 & A4 & A5).
      exists bs. rewrite Ec, Ep, A1. split; auto. split; auto. split; auto.
      intros b Hbb. apply In_nth_error in Hbb. destruct Hbb as [k Hk].
      assert (Hka : k < length (s_active s)) by (rewrite <- A2; eapply nth_error_lt; eauto).
      destruct (nth_error_lt_Some _ _ _ Hka) as [m Em].
      assert (Hm : m < s_M s) by (apply W; eapply nth_error_In; eauto).
      rewrite (A4 _ _ Em) in Hk. inversion Hk; subst b.
      destruct (ind_rows c o s W P' Hb) as [_ Hr]. destruct (Hr m Hm) as (_ & _ & Hlt).
      split; [|split].
      + rewrite firstn_length. pose proof (ind_next_len c o s m W P' Hb Hm). lia.
      + intros j Hj. apply Hlt. rewrite <- (firstn_skipn (c_bsize c)). apply in_or_app; auto.
      + intros Hc. apply NoDup_firstn. apply ind_next_nodup; auto. intros. eapply exec_ind_nodup; eauto.
  Qed.

  (** ** traces of batches *)

  Lemma served_exec : forall (c : cfg) m s log bs s', exec c s log -> served c m s bs s' ->
    exists log', exec c s' log' /\ s_M s' = s_M s /\ s_N s' = s_N s.
  Proof.
    intros c m s log bs s' E H. induction H.
    - eauto.
    - destruct IHserved as (l & E1 & M1 & N1). eexists. split; [eapply ex_step; eauto|].
      destruct (step_ok_char c o s1 s2 (exec_wf _ _ _ E1) (perms_valid_ok _ _ H0) H1) as (_ & (A & B & _) & _).
      split; congruence.
    - destruct IHserved as (l & E1 & M1 & N1). eexists. split; [eapply ex_term; eauto|].
      apply terminate_char in H0. destruct H0 as (act & re & -> & _). destruct s1; auto.
    - destruct IHserved as (l & E1 & M1 & N1). eexists. split; [eapply ex_params; eauto|].
      destruct H0 as (al & sg & la & d & Hal & ->). destruct s1; auto.
    - destruct IHserved as (l & E1 & M1 & N1). eexists. split; [eapply ex_reset; eauto|].
      destruct (reset_char s1) as (ts & h & -> & _). destruct s1; auto.
  Qed.

  (** one step of the batch machine for run [m] *)
  Lemma served_step : forall (c : cfg) s log (o : orc) s' m b, exec c s log -> perms_valid o s -> step c o s = Ok s' ->
    c_bsize c <> s_N s -> batch_of s' m = Some b ->
    m < s_M s /\ b = firstn (c_bsize c) (ind_next c o s m) /\
    nth_error (s_ind s') m = Some (skipn (c_bsize c) (ind_next c o s m)).
  Proof.
    intros c s log o s' m b E P HS Hb Hbt. pose proof (exec_wf _ _ _ E) as W. pose proof (perms_valid_ok _ _ P) as P'.
    destruct (step_idx_frame c o s s' HS) as (s1 & E1 & Ec & _ & Ei).
    destruct (pre_step_batched c o s s1 W P' Hb E1) as (bs & A1 & A2 & A3 & A4 & A5).
    unfold batch_of in Hbt. rewrite Ec, A1 in Hbt. pose proof (lookup_in _ _ _ _ _ Hbt) as Hi.
    destruct (In_nth_error _ _ Hi) as [k Hk].
    rewrite (lookup_nth _ _ _ _ k) in Hbt; auto. 2:{ apply incr_NoDup. apply W. }
    assert (Hm : m < s_M s) by (apply W; auto).
    rewrite (A4 _ _ Hk) in Hbt. inversion Hbt. rewrite Ei, (A5 m Hm). auto.
  Qed.

  Lemma served_other : forall (c : cfg) s s', (exists r, terminate c s = Ok (r, s')) \/ params_changed s s' \/ s' = reset s ->
    s_ind s' = s_ind s.
  Proof.
    intros c s s' [[r H]|[H|H]].
    - apply terminate_char in H. destruct H as (act & re & -> & _). destruct s; auto.
    - destruct H as (al & sg & la & d & Hal & ->). destruct s; auto.
    - destruct (reset_char s) as (ts & h & E & _). rewrite H, E. destruct s; auto.
  Qed.

  Lemma served_length : forall (c : cfg) m s log bs s', exec c s log -> c_bsize c <> s_N s -> served c m s bs s' ->
    forall b, In b bs -> length b = c_bsize c.
  Proof.
    intros c m s log bs s' E Hb H. induction H; intros b' Hb'; auto.
    - destruct Hb'.
    - apply in_app_or in Hb'. destruct Hb' as [|[<-|[]]]; auto.
      destruct (served_exec _ _ _ _ _ _ E H) as (l & E1 & M1 & N1).
      assert (Hb1 : c_bsize c <> s_N s1) by congruence.
      destruct (served_step c s1 l o s2 m b E1 H0 H1 Hb1 H2) as (Hm & -> & _).
      rewrite firstn_length. pose proof (ind_next_len c o s1 m (exec_wf _ _ _ E1) (perms_valid_ok _ _ H0) Hb1 Hm). lia.
  Qed.

  Lemma init_ind : forall (c : cfg) s m, constructed c s -> c_bsize c <> s_N s -> m < s_M s ->
    exists p, Permutation p (seq 0 (s_N s)) /\ nth_error (s_ind s) m = Some p.
  Proof.
    intros c s m H Hb Hm.
    destruct H as (x0 & chk & al & sg & la & dt & perm0 & names & extra & save & Hx & HN & Hbs & Hp & Hs & H).
    unfold init in H. apply bind_ok in H. destruct H as (bp & Ebp & H). injection H as E0.
    match type of E0 with init_history _ _ _ ?s1 = _ => destruct (init_history_char names extra save s1) as (ts & h & E & _ & _) end.
    rewrite E in E0. clear E. rewrite <- E0 in *. clear E0 s. ssti Hm. ssti Hb. sst.
    rewrite (proj2 (Nat.eqb_neq _ _) Hb). rewrite nth_error_map, nth_error_seq, (proj2 (Nat.ltb_lt _ _) Hm). eauto.
  Qed.

  Lemma concat_trace : forall (c : cfg) m s bs s', constructed c s -> c_concat c = true -> c_bsize c <> s_N s -> m < s_M s ->
    served c m s bs s' ->
    exists perms row, Forall (fun p => Permutation p (seq 0 (s_N s))) perms /\
      nth_error (s_ind s') m = Some row /\ concat bs ++ row = concat perms.
  Proof.
    intros c m s bs s' HC Hcc Hb Hm H. pose proof (ex_init c s HC) as E. induction H.
    - destruct (init_ind c s m HC Hb Hm) as (p & Hp & Hn). exists [p], p. split; auto. split; auto. cbn. rewrite app_nil_r; auto.
    - destruct IHserved as (perms & row & HF & Hn & Heq).
      destruct (served_exec _ _ _ _ _ _ E H) as (l & E1 & M1 & N1).
      assert (Hb1 : c_bsize c <> s_N s1) by congruence.
      destruct (served_step c s1 l o s2 m b E1 H0 H1 Hb1 H2) as (Hm1 & Eb & Ei).
      unfold ind_next in Eb, Ei. rewrite Hcc, (nth_error_nth _ _ _ Hn) in Eb, Ei.
      destruct (shape1 (s_ind s1) <? c_bsize c).
      + exists (perms ++ [o_perm o m]), (skipn (c_bsize c) (row ++ o_perm o m)). split; [|split; auto].
        * apply Forall_app. split; auto. constructor; auto. rewrite <- N1. apply H0; auto.
        * rewrite !concat_snoc. rewrite <- Heq, Eb, <- !app_assoc, firstn_skipn. auto.
      + exists perms, (skipn (c_bsize c) row). split; auto. split; auto.
        rewrite concat_snoc, Eb, <- app_assoc, firstn_skipn. auto.
    - destruct IHserved as (perms & row & HF & Hn & Heq). exists perms, row. rewrite (served_other c s1 s2); eauto.
    - destruct IHserved as (perms & row & HF & Hn & Heq). exists perms, row. rewrite (served_other c s1 s2); eauto.
    - destruct IHserved as (perms & row & HF & Hn & Heq). exists perms, row. rewrite (served_other c s1 (reset s1)); eauto.
  Qed.

  Lemma concat_length_const : forall A (l : list (list A)) b, (forall x, In x l -> length x = b) -> length (concat l) = length l * b.
  Proof.
    induction l; intros; cbn; auto. rewrite app_length, (IHl b), (H a); cbn; auto. intros. apply H. cbn; auto.
  Qed.

  Theorem concat_fair : forall (c : cfg) m s bs s' j, constructed c s -> c_concat c = true -> c_bsize c <> s_N s -> m < s_M s ->
    served c m s bs s' -> j < s_N s ->
    length bs * c_bsize c / s_N s <= uses j bs <= (length bs * c_bsize c + s_N s - 1) / s_N s.
  Proof.
    intros c m s bs s' j HC Hcc Hb Hm H Hj.
    destruct (concat_trace c m s bs s' HC Hcc Hb Hm H) as (perms & row & HF & _ & Heq).
    pose proof (prefix_balanced _ _ _ _ j HF Heq Hj) as Q. unfold uses.
    rewrite (concat_length_const _ bs (c_bsize c)) in Q; auto.
    eapply served_length; eauto. apply ex_init; auto.
  Qed.

  (** ** resample: epochs of [N / b] batches *)

  Definition chunk (q i : nat) (bs : list (list nat)) : list (list nat) := firstn q (skipn (i * q) bs).

  Lemma resample_trace : forall (c : cfg) m s bs s', constructed c s -> c_concat c = false -> c_bsize c <> s_N s -> m < s_M s ->
    served c m s bs s' ->
    exists i done cur p, bs = done ++ cur /\ length done = i * (s_N s / c_bsize c) /\ length cur <= s_N s / c_bsize c /\
      Permutation p (seq 0 (s_N s)) /\ concat cur = firstn (length cur * c_bsize c) p /\
      nth_error (s_ind s') m = Some (skipn (length cur * c_bsize c) p) /\
      forall i', i' < i -> exists p', Permutation p' (seq 0 (s_N s)) /\
        concat (chunk (s_N s / c_bsize c) i' bs) = firstn (s_N s / c_bsize c * c_bsize c) p'.
  Proof.
    intros c m s bs s' HC Hcc Hb Hm H. pose proof (ex_init c s HC) as E.
    set (q := s_N s / c_bsize c).
    induction H.
    - destruct (init_ind c s m HC Hb Hm) as (p & Hp & Hn). exists 0, [], [], p. cbn. repeat split; auto; try lia.
    - destruct IHserved as (i & done & cur & p & Eb & Ld & Lc & Hp & Hcur & Hind & Hold).
      destruct (served_exec _ _ _ _ _ _ E H) as (l & E1 & M1 & N1).
      assert (Hb1 : c_bsize c <> s_N s1) by congruence.
      destruct (served_step c s1 l o s2 m b E1 H0 H1 Hb1 H2) as (Hm1 & Ebb & Ei).
      pose proof (exec_wf _ _ _ E1) as W1. destruct (w_ind _ _ W1 Hb1) as (_ & Hw & _).
      pose proof (w_bs _ _ W1) as Hbs. rewrite N1 in Hbs.
      assert (Lp : length p = s_N s) by (rewrite (Permutation_length Hp), seq_length; auto).
      unfold ind_next in Ebb, Ei. rewrite Hcc, (nth_error_nth _ _ _ Hind) in Ebb, Ei.
      rewrite <- (Hw _ _ Hind), skipn_length, Lp in Ebb, Ei.
      assert (Hq : q * c_bsize c <= s_N s /\ s_N s < (q + 1) * c_bsize c).
      { unfold q. pose proof (Nat.div_mod (s_N s) (c_bsize c)). pose proof (Nat.mod_upper_bound (s_N s) (c_bsize c)). nia. }
      destruct (Nat.ltb_spec (s_N s - length cur * c_bsize c) (c_bsize c)) as [Hlt|Hge].
      + assert (Hcq : length cur = q) by nia.
        exists (S i), (done ++ cur), [b], (o_perm o m). split; [rewrite Eb; auto|].
        assert (Hp' : Permutation (o_perm o m) (seq 0 (s_N s))) by (rewrite <- N1; apply H0; auto).
        split. { rewrite app_length. lia. }
        split. { cbn. nia. }
        split; auto. cbn [length]. rewrite Nat.mul_1_l. split. { cbn. rewrite app_nil_r. auto. }
        split; auto. intros i' Hi'.
        destruct (Nat.eq_dec i' i) as [->|Hne].
        * exists p. split; auto. rewrite Eb. unfold chunk. rewrite <- app_assoc.
          rewrite skipn_app, skipn_all2 by lia. cbn [app]. rewrite Ld, Nat.sub_diag. cbn [skipn].
          rewrite firstn_app, Hcq, Nat.sub_diag. cbn [firstn]. rewrite app_nil_r.
          rewrite (firstn_all2 (n := q) cur) by lia. rewrite Hcur, Hcq. auto.
        * destruct (Hold i') as (p' & A & B); [lia|]. exists p'. split; auto. rewrite <- B. unfold chunk.
          f_equal. rewrite Eb in *. rewrite skipn_app, firstn_app.
          replace (q - length (skipn (i' * q) (done ++ cur))) with 0.
          { cbn. rewrite app_nil_r. auto. }
          rewrite skipn_length, app_length. nia.
      + exists i, done, (cur ++ [b]), p. split; [rewrite Eb, app_assoc; auto|]. split; auto.
        rewrite app_length. cbn [length]. split. { nia. }
        split; auto. split; [|split].
        * rewrite concat_snoc, Hcur, Ebb.
          rewrite <- (firstn_skipn (length cur * c_bsize c) (firstn ((length cur + 1) * c_bsize c) p)).
          rewrite firstn_firstn, Nat.min_l by lia. f_equal. rewrite firstn_skipn_comm. f_equal. f_equal. lia.
        * rewrite Ei. f_equal. rewrite skipn_skipn'. f_equal. lia.
        * intros i' Hi'. destruct (Hold i') as (p' & A & B); [lia|]. exists p'. split; auto. rewrite <- B. unfold chunk.
          f_equal. rewrite Eb in *. rewrite skipn_app, firstn_app.
          replace (q - length (skipn (i' * q) (done ++ cur))) with 0.
          { cbn. rewrite app_nil_r. auto. }
          rewrite skipn_length, app_length. nia.
    - destruct IHserved as (i & done & cur & p & X). exists i, done, cur, p. rewrite (served_other c s1 s2); eauto.
    - destruct IHserved as (i & done & cur & p & X). exists i, done, cur, p. rewrite (served_other c s1 s2); eauto.
    - destruct IHserved as (i & done & cur & p & X). exists i, done, cur, p. rewrite (served_other c s1 (reset s1)); eauto.
  Qed.

  (** the batches of epoch [i] *)
  Theorem resample_epochs : forall (c : cfg) m s bs s' i, constructed c s -> c_concat c = false -> c_bsize c <> s_N s -> m < s_M s ->
    served c m s bs s' ->
    NoDup (concat (chunk (s_N s / c_bsize c) i bs)) /\
    ((i + 1) * (s_N s / c_bsize c) <= length bs -> (c_bsize c * (s_N s / c_bsize c) = s_N s) ->
       Permutation (concat (chunk (s_N s / c_bsize c) i bs)) (seq 0 (s_N s))).
  Proof.
    intros c m s bs s' i HC Hcc Hb Hm H. pose proof (ex_init c s HC) as E. pose proof (exec_wf _ _ _ E) as W.
    pose proof (w_bs _ _ W) as Hbs.
    destruct (resample_trace c m s bs s' HC Hcc Hb Hm H) as (n & done & cur & p & Eb & Ld & Lc & Hp & Hcur & Hind & Hold).
    set (q := s_N s / c_bsize c) in *.
    assert (Hq : 1 <= q). { unfold q. apply Nat.div_le_lower_bound; lia. }
    destruct (lt_eq_lt_dec i n) as [[Hlt|Heq]|Hgt].
    - destruct (Hold i Hlt) as (p' & A & B). rewrite B. split. { apply NoDup_firstn. eapply perm_NoDup; eauto. }
      intros _ Hd. rewrite firstn_all2; auto. rewrite (Permutation_length A), seq_length. lia.
    - subst i. assert (Ec : chunk q n bs = cur).
      { unfold chunk. rewrite Eb, skipn_app, skipn_all2 by lia. rewrite Ld, Nat.sub_diag. cbn [skipn app].
        apply firstn_all2. auto. }
      rewrite Ec, Hcur. split. { apply NoDup_firstn. eapply perm_NoDup; eauto. }
      intros Hl Hd. rewrite Eb, app_length in Hl. assert (length cur = q) by nia.
      rewrite firstn_all2; auto. rewrite (Permutation_length Hp), seq_length. lia.
    - assert (Ec : chunk q i bs = []).
      { unfold chunk. rewrite skipn_all2; [apply firstn_nil|]. rewrite Eb, app_length. nia. }
      rewrite Ec. cbn. split; [constructor|]. intros Hl. rewrite Eb, app_length in Hl. nia.
  Qed.
End Batch.

Lemma init_batch_size_range : forall size N, 1 <= N -> (forall b, size = Some b -> 1 <= b) ->
  1 <= init_batch_size size N <= N /\
  (init_batch_size size N = N <-> (size = None \/ exists b, size = Some b /\ N <= b)).
Proof.
  intros [b|] N HN Hb; cbn.
  - specialize (Hb b eq_refl). split; [lia|]. split.
    + intros. right. exists b. split; auto. lia.
    + intros [|(b' & H & ?)]; [discriminate|]. inversion H. lia.
  - split; [lia|]. split; auto.
Qed.
