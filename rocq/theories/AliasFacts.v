(** * Facts about shared arrays *)
From Coq Require Import String List Arith Bool Lia.
From Verif Require Import Scalar Np NpFacts State Pdyn Exec PdynFacts PdynStep PdynOk StepFrame Memory Variant Alias AliasSpec.
Import ListNotations.
Open Scope nat_scope.
Open Scope list_scope.

Section Facts.
  Context {K V : Type} {O : KOps K}.
  Notation st := (st K V).
  Notation cfg := (cfg K V).
  Notation orc := (orc V).
  Notation mem := (mem V).

  Lemma deref_lt : forall (m : mem) a v, deref m a = Some v -> a < length (m_heap m).
  Proof. intros m a v H. apply nth_error_Some. unfold deref in H. rewrite H. discriminate. Qed.
  Lemma deref_write : forall v (m : mem) a, m_x m < length (m_heap m) -> deref (write_x v m) a = if a =? m_x m then Some v else deref m a.
  Proof.
    intros v m a H. unfold deref, write_x. cbn. rewrite mapi_nth. destruct (Nat.eqb_spec a (m_x m)) as [->|].
    - destruct (nth_error_lt_Some _ _ _ H) as (w & ->). auto.
    - destruct (nth_error (m_heap m) a); auto.
  Qed.
  Lemma deref_rebind : forall v (m : mem) a w, deref m a = Some w -> deref (rebind_x v m) a = Some w.
  Proof. intros. unfold deref, rebind_x in *. cbn. rewrite nth_error_app1; auto. eapply deref_lt; eauto. Qed.
  Lemma deref_rebind_new : forall v (m : mem), deref (rebind_x v m) (m_x (rebind_x v m)) = Some v.
  Proof. intros. unfold deref, rebind_x. cbn. rewrite nth_error_app2, Nat.sub_diag; auto. Qed.
  Lemma write_len : forall v (m : mem), length (m_heap (write_x v m)) = length (m_heap m).
  Proof. intros. unfold write_x. cbn. apply mapi_length. Qed.

  (** ** the memory invariant: x is the content of self.x; [h] lists the contents of the history entries after the first *)
  Record inv (x0 : arr V) (k : nat) (log : list (arr V * arr V)) (b : binding) (p : pproc V) (x : arr V) (h : list (arr V)) (m : mem) : Prop := {
    i_x : deref m (m_x m) = Some x;
    i_user : deref m (m_user m) = Some x0;
    i_u0 : m_user m = 0;
    i_x1 : m_x m <> 0;
    i_hist : exists t, m_hist m = (if k =? 0 then [] else 1 :: t) /\ ~ In (m_x m) t /\ ~ In 0 t /\ map (deref m) t = map Some h;
    i_first : match log with
              | [] => m_x m = 1 /\ x = x0
              | (y, _) :: _ =>
                  match b, p with
                  | InPlace, PNumpy nan _ => m_x m <> 1 /\ deref m 1 = Some (map (map nan) y)
                  | InPlace, PNew _ => m_x m <> 1 /\ deref m 1 = Some y
                  | InPlace, PWrite _ => m_x m = 1
                  | NewArray, _ => m_x m <> 1 /\ deref m 1 = Some x0
                  end
              end
  }.

  Lemma map_deref_write : forall v (m : mem) t, m_x m < length (m_heap m) -> ~ In (m_x m) t -> map (deref (write_x v m)) t = map (deref m) t.
  Proof. intros v m t H HI. apply map_ext_in. intros a Ha. rewrite deref_write by auto. destruct (Nat.eqb_spec a (m_x m)); auto. subst. contradiction. Qed.
  Lemma map_deref_rebind : forall v (m : mem) t h, map (deref m) t = map Some h -> map (deref (rebind_x v m)) t = map Some h.
  Proof.
    intros v m t. induction t as [|a t IH]; intros [|w h] H; try discriminate; auto. cbn [map] in *. injection H as H1 H2. rewrite (IH h H2). f_equal. apply deref_rebind. auto.
  Qed.
  Lemma hist_lt : forall (m : mem) t h, map (deref m) t = map Some h -> forall a, In a t -> a < length (m_heap m).
  Proof.
    intros m t. induction t as [|a t IH]; intros [|w h] H b Hb; try discriminate; [contradiction|]. cbn [map] in H. injection H as H1 H2.
    destruct Hb as [<-|Hb]; [eapply deref_lt; eauto|eauto].
  Qed.

  (** replacing the positions *)
  Definition set_b (b : binding) (v : arr V) (m : mem) : mem := match b with InPlace => write_x v m | NewArray => rebind_x v m end.

  Lemma frame_write : forall x0 k t v h (m : mem), deref m 0 = Some x0 -> m_x m <> 0 -> m_x m < length (m_heap m) ->
    m_hist m = (if k =? 0 then [] else 1 :: t) -> ~ In (m_x m) t -> map (deref m) t = map Some h ->
    deref (write_x v m) 0 = Some x0 /\ deref (write_x v m) (m_x m) = Some v /\ map (deref (write_x v m)) t = map Some h.
  Proof.
    intros. split; [|split]. rewrite deref_write by auto. destruct (Nat.eqb_spec 0 (m_x m)); congruence. rewrite deref_write by auto. rewrite Nat.eqb_refl. auto. rewrite map_deref_write; auto.
  Qed.

  Lemma inv_change : forall b p x0 k log x h (m : mem) y, inv x0 k log b p x h m ->
    inv x0 k (log ++ [(y, map (map (pp_fun p)) y)]) b p (map (map (pp_fun p)) y) h (mem_pp p y (set_b b y m)).
  Proof.
    intros b p x0 k log x h m y [X U U0 X1 (t & Ht & Tx & T0 & Hh) F]. pose proof (deref_lt _ _ _ X) as Lx. rewrite U0 in U.
    pose proof (deref_lt _ _ _ U) as L0. pose proof (hist_lt _ _ _ Hh) as Lt.
    assert (NR : forall (m' : mem) v, length (m_heap m') = length (m_heap m) -> m_x (rebind_x v m') <> 0 /\ m_x (rebind_x v m') <> 1 \/ length (m_heap m) <= 1).
    { intros m' v L. unfold rebind_x. cbn. rewrite L. lia. }
    assert (L1 : 1 < length (m_heap m)) by lia.
    assert (W : forall v, deref (write_x v m) 0 = Some x0 /\ deref (write_x v m) (m_x m) = Some v /\ map (deref (write_x v m)) t = map Some h).
    { intros v. eapply frame_write; eauto. }
    destruct b; cbn [set_b].
    - (* in place *)
      destruct p as [nan clip|f|f]; cbn [mem_pp pp_fun].
      + set (m1 := write_x y m). set (m2 := write_x (map (map nan) y) m1). set (m3 := rebind_x (map (map clip) (map (map nan) y)) m2).
        assert (E2 : forall a, deref m2 a = if a =? m_x m then Some (map (map nan) y) else deref m a).
        { intros a. unfold m2. rewrite deref_write by (unfold m1; rewrite write_len; auto). change (m_x m1) with (m_x m). destruct (Nat.eqb_spec a (m_x m)) as [->|N]; auto.
          unfold m1. rewrite deref_write by auto. apply Nat.eqb_neq in N. rewrite N. auto. }
        assert (Lm2 : length (m_heap m2) = length (m_heap m)) by (unfold m2, m1; rewrite !write_len; auto).
        constructor.
        * unfold m3. rewrite deref_rebind_new. f_equal. rewrite map_map. apply map_ext. intros r. rewrite map_map. auto.
        * change (m_user m3) with (m_user m). rewrite U0. unfold m3. apply deref_rebind. rewrite E2. destruct (Nat.eqb_spec 0 (m_x m)); congruence.
        * auto.
        * change (length (m_heap m2) <> 0). lia.
        * exists t. split; [exact Ht|]. split. { change (~ In (length (m_heap m2)) t). intros HI. apply Lt in HI. lia. } split; auto.
          unfold m3. apply map_deref_rebind. rewrite <- Hh. apply map_ext_in. intros a Ha. rewrite E2. destruct (Nat.eqb_spec a (m_x m)); auto. subst. contradiction.
        * assert (Hm3 : m_x m3 <> 1) by (change (length (m_heap m2) <> 1); lia).
          assert (D1 : forall w, deref m2 1 = Some w -> deref m3 1 = Some w) by (intros; unfold m3; apply deref_rebind; auto).
          destruct log as [|[y1 x1] log]; cbn [app]; split; auto; apply D1; rewrite E2.
          -- rewrite (proj1 F). rewrite Nat.eqb_refl. auto.
          -- destruct F as [F1 F2]. destruct (Nat.eqb_spec 1 (m_x m)) as [E|E]; [exfalso; apply F1; symmetry; exact E|exact F2].
      + set (m1 := write_x y m). set (m3 := rebind_x (map (map f) y) m1). destruct (W y) as (W0 & W1 & W2).
        assert (Lm1 : length (m_heap m1) = length (m_heap m)) by (unfold m1; rewrite write_len; auto).
        constructor.
        * unfold m3. rewrite deref_rebind_new. auto.
        * change (m_user m3) with (m_user m). rewrite U0. unfold m3. apply deref_rebind. auto.
        * auto.
        * change (length (m_heap m1) <> 0). lia.
        * exists t. split; [exact Ht|]. split. { change (~ In (length (m_heap m1)) t). intros HI. apply Lt in HI. lia. } split; auto.
          unfold m3. apply map_deref_rebind. auto.
        * assert (Hm3 : m_x m3 <> 1) by (change (length (m_heap m1) <> 1); lia).
          destruct log as [|[y1 x1] log]; cbn [app]; split; auto; unfold m3; apply deref_rebind; unfold m1; rewrite deref_write by auto.
          -- rewrite (proj1 F). rewrite Nat.eqb_refl. auto.
          -- destruct F as [F1 F2]. destruct (Nat.eqb_spec 1 (m_x m)); congruence.
      + set (m1 := write_x y m). set (m3 := write_x (map (map f) y) m1). 
        assert (E2 : forall a, deref m3 a = if a =? m_x m then Some (map (map f) y) else deref m a).
        { intros a. unfold m3. rewrite deref_write by (unfold m1; rewrite write_len; auto). change (m_x m1) with (m_x m). destruct (Nat.eqb_spec a (m_x m)) as [->|N]; auto.
          unfold m1. rewrite deref_write by auto. apply Nat.eqb_neq in N. rewrite N. auto. }
        constructor.
        * change (m_x m3) with (m_x m). rewrite E2, Nat.eqb_refl. auto.
        * change (m_user m3) with (m_user m). rewrite U0, E2. destruct (Nat.eqb_spec 0 (m_x m)); congruence.
        * auto.
        * auto.
        * exists t. split; [exact Ht|]. split; [exact Tx|]. split; auto. rewrite <- Hh. apply map_ext_in. intros a Ha. rewrite E2. destruct (Nat.eqb_spec a (m_x m)); auto. subst. contradiction.
        * destruct log as [|[y1 x1] log]; cbn [app]; tauto.
    - (* a new array *)
      assert (R : exists m3, mem_pp p y (rebind_x y m) = m3 /\ deref m3 (m_x m3) = Some (map (map (pp_fun p)) y) /\ m_user m3 = 0 /\ m_hist m3 = m_hist m /\
                 length (m_heap m) <= m_x m3 /\ forall a w, deref m a = Some w -> deref m3 a = Some w).
      { eexists. split; [reflexivity|]. pose proof (deref_rebind_new y m) as RN.
        assert (LR : m_x (rebind_x y m) < length (m_heap (rebind_x y m))) by (eapply deref_lt; eauto).
        assert (WR : forall v a w, deref m a = Some w -> deref (write_x v (rebind_x y m)) a = Some w).
        { intros v a w Ha. rewrite deref_write by auto. pose proof (deref_lt _ _ _ Ha). destruct (Nat.eqb_spec a (m_x (rebind_x y m))) as [E|]. exfalso. subst a. cbn in H. lia. apply deref_rebind. auto. }
        destruct p as [nan clip|f|f]; cbn [mem_pp pp_fun].
        - split. { rewrite deref_rebind_new. f_equal. rewrite map_map. apply map_ext. intros r. rewrite map_map. auto. }
          split; [exact U0|]. split; [reflexivity|]. split. { unfold rebind_x at 1. cbn [m_x]. rewrite write_len. unfold rebind_x. cbn. rewrite app_length. lia. }
          intros a w Ha. apply deref_rebind, WR. auto.
        - split. { apply deref_rebind_new. } split; [exact U0|]. split; [reflexivity|]. split. { unfold rebind_x. cbn. rewrite app_length. lia. }
          intros a w Ha. apply deref_rebind, deref_rebind. auto.
        - split. { rewrite deref_write by auto. change (m_x (write_x (map (map f) y) (rebind_x y m))) with (m_x (rebind_x y m)). rewrite Nat.eqb_refl. auto. }
          split; [exact U0|]. split; [reflexivity|]. split. { unfold rebind_x. cbn. lia. } intros a w Ha. apply WR. auto. }
      destruct R as (m3 & -> & R1 & R2 & R3 & R4 & R5). constructor; auto.
      + rewrite R2. apply R5. auto.
      + lia.
      + exists t. split; [congruence|]. split. { intros HI. apply Lt in HI. lia. } split; auto.
        clear - Hh R5. revert h Hh. induction t as [|a t IH]; intros [|w h] H; try discriminate; auto. cbn [map] in *. injection H as H1 H2. rewrite (R5 _ _ H1). f_equal. auto.
      + assert (m_x m3 <> 1) by lia. destruct log as [|[y1 x1] log]; cbn [app]; split; auto; apply R5.
        * destruct F as [F1 F2]. rewrite F1, F2 in X. auto.
        * destruct F as [F1 F2]; auto.
  Qed.

  Lemma inv_record : forall b p x0 k log x h (m : mem), k <> 0 -> inv x0 k log b p x h m -> inv x0 k log b p x (h ++ [x]) (record_x m).
  Proof.
    intros b p x0 k log x h m Hk [X U U0 X1 (t & Ht & Tx & T0 & Hh) F]. unfold record_x. rewrite X. pose proof (deref_lt _ _ _ X) as Lx.
    assert (G : forall a w, deref m a = Some w -> deref (mkmem (m_heap m ++ [x]) (m_user m) (m_x m) (m_hist m ++ [length (m_heap m)])) a = Some w).
    { intros a w Ha. unfold deref in *. cbn. rewrite nth_error_app1; auto. eapply deref_lt; eauto. }
    constructor; cbn [m_x m_user m_hist]; auto.
    - exists (t ++ [length (m_heap m)]). apply Nat.eqb_neq in Hk. split. { rewrite Ht, Hk. reflexivity. } split. { intros HI. apply in_app_or in HI. destruct HI as [HI|[E|[]]]; [auto|lia]. }
      split. { intros HI. apply in_app_or in HI. destruct HI as [HI|[E|[]]]; [auto|lia]. }
      rewrite !map_app. f_equal. clear - Hh G. revert h Hh. induction t as [|a t IH]; intros [|w h] H; try discriminate; auto. cbn [map] in *. injection H as H1 H2. rewrite (G _ _ H1). f_equal. auto.
      cbn. unfold deref. cbn. rewrite nth_error_app2, Nat.sub_diag; auto.
    - destruct log as [|[y1 x1] log]; auto. destruct b, p; auto; destruct F as [F1 F2]; split; auto.
  Qed.
  Lemma inv_records : forall b p x0 k log x m n h, k <> 0 -> inv x0 k log b p x h m -> inv x0 k log b p x (h ++ repeat x n) (Nat.iter n record_x m).
  Proof.
    intros b p x0 k log x m n. induction n as [|n IH]; intros h Hk I. cbn. rewrite app_nil_r. auto.
    cbn [Nat.iter]. replace (repeat x (S n)) with (repeat x n ++ [x]). 2:{ clear. induction n; cbn in *; congruence. } rewrite app_assoc. apply inv_record; auto.
  Qed.

  (** ** the history by value *)
  Definition clean (ts : list trk) : Prop := forall n b, In (TDefault n b) ts -> n <> "x"%string.

  Lemma append_other : forall k v (s s' : st), hist_append k v s = Ok s' -> k <> "x"%string -> hist_get "x" (s_hist s') = hist_get "x" (s_hist s).
  Proof.
    intros k v s s' H Hk. apply hist_append_frame in H. destruct H as (l & _ & ->). sst. rewrite hist_get_set. destruct (String.eqb_spec "x" k); auto. congruence.
  Qed.
  Lemma trk_update_x : forall (c : cfg) t (s : st) t' s', trk_update c t s = Ok (t', s') -> (forall n b, t = TDefault n b -> n <> "x"%string) ->
    is_tx t' = is_tx t /\ (forall n b, t' = TDefault n b -> n <> "x"%string) /\
    hist_get "x" (s_hist s') = option_map (fun l => l ++ (if is_tx t then [HX (s_x s)] else [])) (hist_get "x" (s_hist s)).
  Proof.
    intros c t s t' s' H Hd.
    assert (Oth : forall o : option (list (hval K V)), o = option_map (fun l => l ++ []) o) by (intros [l|]; cbn; rewrite ?app_nil_r; auto).
    destruct t; cbn [trk_update is_tx] in *.
    - apply bind_ok in H. destruct H as (s1 & E & H). inversion H; subst. split; auto. split; [discriminate|]. apply hist_append_frame in E. destruct E as (l & El & ->). sst. rewrite hist_get_set, El. auto.
    - apply bind_ok in H. destruct H as (s1 & E & H). inversion H; subst. split; auto. split; [discriminate|]. rewrite (append_other _ _ _ _ E) by discriminate. apply Oth.
    - apply bind_ok in H. destruct H as (s1 & E & H). inversion H; subst. split; auto. split; [discriminate|]. rewrite (append_other _ _ _ _ E) by discriminate. apply Oth.
    - apply bind_ok in H. destruct H as (s1 & E & H). inversion H; subst. split; auto. split; [discriminate|]. rewrite (append_other _ _ _ _ E) by discriminate. apply Oth.
    - destruct (s_drift s); [|discriminate]. apply bind_ok in H. destruct H as (s1 & E & H). inversion H; subst. split; auto. split; [discriminate|]. rewrite (append_other _ _ _ _ E) by discriminate. apply Oth.
    - apply bind_ok in H. destruct H as (s1 & E & H). apply bind_ok in H. destruct H as (s2 & E' & H). inversion H; subst. split; auto. split; [discriminate|].
      rewrite (append_other _ _ _ _ E') by discriminate. rewrite (append_other _ _ _ _ E) by discriminate. apply Oth.
    - specialize (Hd name tracking eq_refl). destruct tracking.
      + destruct (attr_of name s).
        * apply bind_ok in H. destruct H as (s1 & E & H). inversion H; subst. split; auto. split. { intros n b E'. injection E' as <- <-. auto. } rewrite (append_other _ _ _ _ E) by auto. apply Oth.
        * inversion H; subst. split; auto. split. { intros n b E'. injection E' as <- <-. auto. } apply Oth.
      + inversion H; subst. split; auto. split. { intros n b E'. injection E' as <- <-. auto. } apply Oth.
  Qed.
  Lemma trks_update_x : forall (c : cfg) ts (s : st) ts' s', trks_update c ts s = Ok (ts', s') -> clean ts ->
    n_tx ts' = n_tx ts /\ clean ts' /\ hist_get "x" (s_hist s') = option_map (fun l => l ++ repeat (HX (s_x s)) (n_tx ts)) (hist_get "x" (s_hist s)).
  Proof.
    intros c ts. induction ts as [|t ts IH]; intros s ts' s' H Hc; cbn [trks_update] in H.
    - inversion H; subst. split; auto. split; auto. cbn. destruct (hist_get "x" (s_hist s')); cbn; rewrite ?app_nil_r; auto.
    - apply bind_ok in H. destruct H as ([t' s1] & E & H). cbn [fst snd] in H. apply bind_ok in H. destruct H as ([ts1 s2] & E2 & H). cbn [fst snd] in H. inversion H; subst. clear H.
      destruct (trk_update_x _ _ _ _ _ E) as (A1 & A2 & A3). { intros n b ->. apply (Hc n b). left; auto. }
      destruct (IH _ _ _ E2) as (B1 & B2 & B3). { intros n b HI. apply (Hc n b). right; auto. }
      apply trk_update_frame in E. destruct E as (h & ->). sstall. unfold n_tx in *. cbn [filter]. rewrite A1.
      split. { destruct (is_tx t); cbn [length]; auto. }
      split. { intros n b [->|HI]; [eapply A2; eauto|eapply B2; eauto]. }
      rewrite B3, A3. destruct (hist_get "x" (s_hist s)) as [l|]; cbn; auto. f_equal. rewrite <- app_assoc. f_equal. destruct (is_tx t); auto.
  Qed.

  Definition cnt_x (names : list string) : nat := length (filter (String.eqb "x") names).
  Lemma known_tx : forall n, is_tx (known_track n) = String.eqb "x" n.
  Proof.
    intros n. unfold known_track. destruct (String.eqb_spec n "consensus"); [subst; auto|]. destruct (String.eqb_spec n "drift_mean"); [subst; auto|]. destruct (String.eqb_spec n "drift"); [subst; auto|].
    destruct (String.eqb_spec n "update_norm"); [subst; auto|]. destruct (String.eqb_spec n "energy"); [subst; auto|]. destruct (String.eqb_spec n "x"); [subst; auto|].
    cbn [is_tx]. symmetry. apply String.eqb_neq. congruence.
  Qed.
  Lemma known_clean : forall n m b, known_track n = TDefault m b -> m <> "x"%string.
  Proof.
    intros n m b. unfold known_track. destruct (String.eqb n "consensus"); [discriminate|]. destruct (String.eqb n "drift_mean"); [discriminate|]. destruct (String.eqb n "drift"); [discriminate|].
    destruct (String.eqb n "update_norm"); [discriminate|]. destruct (String.eqb n "energy"); [discriminate|]. destruct (String.eqb_spec n "x"); [discriminate|]. intros E. injection E as <- <-. auto.
  Qed.
  Lemma tracks_x : forall names, n_tx (map known_track names) = cnt_x names /\ clean (map known_track names).
  Proof.
    intros names. split.
    - unfold n_tx, cnt_x. induction names; cbn [map filter]; auto. rewrite known_tx. destruct (String.eqb "x" a); cbn [length]; auto.
    - intros n b H. apply in_map_iff in H. destruct H as (m & E & _). eapply known_clean; eauto.
  Qed.
  Lemma trk_init_x : forall ts (s : st), clean ts -> n_tx ts <> 0 \/ hist_get "x" (s_hist s) = Some [HX (s_x s)] ->
    hist_get "x" (s_hist (fold_left (fun acc t => trk_init t acc) ts s)) = Some [HX (s_x s)].
  Proof.
    induction ts as [|t ts IH]; intros s Hc H; cbn [fold_left].
    - destruct H as [H|H]; auto. exfalso. apply H. reflexivity.
    - assert (Ex : s_x (trk_init t s) = s_x s) by (destruct t; reflexivity). rewrite <- Ex at 1. rewrite IH. { auto. } { intros n b HI. apply (Hc n b). right; auto. }
      rewrite Ex. destruct H as [H|H].
      + unfold n_tx in *. cbn [filter] in H. destruct t; cbn [is_tx] in H; try (left; exact H). right. cbn [trk_init]. sst. rewrite hist_get_set. reflexivity.
      + right. destruct t; cbn [trk_init]; sst; rewrite ?hist_get_set; try exact H; try reflexivity.
        assert (name <> "x"%string) by (eapply Hc; left; eauto). destruct (String.eqb_spec "x" name); [congruence|]. exact H.
  Qed.

  (** ** executions *)
  Theorem mrun_inv : forall b p inner (c : cfg) x0 names log s m, inner_keeps inner -> pp_is c p -> mrun b p inner c x0 names log s m ->
    exists h, inv x0 (cnt_x names) log b p (s_x s) h m /\ clean (s_tracks s) /\ n_tx (s_tracks s) = cnt_x names /\
      (cnt_x names <> 0 -> hist_get "x" (s_hist s) = Some (HX x0 :: map (@HX K V) h)) /\ (forall y x, In (y, x) log -> x = map (map (c_pp c)) y).
  Proof.
    intros b p inner c x0 names log s m HK HP H. induction H as [chk al sg la dt perm0 save s H|log s m o y s' m' H IH HS|log s m r s' H IH HT|log s m s' H IH HPC].
    - unfold init in H. apply bind_ok in H. destruct H as (bp & _ & H).
      match type of H with Ok (init_history _ _ _ ?s1) = _ => set (s0 := s1) in * end. assert (Hx0 : s_x s0 = x0) by reflexivity. clearbody s0.
      injection H as <-. destruct (init_history_char (Some names) [] save s0) as (ts & h & E & _ & Ets). cbn [app] in Ets. rewrite E. sst. rewrite Hx0.
      destruct (tracks_x names) as [T1 T2]. exists []. rewrite Ets. split.
      + constructor; try (cbn; auto; fail). cbn [mem_init m_hist]. exists []. rewrite T1. split; auto.
      + split; auto. split; auto. split; [|intros; contradiction]. intros Hk. assert (EH : h = s_hist (init_history (Some names) [] save s0)) by (rewrite E; sst; auto). rewrite EH. unfold init_history. cbv zeta. cbn [app].
        cbn [map]. rewrite trk_init_x. sst. rewrite Hx0. auto. auto. left. rewrite T1. auto.
    - destruct IH as (h & I & C & NT & HH & HL). unfold mem_step in HS. apply bind_ok in HS. destruct HS as (s1 & E1 & HS). apply bind_ok in HS. destruct HS as (s2 & E2 & HS).
      cbv zeta in HS. apply bind_ok in HS. destruct HS as (s3 & E3 & HS). injection HS as <- <- <-.
      apply pre_step_frame in E1. destruct E1 as (ci & pi & ind & xo & ->). destruct (HK _ _ _ _ E2) as (K1 & K2 & K3 & K4). sstall.
      set (x' := map (map (c_pp c)) (s_x s2)).
      assert (Ep : map (map (pp_fun p)) (s_x s2) = x'). { unfold x'. apply map_ext. intros r. apply map_ext. intros v. symmetry. apply HP. }
      pose proof (inv_change b p x0 (cnt_x names) log (s_x s) h m (s_x s2) I) as I2. rewrite Ep in I2.
      assert (P3 : s_x s3 = x' /\ exists s4, s_x s4 = x' /\ s_tracks s4 = s_tracks s2 /\ s_hist s4 = s_hist s2 /\ s_it s4 = s_it s2 /\ s_save s4 = s_save s2 /\ exists s5, track c s4 = Ok s5 /\ s_tracks s3 = s_tracks s5 /\ s_hist s3 = s_hist s5).
      { unfold post_step in E3. cbv zeta in E3. apply bind_ok in E3. destruct E3 as (sa & Ea & E3). apply bind_ok in E3. destruct E3 as (s5 & E5 & E3). injection E3 as <-.
        assert (Fa : exists y1 y2 y3 y4 y5, update_best sa = set_bp y1 (set_be y2 (set_bce y3 (set_bcp y4 (set_fmin y5
           match s_xold (set_x x' s2) with Some xo0 => set_udiff (map2 (fun r ro => c_norm c (map2 (c_vsub c) r ro)) (s_x (set_x x' s2)) xo0) (set_x x' s2) | None => set_x x' s2 end))))).
        { unfold update_best_cur in Ea. apply bind_ok in Ea. destruct Ea as (am & _ & Ea). cbv zeta in Ea. apply bind_ok in Ea. destruct Ea as (pp & _ & Ea). apply bind_ok in Ea. destruct Ea as (ee & _ & Ea). injection Ea as <-.
          unfold update_best. do 5 eexists. fold x'. reflexivity. }
        destruct Fa as (y1 & y2 & y3 & y4 & y5 & Fa). rewrite Fa in E5. pose proof (track_frame _ _ _ E5) as (ti & ts & hh & E5').
        split. { sst. rewrite E5'. sst. destruct (s_xold s2); reflexivity. }
        eexists. split; [|split; [|split; [|split; [|split; [|exists s5; split; [exact E5|sst; auto]]]]]]; sst; destruct (s_xold s2); reflexivity. }
      destruct P3 as (P3 & s4 & Q1 & Q2 & Q3 & Q4 & Q5 & s5 & Et & Q6 & Q7). rewrite P3.
      unfold track in Et. destruct (s_save s4) as [|sv] eqn:Esv; [discriminate|]. rewrite <- Q5, <- Q4. 
      rewrite Q6, Q7. destruct (s_it s4 mod S sv =? 0).
      + apply bind_ok in Et. destruct Et as ([ts1 s6] & Eu & Et). cbn [fst snd] in Et. injection Et as <-. rewrite Q2, K3 in Eu.
        destruct (trks_update_x _ _ _ _ _ Eu C) as (U1 & U2 & U3). sst. rewrite K3, U1, NT. rewrite Q1, Q3, K4 in U3. rewrite NT in U3.
        destruct (Nat.eq_dec (cnt_x names) 0) as [Ez|Ez].
        * exists h. rewrite Ez in *. cbn [Nat.iter]. split; [exact I2|]. split; auto. split; auto. split; [congruence|].
          intros y0 x1 HI. apply in_app_or in HI. destruct HI as [HI|[HI|[]]]; auto. injection HI as <- <-. reflexivity.
        * exists (h ++ repeat x' (cnt_x names)). split; [apply inv_records; auto|]. split; auto. split; auto. split.
          { intros _. rewrite U3, (HH Ez). cbn [option_map app]. rewrite map_app. f_equal. f_equal. f_equal. clear. induction (cnt_x names); cbn; congruence. }
          intros y0 x1 HI. apply in_app_or in HI. destruct HI as [HI|[HI|[]]]; auto. injection HI as <- <-. reflexivity.
      + injection Et as <-. rewrite Q2, Q3, K3, K4. exists h. split; [exact I2|]. split; auto. split; auto. split; auto.
        intros y0 x1 HI. apply in_app_or in HI. destruct HI as [HI|[HI|[]]]; auto. injection HI as <- <-. reflexivity.
    - apply terminate_char in HT. destruct HT as (act & reason & -> & _). sst. auto.
    - destruct HPC as (al & sg & la & d & _ & ->). sst. auto.
  Qed.

  (** *** consequences *)
  (** the user's array is never modified, nor reachable from the dynamic *)
  Definition user_ok (x0 : arr V) (m : mem) : Prop := deref m 0 = Some x0 /\ m_user m = 0 /\ m_x m <> 0 /\ m_x m < length (m_heap m) /\ ~ In 0 (m_hist m).
  Lemma user_write : forall x0 v m, user_ok x0 m -> user_ok x0 (write_x v m).
  Proof.
    intros x0 v m (A & B & C & D & E). split; [|split; [|split; [|split]]]; auto. rewrite deref_write by auto. destruct (Nat.eqb_spec 0 (m_x m)); congruence. rewrite write_len. auto.
  Qed.
  Lemma user_rebind : forall x0 v m, user_ok x0 m -> user_ok x0 (rebind_x v m).
  Proof.
    intros x0 v m (A & B & C & D & E). split; [|split; [|split; [|split]]]; auto. apply deref_rebind; auto. cbn. lia. cbn. rewrite app_length. cbn. lia.
  Qed.
  Lemma user_record : forall x0 m, user_ok x0 m -> user_ok x0 (record_x m).
  Proof.
    intros x0 m (A & B & C & D & E). unfold record_x. destruct (deref m (m_x m)) as [v|]; [|repeat split; auto]. split; [|split; [|split; [|split]]]; auto.
    change (nth_error (m_heap m ++ [v]) 0 = Some x0). rewrite nth_error_app1 by lia. auto. cbn [m_x m_heap]. rewrite app_length. lia.
    cbn [m_hist]. intros HI. apply in_app_or in HI. destruct HI as [HI|[HI|[]]]; [auto|lia].
  Qed.
  Theorem user_array_kept : forall b p inner (c : cfg) x0 s m, mexec b p inner c x0 s m ->
    deref m (m_user m) = Some x0 /\ m_user m <> m_x m /\ ~ In (m_user m) (m_hist m).
  Proof.
    intros b p inner c x0 s m H. assert (G : user_ok x0 m).
    { induction H as [chk al sg la dt perm0 names extra save s H|s m o y s' m' H IH HS|s m r s' H IH HT|s m s' H IH HPC|s m H IH]; auto.
      - unfold mem_init. split; [|split; [|split; [|split]]]; cbn; auto. destruct (n_tx _ =? 0); cbn; intuition discriminate.
      - unfold mem_step in HS. apply bind_ok in HS. destruct HS as (s1 & E1 & HS). apply bind_ok in HS. destruct HS as (s2 & E2 & HS).
        cbv zeta in HS. apply bind_ok in HS. destruct HS as (s3 & E3 & HS). injection HS as <- <- <-.
        assert (G2 : user_ok x0 (mem_pp p (s_x s2) (match b with InPlace => write_x (s_x s2) m | NewArray => rebind_x (s_x s2) m end))).
        { assert (G1 : user_ok x0 (match b with InPlace => write_x (s_x s2) m | NewArray => rebind_x (s_x s2) m end)) by (destruct b; [apply user_write|apply user_rebind]; auto).
          destruct p; cbn [mem_pp]. apply user_rebind, user_write; auto. apply user_rebind; auto. apply user_write; auto. }
        destruct (_ =? 0); auto. induction (n_tx (s_tracks s2)); cbn [Nat.iter]; auto. apply user_record; auto.
      - destruct IH as (A & B & C & D & E). repeat split; auto. }
    destruct G as (A & B & C & D & E). rewrite B. auto.
  Qed.
  Lemma cnt_pos : forall names, In "x"%string names -> cnt_x names <> 0.
  Proof. intros names H. unfold cnt_x. assert (HI : In "x"%string (filter (String.eqb "x") names)) by (apply filter_In; split; auto). destruct (filter _ names); [contradiction|discriminate]. Qed.

  (** entries after the first are the recorded positions, for ever *)
  Theorem later_entries : forall b p inner (c : cfg) x0 names log s m, inner_keeps inner -> pp_is c p -> In "x"%string names -> mrun b p inner c x0 names log s m ->
    deref m (m_x m) = Some (s_x s) /\ exists a t h, m_hist m = a :: t /\ map (deref m) t = map Some h /\ hist_get "x" (s_hist s) = Some (HX x0 :: map (@HX K V) h).
  Proof.
    intros b p inner c x0 names log s m HK HP HI H. destruct (mrun_inv _ _ _ _ _ _ _ _ _ HK HP H) as (h & [X U U0 X1 (t & Ht & Tx & T0 & Hh) F] & _ & _ & HH & _).
    split; auto. pose proof (cnt_pos _ HI) as Hk. exists 1, t, h. split; auto. apply Nat.eqb_neq in Hk. rewrite Hk in Ht. auto.
  Qed.
  (** the first entry *)
  Theorem first_entry : forall b p inner (c : cfg) x0 names log s m, inner_keeps inner -> pp_is c p -> In "x"%string names -> mrun b p inner c x0 names log s m ->
    exists a t, m_hist m = a :: t /\
      match log with
      | [] => deref m a = Some x0
      | (y, x) :: _ => x = map (map (c_pp c)) y /\
          match b, p with
          | InPlace, PNumpy nan _ => deref m a = Some (map (map nan) y)
          | InPlace, PNew _ => deref m a = Some y
          | InPlace, PWrite _ => deref m a = Some (s_x s)
          | NewArray, _ => deref m a = Some x0
          end
      end.
  Proof.
    intros b p inner c x0 names log s m HK HP HI H. destruct (mrun_inv _ _ _ _ _ _ _ _ _ HK HP H) as (h & [X U U0 X1 (t & Ht & Tx & T0 & Hh) F] & _ & _ & HH & HL).
    pose proof (cnt_pos _ HI) as Hk. apply Nat.eqb_neq in Hk. rewrite Hk in Ht. exists 1, t. split; auto. destruct log as [|[y x] log].
    - destruct F as [F1 F2]. rewrite F1 in X. congruence.
    - split. { apply HL. left; auto. } destruct b, p; try tauto. rewrite F in X. auto.
  Qed.
  (** CBO with the default post-processing: after the first step the entry is not the initial ensemble, unless the step did not move it *)
  Theorem first_entry_lost : forall nan clip inner (c : cfg) x0 names log s m y x, inner_keeps inner -> pp_is c (PNumpy nan clip) -> In "x"%string names ->
    mrun InPlace (PNumpy nan clip) inner c x0 names ((y, x) :: log) s m -> x <> map (map clip) x0 ->
    exists a t w, m_hist m = a :: t /\ deref m a = Some w /\ w <> x0 /\ x = map (map clip) w.
  Proof.
    intros nan clip inner c x0 names log s m y x HK HP HI H Hx. destruct (first_entry _ _ _ _ _ _ _ _ _ HK HP HI H) as (a & t & Ht & Hy & D).
    exists a, t, (map (map nan) y). split; auto. split; auto. assert (E : x = map (map clip) (map (map nan) y)). { rewrite Hy. rewrite map_map. apply map_ext. intros r. rewrite map_map. apply map_ext. intros v. rewrite HP. auto. }
    split; auto. intros E'. apply Hx. rewrite E, E'. auto.
  Qed.

  Lemma cbo_keeps : inner_keeps (@cbo_step K V O).
  Proof. intros c o s s' H. apply cbo_step_frame in H. destruct H as (x & d & cep & e & cp & fc & nf & ->). sst. auto. Qed.
  Lemma hyper_keeps : forall S : @surface K V, inner_keeps (fun (c : cfg) o s => r <- hyper_inner S c o s tt ;; Ok (fst r)).
  Proof.
    intros S c o s s' H. apply bind_ok in H. destruct H as ([s1 u] & H & E). injection E as <-. cbn [fst]. unfold hyper_inner in H. apply bind_ok in H. destruct H as (s2 & E2 & H).
    apply compute_consensus_frame in E2. destruct E2 as (cep & e & cp & fc & nf & ->).
    repeat (apply bind_ok in H; destruct H as (? & _ & H)). injection H as <- _. sst. auto.
  Qed.
End Facts.
