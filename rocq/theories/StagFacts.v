(** * Facts about consensus_stagnation *)
From Coq Require Import List Arith Bool Lia.
From Verif Require Import Scalar ScalarFacts Np NpFacts State Pdyn PdynFacts PdynStep Resampling ResampSpec.
Import ListNotations.

Lemma In_skipn : forall A (a : A) n l, In a (skipn n l) <-> exists j, n <= j /\ nth_error l j = Some a.
Proof.
  induction n as [|n IH]; intros l.
  - cbn. split.
    + intros H. apply In_nth_error in H. destruct H as [j H]. exists j. split; [lia | auto].
    + intros (j & _ & H). eapply nth_error_In; eauto.
  - destruct l as [|b l]; cbn.
    + split; [tauto |]. intros (j & _ & H). destruct j; discriminate.
    + rewrite IH. split.
      * intros (j & L & H). exists (S j). split; [lia | auto].
      * intros (j & L & H). destruct j; [lia |]. exists j. split; [lia | auto].
Qed.

Lemma last_n_In : forall A (a : A) p l, In a (last_n p l) <->
  exists j, (p = 0 \/ length l <= j + p) /\ nth_error l j = Some a.
Proof.
  intros. destruct p as [|p]; unfold last_n.
  - split.
    + intros H. apply In_nth_error in H. destruct H as [j H]. exists j. auto.
    + intros (j & _ & H). eapply nth_error_In; eauto.
  - rewrite In_skipn. split; intros (j & L & H); exists j; (split; [| auto]); [right; lia | destruct L; lia].
Qed.

Lemma skipn_twice : forall A a b (l : list A), skipn a (skipn b l) = skipn (a + b) l.
Proof.
  intros A a b. induction b as [|b IH]; intros l; [rewrite Nat.add_0_r; auto |].
  destruct l as [|x l]; [rewrite !skipn_nil; auto |]. rewrite Nat.add_succ_r. cbn. apply IH.
Qed.

Lemma last_n_app : forall A p (l : list A) a, last_n p (last_n p l ++ [a]) = last_n p (l ++ [a]).
Proof.
  intros. destruct p as [|p]; unfold last_n; auto.
  rewrite !app_length, skipn_length. cbn [length].
  destruct (le_lt_dec (length l) (S p)).
  - replace (length l - S p) with 0 by lia. cbn [skipn]. f_equal. lia.
  - rewrite !skipn_app. rewrite skipn_length.
    replace (length l - (length l - S p) + 1 - S p) with 1 by lia.
    replace (length l + 1 - S p) with (1 + (length l - S p)) by lia.
    rewrite skipn_twice. f_equal. f_equal. lia.
Qed.

Lemma last_n_nonempty : forall A p (l : list A) a, last_n p (l ++ [a]) <> [].
Proof.
  intros A p l a E. assert (H : In a (last_n p (l ++ [a]))).
  { apply last_n_In. exists (length l). split.
    - rewrite app_length. cbn. lia.
    - rewrite nth_error_app2, Nat.sub_diag; auto. }
  rewrite E in H. destruct H.
Qed.

Section Stag.
  Context {K V : Type} {O : KOps K} {OL : KOrd K}.
  Notation F := (fl K).
  Notation st := (st K V).
  Notation cfg := (cfg K V).

  Lemma fmax_lt : forall a b t : F, fltb (fmax a b) t = true <-> fltb a t = true /\ fltb b t = true.
  Proof.
    intros. unfold fmax. destruct (is_nan a) eqn:Na.
    { destruct a; try discriminate. cbn. split; [intros; discriminate | intros [? _]; discriminate]. }
    destruct (is_nan b) eqn:Nb.
    { destruct b; try discriminate. cbn [orb]. split; [cbn; intros; discriminate | intros [_ ?]; discriminate]. }
    cbn [orb]. destruct (fltb a b) eqn:E.
    - split; [intros H; split; auto; eapply fltb_trans; eauto | tauto].
    - split; [intros H; split; auto | tauto]. eapply fleb_fltb_trans; eauto. apply fltb_false_fleb; auto.
  Qed.

  Lemma col_max_spec : forall (rows : list (list F)) M m t, rows <> [] -> Forall (fun r => length r = M) rows ->
    m < M -> exists x, nth_error (col_max rows) m = Some x /\
      (fltb x t = true <-> forall r u, In r rows -> nth_error r m = Some u -> fltb u t = true).
  Proof.
    intros rows M m t Ne HM Lm. destruct rows as [|r rs]; [congruence |]. clear Ne. cbn [col_max].
    inversion HM as [| ? ? Hr Hrs]; subst. clear HM.
    assert (G : forall (rs : list (list F)) (acc : list F), length acc = length r -> Forall (fun q => length q = length r) rs ->
      exists x, nth_error (fold_left (map2 fmax) rs acc) m = Some x /\
        (fltb x t = true <-> (forall u, nth_error acc m = Some u -> fltb u t = true) /\
           forall q u, In q rs -> nth_error q m = Some u -> fltb u t = true)).
    { clear rs Hrs. induction rs as [|q rs IH]; intros acc La Hf.
      - cbn. destruct (nth_error_lt_Some _ acc m ltac:(lia)) as [x Ex]. exists x. split; auto.
        split.
        + intros H. split; [intros u E; congruence | intros ? ? []].
        + intros [H _]. apply H. auto.
      - cbn [fold_left]. inversion Hf; subst. destruct (IH (map2 fmax acc q)) as (x & Ex & Hx); auto.
        { rewrite map2_length. lia. }
        exists x. split; auto. rewrite Hx. rewrite map2_nth.
        destruct (nth_error_lt_Some _ acc m ltac:(lia)) as [a Ea].
        destruct (nth_error_lt_Some _ q m ltac:(lia)) as [b Eb]. rewrite Ea, Eb.
        split.
        + intros [A1 A3]. specialize (A1 _ eq_refl). apply fmax_lt in A1. split.
          * intros u E. injection E as <-. tauto.
          * intros q' u [-> | Hin] E; [| eauto]. rewrite Eb in E. injection E as <-. tauto.
        + intros [A1 A3]. split.
          * intros u E. injection E as <-. apply fmax_lt. split; [apply A1; auto | eapply A3; [left; eauto | auto]].
          * intros q' u Hin E. eapply A3; [right; eauto | eauto]. }
    destruct (G rs r eq_refl Hrs) as (x & Ex & Hx). exists x. split; auto. rewrite Hx. split.
    - intros [H1 H2] q u [-> | Hin] E; eauto.
    - intros H. split; [intros; eapply H; [left; eauto | auto] | intros; eapply H; [right; eauto | eauto]].
  Qed.

  Lemma put1_const : forall A idx (old : list A) a, (forall i, In i idx -> i < length old) ->
    exists r, put1 idx old [a] = Ok r /\ length r = length old /\
      forall n b, nth_error old n = Some b -> nth_error r n = Some (if existsb (Nat.eqb n) idx then a else b).
  Proof.
    intros A idx old a H. unfold put1. rewrite forallb_lt by auto.
    assert (E : exists v, bto (length idx) [a] = Ok v /\ forall k, k < length idx -> nth_error v k = Some a).
    { unfold bto. cbn [length]. destruct (Nat.eqb_spec 1 (length idx)).
      - exists [a]. split; auto. intros k L. destruct k; [auto | lia].
      - exists (repeat a (length idx)). split; auto. intros k L. rewrite nth_error_repeat.
        destruct (Nat.ltb_spec k (length idx)); [auto | lia]. }
    destruct E as (v & -> & Hv). cbn [bind]. eexists. split; [reflexivity |]. split; [apply mapi_length |].
    intros n b E. rewrite mapi_nth, E. cbn. destruct (last_index n idx) eqn:El.
    - pose proof (last_index_Some _ _ _ El) as Hk. pose proof (nth_error_lt _ _ _ _ Hk) as Lk.
      rewrite (nth_error_nth _ _ _ (Hv _ Lk)).
      replace (existsb (Nat.eqb n) idx) with true; auto. symmetry. apply existsb_exists. exists n.
      split; [eapply nth_error_In; eauto | apply Nat.eqb_refl].
    - apply last_index_None in El. replace (existsb (Nat.eqb n) idx) with false; auto.
      symmetry. apply not_true_is_false. intros T. apply existsb_exists in T. destruct T as (y & Hy & Ey).
      apply Nat.eqb_eq in Ey. subst. auto.
  Qed.

  (** the array kept for the next call *)
  Definition old_for (vzero : V -> V) (M : nat) (s : st) (old : arr V) : Prop :=
    length old = M /\ forall m, m < M -> exists w, nth_error old m = Some [w] /\
      (run_point s m w \/
       (~ In m (s_active s) /\ exists row x, nth_error (s_x s) m = Some (x :: row) /\ w = vzero x)).

  Lemma set_old_ok : forall vzero M (s : st) cpt, one_point_per_run M s -> s_cons s = Some cpt ->
    exists old, set_consensus_old vzero s cpt = Ok old /\ old_for vzero M s old.
  Proof.
    intros vzero M s cpt (EM & ND & Lt & Lx & Nx & cpt' & Ec & Lc & Fc) Ecp.
    assert (cpt' = cpt) by congruence. subst cpt'. unfold set_consensus_old.
    destruct (scatter_rows V (s_active s) M 1 (IRuns (s_active s))
                (map (fun row => map vzero (firstn 1 row)) (s_x s)) cpt) as (X' & HX & RX & Hin & Hout); auto.
    - cbn. auto.
    - split; [rewrite map_length; auto |]. intros k row E. rewrite nth_error_map in E.
      destruct (nth_error (s_x s) k) as [r|] eqn:Er; [| discriminate]. cbn in E. injection E as <-.
      rewrite map_length. rewrite Forall_forall in Nx. specialize (Nx r (nth_error_In _ _ Er)).
      destruct r; [congruence | auto].
    - intros k yr E. cbn. rewrite Forall_forall in Fc. apply (Fc yr). eapply nth_error_In; eauto.
    - exists X'. split; auto. destruct RX as [R1 R2]. split; auto. intros m Lm.
      destruct (nth_error_lt_Some _ (s_x s) m ltac:(lia)) as [r Er].
      assert (Nr : r <> []) by (rewrite Forall_forall in Nx; apply (Nx r (nth_error_In _ _ Er))).
      destruct r as [|x r]; [congruence |].
      destruct (in_dec Nat.eq_dec m (s_active s)) as [I | NI].
      + apply In_nth_error in I. destruct I as [k Hk].
        destruct (nth_error_lt_Some _ cpt k) as [y Ey]. { rewrite Lc. eapply nth_error_lt; eauto. }
        assert (Ly : length y = 1) by (rewrite Forall_forall in Fc; apply (Fc y (nth_error_In _ _ Ey))).
        destruct y as [|v [|]]; try discriminate.
        destruct (Hin k m (map vzero (firstn 1 (x :: r))) [v] Hk) as (row' & E1 & E2); auto.
        { rewrite nth_error_map, Er. auto. }
        cbn in E2. injection E2 as <-. exists v. split; auto. left. exists k, cpt. auto.
      + exists (vzero x). split.
        * rewrite Hout by auto. rewrite nth_error_map, Er. auto.
        * right. split; auto. exists r, x. auto.
  Qed.

  (** the sizes recorded for one call *)
  Definition diffs_for (c : cfg) norm1 vzero (M : nat) (s0 s1 : st) (d : list F) : Prop :=
    length d = M /\ forall m u, m < M -> nth_error d m = Some u -> update_size c norm1 vzero s0 s1 m u.

  Lemma run_point_unique : forall (s : st) m v w, NoDup (s_active s) -> run_point s m v -> run_point s m w -> v = w.
  Proof.
    intros s m v w ND (k & cp & E1 & E2 & E3) (k' & cp' & E1' & E2' & E3').
    assert (cp' = cp) by congruence. subst.
    assert (k = k').
    { apply (proj1 (NoDup_nth_error _) ND); [eapply nth_error_lt; eauto | congruence]. }
    subst. congruence.
  Qed.

  Lemma run_point_active : forall (s : st) m v, run_point s m v -> In m (s_active s).
  Proof. intros s m v (k & cp & _ & E & _). eapply nth_error_In; eauto. Qed.

  Lemma update_size_unique : forall (c : cfg) norm1 vzero (s0 s1 : st) m u u', NoDup (s_active s0) -> NoDup (s_active s1) ->
    update_size c norm1 vzero s0 s1 m u -> update_size c norm1 vzero s0 s1 m u' -> u = u'.
  Proof.
    intros c norm1 vzero s0 s1 m u u' N0 N1 H H'.
    destruct H as [[A ->] | (v & w & P & -> & Q)]; destruct H' as [[A' ->] | (v' & w' & P' & -> & Q')]; auto.
    - exfalso. apply A. eapply run_point_active; eauto.
    - exfalso. apply A'. eapply run_point_active; eauto.
    - rewrite (run_point_unique s1 m v v') by auto. f_equal. f_equal.
      destruct Q as [Q | (Q & r & x & E & ->)]; destruct Q' as [Q' | (Q' & r' & x' & E' & ->)].
      + eapply run_point_unique; [| eauto | eauto]. auto.
      + exfalso. apply Q'. eapply run_point_active; eauto.
      + exfalso. apply Q. eapply run_point_active; eauto.
      + congruence.
  Qed.

  Lemma diffs_ok : forall (c : cfg) norm1 vzero M (s0 s1 : st) old cpt, one_point_per_run M s1 -> s_cons s1 = Some cpt ->
    old_for vzero M s0 old ->
    exists oa df col d, takeM old (s_active s1) = Ok oa /\ bc2 (c_vsub c) cpt oa = Ok df /\
      mapM (fun row => take1 (map norm1 row) 0) df = Ok col /\
      put1 (s_active s1) (repeat (Fin k0) (s_M s1)) col = Ok d /\ diffs_for c norm1 vzero M s0 s1 d.
  Proof.
    intros c norm1 vzero M s0 s1 old cpt (EM & ND & Lt & Lx & Nx & cpt' & Ec & Lc & Fc) Ecp (Lo & Ho).
    assert (cpt' = cpt) by congruence. subst cpt'.
    destruct (takeM_ok _ old (s_active s1)) as [oa Hoa]; [intros; rewrite Lo; auto |].
    pose proof (takeM_length _ _ _ _ Hoa) as Loa.
    assert (Srow : forall k y, nth_error oa k = Some y -> length y = 1).
    { intros k y E. destruct (nth_error_lt_Some _ (s_active s1) k) as [m Em].
      { rewrite <- Loa. eapply nth_error_lt; eauto. }
      pose proof (takeM_nth _ _ _ _ _ _ Hoa Em) as T. rewrite E in T.
      destruct (Ho m) as (w & Ew & _); [apply Lt; eapply nth_error_In; eauto |].
      rewrite Ew in T. injection T as ->. reflexivity. }
    assert (Crow : forall k y, nth_error cpt k = Some y -> length y = 1).
    { intros k y E. rewrite Forall_forall in Fc. apply (Fc y (nth_error_In _ _ E)). }
    assert (Hdf : bc2 (c_vsub c) cpt oa = Ok (map2 (rowop (c_vsub c)) cpt oa)).
    { apply bc2_rows; [lia |]. intros k x y Ex Ey. left. eauto. }
    assert (Cell : forall k m, nth_error (s_active s1) k = Some m -> exists v w,
              nth_error cpt k = Some [v] /\ nth_error oa k = Some [w] /\ nth_error old m = Some [w]).
    { intros k m Em. destruct (nth_error_lt_Some _ cpt k) as [y Ey]. { rewrite Lc. eapply nth_error_lt; eauto. }
      destruct (nth_error_lt_Some _ oa k) as [y' Ey']. { rewrite Loa. eapply nth_error_lt; eauto. }
      pose proof (Crow _ _ Ey) as L1. pose proof (Srow _ _ Ey') as L2.
      destruct y as [|v [|]]; try discriminate. destruct y' as [|w [|]]; try discriminate.
      exists v, w. split; auto. split; auto. rewrite <- Ey'. symmetry.
      rewrite <- (takeM_nth _ _ _ _ _ _ Hoa Em). auto. }
    exists oa, (map2 (rowop (c_vsub c)) cpt oa).
    destruct (mapM_ok _ _ (fun row => take1 (map norm1 row) 0) (map2 (rowop (c_vsub c)) cpt oa)) as [col Hcol].
    { intros row Hin. apply In_nth_error in Hin. destruct Hin as [k Hk]. rewrite map2_nth in Hk.
      destruct (nth_error cpt k) as [y|] eqn:Ey; [| discriminate].
      destruct (nth_error oa k) as [y'|] eqn:Ey'; [| discriminate]. injection Hk as <-.
      pose proof (Crow _ _ Ey). pose proof (Srow _ _ Ey').
      destruct y as [|v [|]]; try discriminate. destruct y' as [|w [|]]; try discriminate. cbn. eauto. }
    exists col. pose proof (mapM_length _ _ _ _ _ Hcol) as Lcol. rewrite map2_length in Lcol.
    destruct (put1_ok F (s_active s1) (repeat (Fin k0) (s_M s1)) col) as [d Hd].
    { intros i Hi. rewrite repeat_length, EM. auto. }
    { lia. }
    exists d. split; auto. split; auto. split; auto. split; auto.
    split. { rewrite (put1_length _ _ _ _ _ Hd), repeat_length; auto. }
    intros m u Lm Eu. rewrite (put1_nth _ _ _ _ _ m) with (2 := Hd) in Eu by lia.
    rewrite nth_error_repeat, repeat_length, EM in Eu.
    destruct (Nat.ltb_spec m M); [| lia].
    destruct (last_index m (s_active s1)) as [k|] eqn:El.
    - apply last_index_Some in El. destruct (Cell k m El) as (v & w & Ev & Ew & Eo).
      assert (Er : nth_error (map2 (rowop (c_vsub c)) cpt oa) k = Some [c_vsub c v w]).
      { rewrite map2_nth, Ev, Ew. auto. }
      destruct (mapM_nth _ _ _ _ _ _ _ Hcol Er) as (b & Eb & Ec'). cbn in Eb. injection Eb as <-.
      rewrite Ec' in Eu. injection Eu as <-. right. exists v, w. split; [exists k, cpt; auto |]. split; auto.
      destruct (Ho m Lm) as (w' & Ew' & P). assert (w' = w) by congruence. subst. exact P.
    - injection Eu as <-. left. split; auto. apply last_index_None; auto.
  Qed.

  Lemma wt0_ok : forall M (s : st), one_point_per_run M s ->
    exists wt0, put1 (s_active s) (repeat PInf (s_M s)) [Fin k0] = Ok wt0 /\ length wt0 = M /\
      forall m, m < M -> nth_error wt0 m = Some (if existsb (Nat.eqb m) (s_active s) then Fin k0 else PInf).
  Proof.
    intros M s (EM & ND & Lt & _).
    destruct (put1_const F (s_active s) (repeat PInf (s_M s)) (Fin k0)) as (r & Hr & Lr & Hn).
    { intros i Hi. rewrite repeat_length, EM. auto. }
    exists r. split; auto. rewrite repeat_length in Lr. split; [lia |]. intros m Lm.
    apply Hn. rewrite nth_error_repeat. destruct (Nat.ltb_spec m (s_M s)); [auto | lia].
  Qed.

  Lemma existsb_In : forall m l, existsb (Nat.eqb m) l = true <-> In m l.
  Proof.
    intros. rewrite existsb_exists. split.
    - intros (y & Hy & E). apply Nat.eqb_eq in E. subst. auto.
    - intros. exists m. split; auto. apply Nat.eqb_refl.
  Qed.

  Lemma fadd_inf_not_lt : forall x t : F, fltb (fadd PInf x) t = false.
  Proof. intros. destruct x; destruct t; reflexivity. Qed.

  Lemma fadd_0 : (forall a : K, kadd k0 a = a) -> forall x : F, fadd (Fin k0) x = x.
  Proof. intros H x. destruct x; cbn; rewrite ?H; auto. Qed.

  (** first call *)
  Lemma cstag_first : forall (c : cfg) norm1 vzero p t M (s : st) o, one_point_per_run M s -> cs_old o = None ->
    exists old, cstag_call c norm1 vzero p t s o = Ok (mkcstag (Some old) (cs_upd o), []) /\ old_for vzero M s old.
  Proof.
    intros c norm1 vzero p t M s o R Eo. pose proof R as (EM & ND & Lt & Lx & Nx & cpt & Ec & Lc & Fc).
    destruct (wt0_ok M s R) as (wt0 & Hw & Lw & Nw). destruct (set_old_ok vzero M s cpt R Ec) as (old & Ho & HO).
    exists old. split; auto. unfold cstag_call. rewrite Ec, Hw. cbn [bind]. rewrite Eo. cbn [bind]. rewrite Ho.
    cbn [bind fst snd]. f_equal. f_equal.
    assert (E : forall m, ~ In m (np_where (map (fun w : F => fltb w t) (map (fun w : F => fadd w PInf) wt0)))).
    { intros m H. apply np_where_spec in H. rewrite !nth_error_map in H.
      destruct (nth_error wt0 m) as [w|] eqn:E; [| discriminate]. cbn in H. injection H as H.
      destruct w; destruct t; discriminate. }
    destruct (np_where _) as [|a l]; auto. exfalso. apply (E a). left. auto.
  Qed.

  (** every later call *)
  Lemma cstag_next : forall (c : cfg) norm1 vzero p t M (s0 s1 : st) o old rows,
    (forall a : K, kadd k0 a = a) ->
    one_point_per_run M s1 -> cs_old o = Some old -> old_for vzero M s0 old ->
    cs_upd o = last_n p rows -> Forall (fun r => length r = M) rows ->
    exists old' d idx, cstag_call c norm1 vzero p t s1 o = Ok (mkcstag (Some old') (last_n p (rows ++ [d])), idx) /\
      old_for vzero M s1 old' /\ diffs_for c norm1 vzero M s0 s1 d /\
      forall m, m < M -> (In m idx <-> In m (s_active s1) /\
        forall j r u, (p = 0 \/ length rows < j + p) -> nth_error (rows ++ [d]) j = Some r -> nth_error r m = Some u ->
          fltb u t = true).
  Proof.
    intros c norm1 vzero p t M s0 s1 o old rows K0 R Eo HO Eu Fr.
    pose proof R as (EM & ND & Lt & Lx & Nx & cpt & Ec & Lc & Fc).
    destruct (wt0_ok M s1 R) as (wt0 & Hw & Lw & Nw).
    destruct (set_old_ok vzero M s1 cpt R Ec) as (old' & Ho' & HO').
    destruct (diffs_ok c norm1 vzero M s0 s1 old cpt R Ec HO) as (oa & df & col & d & E1 & E2 & E3 & E4 & D).
    exists old', d. eexists. split.
    - unfold cstag_call. rewrite Ec, Hw. cbn [bind]. rewrite Eo, E1. cbn [bind]. rewrite E2. cbn [bind].
      rewrite E3. cbn [bind]. rewrite E4. cbn [bind]. rewrite Eu, last_n_app. rewrite Ho'. cbn [bind fst snd]. reflexivity.
    - split; auto. split; auto. intros m Lm. rewrite np_where_spec, nth_error_map, map2_nth, (Nw m Lm).
      assert (Fd : Forall (fun r => length r = M) (last_n p (rows ++ [d]))).
      { apply Forall_forall. intros r Hr. apply last_n_In in Hr. destruct Hr as (j & _ & Hj).
        apply nth_error_In in Hj. apply in_app_iff in Hj. rewrite Forall_forall in Fr.
        destruct Hj as [Hj | [<- | []]]; [auto | apply D]. }
      destruct (col_max_spec (last_n p (rows ++ [d])) M m t (last_n_nonempty _ _ _ _) Fd Lm) as (x & Ex & Hx).
      rewrite Ex. cbn [option_map].
      destruct (existsb (Nat.eqb m) (s_active s1)) eqn:Ea.
      + rewrite fadd_0 by auto. apply existsb_In in Ea. split.
        * intros H. injection H as H. split; auto. intros j r u Lj Ej Eru.
          apply (proj1 Hx H r u); auto. apply last_n_In. exists j. split; auto.
          rewrite app_length. cbn. destruct Lj; [left; auto | right; lia].
        * intros [_ H]. f_equal. apply Hx. intros r u Hr Eru. apply last_n_In in Hr.
          destruct Hr as (j & Lj & Ej). eapply H; eauto. rewrite app_length in Lj. cbn in Lj.
          destruct Lj; [left; auto | right; lia].
      + rewrite fadd_inf_not_lt. split; [discriminate |]. intros [H _]. apply existsb_In in H. congruence.
  Qed.

  Lemma stag_spec : forall (c : cfg) norm1 vzero p t M (ss : list st),
    (forall a : K, kadd k0 a = a) -> Forall (one_point_per_run M) ss ->
    exists outs, stag_calls c norm1 vzero p t ss (mkcstag None []) = Ok outs /\ length outs = length ss /\
      forall k s out m, nth_error ss k = Some s -> nth_error outs k = Some out -> m < M ->
        (In m out <-> 1 <= k /\ In m (s_active s) /\
           all_small c norm1 vzero t ss m k (if p =? 0 then None else Some p)).
  Proof.
    intros c norm1 vzero p t M ss K0 Hss.
    assert (Rd : forall i s, nth_error ss i = Some s -> one_point_per_run M s).
    { intros i s E. rewrite Forall_forall in Hss. apply Hss. eapply nth_error_In; eauto. }
    assert (G : forall rest prev s0 rows o old, prev ++ s0 :: rest = ss ->
      cs_old o = Some old -> old_for vzero M s0 old -> cs_upd o = last_n p rows -> length rows = length prev ->
      Forall (fun r => length r = M) rows ->
      (forall j r m u, nth_error rows j = Some r -> m < M -> nth_error r m = Some u ->
         exists a b, nth_error ss j = Some a /\ nth_error ss (S j) = Some b /\ update_size c norm1 vzero a b m u) ->
      exists outs, stag_calls c norm1 vzero p t rest o = Ok outs /\ length outs = length rest /\
        forall k s out m, nth_error rest k = Some s -> nth_error outs k = Some out -> m < M ->
          (In m out <-> In m (s_active s) /\
             all_small c norm1 vzero t ss m (length prev + S k) (if p =? 0 then None else Some p))).
    { induction rest as [|s1 rest IH]; intros prev s0 rows o old Eq Eo HO Eu Lr Fr Hr.
      - exists []. split; auto. split; auto. intros k s out m E. destruct k; discriminate.
      - assert (E0 : nth_error ss (length prev) = Some s0).
        { rewrite <- Eq. rewrite nth_error_app2, Nat.sub_diag; auto. }
        assert (E1 : nth_error ss (S (length prev)) = Some s1).
        { rewrite <- Eq. rewrite nth_error_app2 by lia. replace (S (length prev) - length prev) with 1 by lia. auto. }
        destruct (cstag_next c norm1 vzero p t M s0 s1 o old rows K0 (Rd _ _ E1) Eo HO Eu Fr)
          as (old' & d & idx & Hc & HO' & D & Hidx).
        assert (Hr' : forall j r m u, nth_error (rows ++ [d]) j = Some r -> m < M -> nth_error r m = Some u ->
           exists a b, nth_error ss j = Some a /\ nth_error ss (S j) = Some b /\ update_size c norm1 vzero a b m u).
        { intros j r m u Ej Lm Em. destruct (lt_dec j (length rows)) as [L | L].
          - rewrite nth_error_app1 in Ej by auto. eauto.
          - assert (j = length rows).
            { apply nth_error_lt in Ej. rewrite app_length in Ej. cbn in Ej. lia. }
            subst j. rewrite nth_error_app2, Nat.sub_diag in Ej by auto. cbn in Ej. injection Ej as <-.
            rewrite Lr. exists s0, s1. split; auto. split; auto. apply (proj2 D); auto. }
        destruct (IH (prev ++ [s0]) s1 (rows ++ [d]) (mkcstag (Some old') (last_n p (rows ++ [d]))) old')
          as (outs & Ho & Lo & Hout); auto.
        { rewrite <- app_assoc. exact Eq. }
        { rewrite !app_length. cbn. lia. }
        { apply Forall_app. split; auto. constructor; [apply D | constructor]. }
        exists (idx :: outs). split; [cbn [stag_calls]; rewrite Hc; cbn [bind fst snd]; rewrite Ho; reflexivity |].
        split; [cbn; lia |].
        intros k s out m Es Eout Lm. destruct k as [|k].
        + cbn in Es, Eout. injection Es as <-. injection Eout as <-. rewrite (Hidx m Lm).
          split; intros [A H]; (split; [auto |]).
          * intros i a b u Hi Hw Ea Eb Up.
            assert (Lj : i - 1 < length (rows ++ [d])) by (rewrite app_length; cbn; lia).
            destruct (nth_error_lt_Some _ _ _ Lj) as [r Er].
            assert (Lrow : length r = M).
            { assert (Hf : Forall (fun r => length r = M) (rows ++ [d])).
              { apply Forall_app. split; auto. constructor; [apply D | constructor]. }
              rewrite Forall_forall in Hf. apply Hf. eapply nth_error_In; eauto. }
            destruct (nth_error_lt_Some _ r m ltac:(lia)) as [u' Eu'].
            destruct (Hr' _ _ _ _ Er Lm Eu') as (a' & b' & Ea' & Eb' & Up').
            replace (S (i - 1)) with i in Eb' by lia.
            assert (a' = a) by congruence. assert (b' = b) by congruence. subst a' b'.
            rewrite (update_size_unique c norm1 vzero a b m u u'); auto.
            -- apply (H (i - 1) r u'); auto. destruct (Nat.eqb_spec p 0); [left; auto | right]. lia.
            -- apply (Rd _ _ Ea).
            -- apply (Rd _ _ Eb).
          * intros j r u Lj Ej Eru.
            destruct (Hr' _ _ _ _ Ej Lm Eru) as (a & b & Ea & Eb & Up).
            apply (H (S j) a b u).
            -- apply nth_error_lt in Ej. rewrite app_length in Ej. cbn in Ej. lia.
            -- destruct (Nat.eqb_spec p 0); auto. destruct Lj; [lia |]. lia.
            -- replace (S j - 1) with j by lia. auto.
            -- auto.
            -- auto.
        + cbn in Es, Eout. rewrite (Hout k s out m Es Eout Lm). rewrite app_length. cbn [length].
          replace (length prev + 1 + S k) with (length prev + S (S k)) by lia. tauto. }
    destruct ss as [|s0 rest].
    { exists []. split; auto. split; auto. intros k s out m E. destruct k; discriminate. }
    assert (R0 : one_point_per_run M s0) by (apply (Rd 0); auto).
    destruct (cstag_first c norm1 vzero p t M s0 (mkcstag None []) R0 eq_refl) as (old & Hc & HO).
    destruct (G rest [] s0 [] (mkcstag (Some old) []) old) as (outs & Ho & Lo & Hout); auto.
    - cbn. destruct p; auto.
    - intros j r m u E. destruct j; discriminate.
    - exists ([] :: outs). split; [cbn [stag_calls]; rewrite Hc; cbn [bind fst snd cs_upd]; rewrite Ho; reflexivity |].
      split; [cbn; lia |].
      intros k s out m Es Eout Lm. destruct k as [|k].
      + cbn in Eout. injection Eout as <-. split; [intros [] | lia].
      + cbn in Es, Eout. rewrite (Hout k s out m Es Eout Lm). cbn [length plus]. split; [split; [lia | tauto] | tauto].
  Qed.
End Stag.
