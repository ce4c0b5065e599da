(** * One step of CBO, run by run

    The array-level step of Pdyn.v is shown to act on each run separately. *)

From Coq Require Import String List Arith Bool Lia.
From Verif Require Import Scalar Np NpFacts State Pdyn.
Import ListNotations.
Open Scope nat_scope.
Open Scope list_scope.

Ltac sst := cbn [s_M s_N s_x s_xold s_energy s_cons s_drift s_alpha s_sigma s_lamda s_dt s_t s_it s_be s_bce s_bp s_bcp s_fmin s_udiff s_nfe s_fcalls s_active s_reason s_cidx s_pidx s_ind s_cep s_tracks s_hist s_trackit s_save set_M set_N set_x set_xold set_energy set_cons set_drift set_alpha set_sigma set_lamda set_dt set_t set_it set_be set_bce set_bp set_bcp set_fmin set_udiff set_nfe set_fcalls set_active set_reason set_cidx set_pidx set_ind set_cep set_tracks set_hist set_trackit set_save].
Ltac ssti H := cbn [s_M s_N s_x s_xold s_energy s_cons s_drift s_alpha s_sigma s_lamda s_dt s_t s_it s_be s_bce s_bp s_bcp s_fmin s_udiff s_nfe s_fcalls s_active s_reason s_cidx s_pidx s_ind s_cep s_tracks s_hist s_trackit s_save set_M set_N set_x set_xold set_energy set_cons set_drift set_alpha set_sigma set_lamda set_dt set_t set_it set_be set_bce set_bp set_bcp set_fmin set_udiff set_nfe set_fcalls set_active set_reason set_cidx set_pidx set_ind set_cep set_tracks set_hist set_trackit set_save] in H.
Ltac sstall := cbn [s_M s_N s_x s_xold s_energy s_cons s_drift s_alpha s_sigma s_lamda s_dt s_t s_it s_be s_bce s_bp s_bcp s_fmin s_udiff s_nfe s_fcalls s_active s_reason s_cidx s_pidx s_ind s_cep s_tracks s_hist s_trackit s_save set_M set_N set_x set_xold set_energy set_cons set_drift set_alpha set_sigma set_lamda set_dt set_t set_it set_be set_bce set_bp set_bcp set_fmin set_udiff set_nfe set_fcalls set_active set_reason set_cidx set_pidx set_ind set_cep set_tracks set_hist set_trackit set_save] in *.

(** ** gather and scatter, row by row *)

Definition rect {A} (M N : nat) (X : arr A) : Prop :=
  length X = M /\ forall k row, nth_error X k = Some row -> length row = N.

(** the particle indices an index object selects in the run at position [k] *)
Definition sel (i : idx) (k N : nat) : list nat :=
  match i with IBatch _ bs => nth k bs [] | _ => seq 0 N end.

(** index objects that address exactly the runs [act] *)
Definition gidx (act : list nat) (M N : nat) (i : idx) : Prop :=
  match i with
  | IAll => act = seq 0 M
  | IRuns rs => rs = act
  | IBatch rs bs => rs = act /\ length bs = length act /\
      forall k b, nth_error bs k = Some b -> forall j, In j b -> j < N
  end.

Lemma sel_lt : forall act M N i k, gidx act M N i -> k < length act -> forall j, In j (sel i k N) -> j < N.
Proof.
  intros act M N [|rs|rs bs] k Hg Hk j Hj; cbn in *.
  - apply in_seq in Hj. lia.
  - apply in_seq in Hj. lia.
  - destruct Hg as (-> & Hl & Hb). rewrite <- Hl in Hk.
    destruct (nth_error_lt_Some _ _ _ Hk) as [b E].
    apply Hb with (k := k) (b := b); auto.
    erewrite nth_error_nth in Hj; eauto.
Qed.

Lemma gather_rows : forall A act M N i (X : arr A),
  gidx act M N i -> (forall m, In m act -> m < M) -> rect M N X ->
  exists Y, gather i X = Ok Y /\ length Y = length act /\
    forall k m row, nth_error act k = Some m -> nth_error X m = Some row ->
      exists yr, nth_error Y k = Some yr /\ takeM row (sel i k N) = Ok yr.
Proof.
  intros A act M N i X Hg Hlt [HM HN]. destruct i as [|rs|rs bs]; cbn in *.
  - subst act. exists X. rewrite seq_length. split; [auto|]. split; [auto|].
    intros k m row Hk Hrow. rewrite nth_error_seq in Hk.
    destruct (Nat.ltb_spec k M); inversion Hk; subst m. cbn in Hrow.
    exists row. split; auto. rewrite <- (HN _ _ Hrow). apply takeM_all.
  - subst rs. destruct (takeM_ok _ X act) as [Y HY]. { intros; subst M; auto. }
    exists Y. split; [auto|]. split; [eapply takeM_length; eauto|].
    intros k m row Hk Hrow. exists row. split.
    + erewrite takeM_nth; eauto.
    + rewrite <- (HN _ _ Hrow). apply takeM_all.
  - destruct Hg as (-> & Hl & Hb).
    destruct (takeM_ok _ X act) as [Y HY]. { intros; subst M; auto. }
    rewrite HY. cbn [bind]. pose proof (takeM_length _ _ _ _ HY) as HlY.
    rewrite HlY, Hl, Nat.eqb_refl.
    destruct (mapM_ok _ _ (fun p => takeM (fst p) (snd p)) (combine Y bs)) as [Z HZ].
    { intros [y b] Hin. cbn. apply In_nth_error in Hin. destruct Hin as [k Hk].
      rewrite nth_error_combine in Hk.
      destruct (nth_error Y k) eqn:E1; try discriminate.
      destruct (nth_error bs k) eqn:E2; try discriminate. inversion Hk; subst.
      apply takeM_ok. intros j Hj.
      assert (Hka : k < length act) by (rewrite <- HlY; eapply nth_error_lt; eauto).
      destruct (nth_error_lt_Some _ _ _ Hka) as [m Hm].
      erewrite takeM_nth in E1; eauto. rewrite (HN _ _ E1). eauto. }
    exists Z. split; [auto|]. split.
    { rewrite (mapM_length _ _ _ _ _ HZ), combine_length. lia. }
    intros k m row Hk Hrow.
    assert (Hkb : k < length bs) by (rewrite Hl; eapply nth_error_lt; eauto).
    destruct (nth_error_lt_Some _ _ _ Hkb) as [b E2].
    pose proof (takeM_nth _ _ _ _ _ _ HY Hk) as E1. rewrite Hrow in E1.
    destruct (mapM_nth _ _ _ _ _ k (row, b) HZ) as (yr & E3 & E4).
    { rewrite nth_error_combine, E1, E2. auto. }
    exists yr. split; auto. erewrite nth_error_nth; eauto.
Qed.

Lemma sel_seq : forall A N (row yr : list A), length row = N -> length yr = N ->
  put1 (seq 0 N) row yr = Ok yr.
Proof. intros; subst. apply put1_all; auto. Qed.

Lemma forallb_lt : forall l n, (forall m, In m l -> m < n) -> forallb (fun r => r <? n) l = true.
Proof. intros. apply forallb_forall. intros. apply Nat.ltb_lt. auto. Qed.

Lemma scatter_rows : forall A act M N i (X Y : arr A),
  gidx act M N i -> NoDup act -> (forall m, In m act -> m < M) -> rect M N X ->
  length Y = length act ->
  (forall k yr, nth_error Y k = Some yr -> length yr = length (sel i k N)) ->
  exists X', scatter i X Y = Ok X' /\ rect M N X' /\
    (forall k m row yr, nth_error act k = Some m -> nth_error X m = Some row -> nth_error Y k = Some yr ->
       exists row', nth_error X' m = Some row' /\ put1 (sel i k N) row yr = Ok row') /\
    (forall m, ~ In m act -> nth_error X' m = nth_error X m).
Proof.
  intros A act M N i X Y Hg Hnd Hlt [HM HN] HlY Hrow. destruct i as [|rs|rs bs]; cbn [gidx sel] in *.
  - (* ... *)
    subst act. rewrite seq_length in HlY. setoid_rewrite seq_length in Hrow.
    assert (E : iop2 (fun _ b : A => b) X Y = Ok (map2 (map2 (fun _ b => b)) X Y)).
    { apply iop2_same. congruence. intros. rewrite (HN k x); auto. rewrite (Hrow k y); auto. }
    assert (E2 : map2 (map2 (fun _ b : A => b)) X Y = Y).
    { apply nth_error_ext. intros k. rewrite map2_nth.
      destruct (nth_error X k) eqn:E1.
      - pose proof (nth_error_lt _ _ _ _ E1) as Hk. rewrite HM, <- HlY in Hk.
        destruct (nth_error_lt_Some _ _ _ Hk) as [y Ey]. rewrite Ey. f_equal.
        apply nth_error_ext. intros j. rewrite map2_nth.
        pose proof (HN _ _ E1). pose proof (Hrow _ _ Ey).
        destruct (nth_error l j) eqn:E3.
        + pose proof (nth_error_lt _ _ _ _ E3) as Hj. rewrite H, <- H0 in Hj.
          destruct (nth_error_lt_Some _ _ _ Hj) as [ya Ea]. rewrite Ea. auto.
        + apply nth_error_None in E3. symmetry. apply nth_error_None. lia.
      - apply nth_error_None in E1. symmetry. apply nth_error_None. lia. }
    cbn [scatter]. rewrite E, E2. exists Y. split; [auto|]. split; [split; [congruence|eauto]|].
    split.
    + intros k m row yr Hk Hx Hy. rewrite nth_error_seq in Hk.
      destruct (Nat.ltb_spec k M); inversion Hk; subst m. cbn in *.
      exists yr. split; auto. apply sel_seq; eauto.
    + intros m Hm. rewrite in_seq in Hm.
      assert (nth_error X m = None) by (apply nth_error_None; lia).
      assert (nth_error Y m = None) by (apply nth_error_None; lia). congruence.
  - subst rs. setoid_rewrite seq_length in Hrow. cbn [scatter].
    rewrite forallb_lt by (intros; subst M; auto). rewrite bto_eq by auto. cbn [bind].
    match goal with |- context [mapiM ?f X] => destruct (mapiM_ok _ _ f X) as [X' HX] end.
    { intros m row E. destruct (last_index m act) eqn:El; eauto.
      apply last_index_Some in El. pose proof (nth_error_lt _ _ _ _ El) as Hn.
      rewrite <- HlY in Hn. destruct (nth_error_lt_Some _ _ _ Hn) as [y Ey].
      rewrite (nth_error_nth _ _ _ Ey). rewrite bto_eq; eauto. rewrite (HN _ _ E). eauto. }
    exists X'. split; [auto|]. pose proof (mapiM_length _ _ _ _ _ HX) as HlX.
    assert (Hact : forall k m row yr, nth_error act k = Some m -> nth_error X m = Some row ->
       nth_error Y k = Some yr -> nth_error X' m = Some yr).
    { intros k m row yr Hk Hx Hy. destruct (mapiM_nth _ _ _ _ _ _ _ HX Hx) as (b & Eb & En).
      rewrite (last_index_NoDup _ _ _ Hnd Hk) in Eb. rewrite (nth_error_nth _ _ _ Hy) in Eb.
      rewrite bto_eq in Eb. congruence. rewrite (HN _ _ Hx). eauto. }
    assert (Hin : forall m, ~ In m act -> nth_error X' m = nth_error X m).
    { intros m Hm. destruct (nth_error X m) eqn:E.
      - destruct (mapiM_nth _ _ _ _ _ _ _ HX E) as (b & Eb & En).
        apply last_index_None in Hm. rewrite Hm in Eb. congruence.
      - apply nth_error_None in E. apply nth_error_None. lia. }
    split; [|split; auto].
    + split; [lia|]. intros m row' E.
      pose proof (nth_error_lt _ _ _ _ E) as Hm. rewrite HlX in Hm.
      destruct (nth_error_lt_Some _ _ _ Hm) as [row Er].
      destruct (last_index m act) eqn:El.
      * apply last_index_Some in El. pose proof (nth_error_lt _ _ _ _ El) as Hn.
        rewrite <- HlY in Hn. destruct (nth_error_lt_Some _ _ _ Hn) as [y Ey].
        rewrite (Hact _ _ _ _ El Er Ey) in E. inversion E; subst. eauto.
      * apply last_index_None in El. rewrite Hin in E by auto. eauto.
    + intros k m row yr Hk Hx Hy. exists yr. split; eauto. apply sel_seq; eauto.
  - destruct Hg as (-> & Hl & Hb). cbn [scatter].
    rewrite forallb_lt by (intros; subst M; auto). rewrite Hl, Nat.eqb_refl. cbn [andb].
    rewrite bto_eq by auto. cbn [bind].
    match goal with |- context [mapiM ?f X] => destruct (mapiM_ok _ _ f X) as [X' HX] end.
    { intros m row E. destruct (last_index m act) eqn:El; eauto.
      apply last_index_Some in El. pose proof (nth_error_lt _ _ _ _ El) as Hn.
      pose proof Hn as Hn2. rewrite <- Hl in Hn2. destruct (nth_error_lt_Some _ _ _ Hn2) as [b Eb].
      rewrite <- HlY in Hn. destruct (nth_error_lt_Some _ _ _ Hn) as [y Ey].
      rewrite (nth_error_nth _ _ _ Ey). apply put1_ok; eauto.
      intros j Hj. rewrite (HN _ _ E). erewrite nth_error_nth in Hj; eauto. }
    exists X'. split; [auto|]. pose proof (mapiM_length _ _ _ _ _ HX) as HlX.
    assert (Hact : forall k m row yr, nth_error act k = Some m -> nth_error X m = Some row ->
       nth_error Y k = Some yr -> exists row', nth_error X' m = Some row' /\ put1 (nth k bs []) row yr = Ok row').
    { intros k m row yr Hk Hx Hy. destruct (mapiM_nth _ _ _ _ _ _ _ HX Hx) as (b & Eb & En).
      rewrite (last_index_NoDup _ _ _ Hnd Hk) in Eb. rewrite (nth_error_nth _ _ _ Hy) in Eb. eauto. }
    assert (Hin : forall m, ~ In m act -> nth_error X' m = nth_error X m).
    { intros m Hm. destruct (nth_error X m) eqn:E.
      - destruct (mapiM_nth _ _ _ _ _ _ _ HX E) as (b & Eb & En).
        apply last_index_None in Hm. rewrite Hm in Eb. congruence.
      - apply nth_error_None in E. apply nth_error_None. lia. }
    split; [|split; auto].
    split; [lia|]. intros m row' E.
    pose proof (nth_error_lt _ _ _ _ E) as Hm. rewrite HlX in Hm.
    destruct (nth_error_lt_Some _ _ _ Hm) as [row Er].
    destruct (last_index m act) eqn:El.
    + apply last_index_Some in El. pose proof (nth_error_lt _ _ _ _ El) as Hn.
      rewrite <- HlY in Hn. destruct (nth_error_lt_Some _ _ _ Hn) as [y Ey].
      destruct (Hact _ _ _ _ El Er Ey) as (r' & E1 & E2).
      rewrite E1 in E. inversion E; subst. rewrite (put1_length _ _ _ _ _ E2). eauto.
    + apply last_index_None in El. rewrite Hin in E by auto. eauto.
Qed.
