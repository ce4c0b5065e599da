(** * CBOMemory and PSO: shapes *)
From Coq Require Import String List Arith Bool Lia Permutation.
From Verif Require Import Scalar Np NpFacts State Pdyn PdynFacts PdynStep PdynRun Exec PdynOk RunFacts BcFacts HeaviFacts Memory MemSpec.
Import ListNotations.
Open Scope nat_scope.
Open Scope list_scope.

(** the only exception an operation may raise is a shape error *)
Definition only_shape {A} (r : res A) : Prop := forall e, r = Err e -> e = ShapeError.

Lemma os_ok : forall A (a : A), only_shape (Ok a).
Proof. intros A a e H; discriminate. Qed.
Lemma os_bind : forall A B (r : res A) (k : A -> res B), only_shape r -> (forall a, r = Ok a -> only_shape (k a)) ->
  only_shape (bind r k).
Proof. intros A B r k H1 H2 e. destruct r; cbn; intros E. { eapply H2; eauto. } inversion E; subst; auto. Qed.
Lemma os_mapM : forall A B (f : A -> res B) l, (forall a, In a l -> only_shape (f a)) -> only_shape (mapM f l).
Proof.
  induction l; intros H; cbn. { apply os_ok. }
  apply os_bind. { apply H; cbn; auto. } intros b _. apply os_bind. { apply IHl. intros; apply H; cbn; auto. }
  intros; apply os_ok.
Qed.
Lemma os_bpairs : forall A B (l1 : list A) (l2 : list B), only_shape (bpairs l1 l2).
Proof.
  intros A B l1 l2 e. unfold bpairs. destruct (_ =? _); try discriminate.
  destruct l1 as [|a [|]]; destruct l2 as [|b [|]]; intros E; inversion E; auto.
Qed.
Lemma os_bto : forall A n (l : list A), only_shape (bto n l).
Proof.
  intros A n l e. unfold bto. destruct (_ =? _); try discriminate. destruct l as [|a [|]]; intros E; inversion E; auto.
Qed.
Lemma os_bc2 : forall A B C (f : A -> B -> C) X Y, only_shape (bc2 f X Y).
Proof.
  intros. unfold bc2. apply os_bind. { apply os_bpairs. } intros rows _. apply os_mapM. intros p _.
  apply os_bind. { apply os_bpairs. } intros; apply os_ok.
Qed.
Lemma os_iop2 : forall A B (f : A -> B -> A) X Y, only_shape (iop2 f X Y).
Proof.
  intros. unfold iop2. apply os_bind. { apply os_bto. } intros rows _. apply os_mapM. intros p _.
  apply os_bind. { apply os_bto. } intros; apply os_ok.
Qed.
Lemma os_put1 : forall A idx (old v : list A), (forall i, In i idx -> i < length old) -> only_shape (put1 idx old v).
Proof.
  intros. unfold put1. rewrite (forallb_lt idx (length old)) by auto. apply os_bind. { apply os_bto. }
  intros; apply os_ok.
Qed.
Lemma os_scatter : forall A act M N i (X Y : arr A), gidx act M N i -> (forall m, In m act -> m < M) -> rect M N X ->
  only_shape (scatter i X Y).
Proof.
  intros A act M N i X Y G L [R1 R2]. destruct i as [|rs|rs bs]; cbn [gidx scatter] in *.
  - apply os_iop2.
  - subst rs. rewrite forallb_lt by (rewrite R1; auto). apply os_bind. { apply os_bto. } intros Y1 _.
    apply os_mapM. intros [m row] _. cbn [fst snd]. destruct (last_index m act). { apply os_bto. } apply os_ok.
  - destruct G as (-> & Hl & Hb). rewrite forallb_lt by (rewrite R1; auto). rewrite Hl, Nat.eqb_refl. cbn [andb].
    apply os_bind. { apply os_bto. } intros Y1 _.
    apply os_mapM. intros [m row] Hin. cbn [fst snd].
    assert (length row = N).
    { apply In_nth_error in Hin. destruct Hin as [k Hk]. rewrite combine_seq_nth in Hk.
      destruct (nth_error X k) eqn:E; cbn in Hk; inversion Hk; subst. eauto. }
    destruct (last_index m act) as [k|] eqn:El; [|apply os_ok].
    apply os_put1. intros j Hj. rewrite H. apply last_index_Some, nth_error_lt in El. rewrite <- Hl in El.
    destruct (nth_error_lt_Some _ _ _ El) as [b E].
    apply Hb with (k := k) (b := b); auto. erewrite nth_error_nth in Hj; eauto.
Qed.

(** an index that selects [n] cells of every addressed run *)
Definition selects (act : list nat) (N n : nat) (i : idx) : Prop :=
  forall k, k < length act -> length (sel i k N) = n.

Lemma gather_rect : forall A act M N n i (X : arr A), gidx act M N i -> (forall m, In m act -> m < M) ->
  rect M N X -> selects act N n i -> exists Y, gather i X = Ok Y /\ rect (length act) n Y.
Proof.
  intros A act M N n i X G L R S. destruct (gather_rows _ _ _ _ _ _ G L R) as (Y & E & LY & H).
  exists Y. split; auto. split; auto. intros k row Hk.
  assert (Hka : k < length act) by (rewrite <- LY; eapply nth_error_lt; eauto).
  destruct (nth_error_lt_Some _ _ _ Hka) as [m Em].
  assert (Hm : m < length X). { rewrite (proj1 R). apply L. eapply nth_error_In; eauto. }
  destruct (nth_error_lt_Some _ _ _ Hm) as [xr Ex].
  destruct (H _ _ _ Em Ex) as (yr & E1 & E2). rewrite Hk in E1. inversion E1; subst.
  rewrite (takeM_length _ _ _ _ E2). apply S; auto.
Qed.

Lemma rect_amapi : forall A B (f : nat -> nat -> A -> B) M N (X : arr A), rect M N X -> rect M N (amapi f X).
Proof. intros. apply rect_mapi; auto. Qed.

(** a value of full rectangular shape can be assigned *)
Lemma scatter_rect : forall A act M N n i (X Y : arr A), gidx act M N i -> NoDup act -> (forall m, In m act -> m < M) ->
  rect M N X -> selects act N n i -> rect (length act) n Y -> exists X', scatter i X Y = Ok X' /\ rect M N X'.
Proof.
  intros A act M N n i X Y G D L R S [RY1 RY2].
  destruct (scatter_rows _ _ _ _ _ _ _ G D L R RY1) as (X' & E & RX & _); eauto.
  intros k yr Hk. rewrite (RY2 _ _ Hk). symmetry. apply S. rewrite <- RY1. eapply nth_error_lt; eauto.
Qed.

(** only a value of that shape (or with axes of length 1) can be assigned *)
Lemma scatter_ok_rows : forall A i (X Y X' : arr A) act M N, gidx act M N i -> rect M N X -> scatter i X Y = Ok X' ->
  length Y = length act \/ length Y = 1.
Proof.
  intros A i X Y X' act M N G R H. destruct i as [|rs|rs bs]; cbn [gidx scatter] in *.
  - subst act. rewrite seq_length. unfold iop2 in H. apply bind_ok in H. destruct H as (Y1 & E & _).
    unfold bto in E. rewrite (proj1 R) in E. destruct (Nat.eqb_spec (length Y) M); auto. destruct Y as [|y [|]]; try discriminate. auto.
  - subst rs. destruct (forallb _ _); try discriminate. apply bind_ok in H. destruct H as (Y1 & E & _).
    unfold bto in E. destruct (Nat.eqb_spec (length Y) (length act)); auto. destruct Y as [|y [|]]; try discriminate. auto.
  - destruct G as (-> & _). destruct (forallb _ _ && _); try discriminate. apply bind_ok in H. destruct H as (Y1 & E & _).
    unfold bto in E. destruct (Nat.eqb_spec (length Y) (length act)); auto. destruct Y as [|y [|]]; try discriminate. auto.
Qed.

Lemma scatter_ok_cells : forall A i (X Y X' : arr A) act M N n n', gidx act M N i -> NoDup act -> (forall m, In m act -> m < M) ->
  rect M N X -> act <> [] ->
  selects act N n i -> rect (length act) n' Y -> scatter i X Y = Ok X' -> n' = n \/ n' = 1.
Proof.
  intros A i X Y X' act M N n n' G D L R Hne S RY H.
  destruct act as [|m act]; [congruence|].
  assert (Hm : m < M) by (apply L; cbn; auto).
  assert (HmX : m < length X) by (rewrite (proj1 R); auto).
  destruct (nth_error_lt_Some _ _ _ HmX) as [xr Ex].
  assert (H0 : 0 < length Y) by (rewrite (proj1 RY); cbn; lia).
  destruct (nth_error_lt_Some _ _ _ H0) as [yr Ey].
  pose proof (proj2 RY _ _ Ey) as Ly. pose proof (proj2 R _ _ Ex) as Lx.
  assert (S0 := S 0). cbn [length] in S0. specialize (S0 (Nat.lt_0_succ _)).
  destruct i as [|rs|rs bs]; cbn [gidx scatter sel] in *.
  - rewrite seq_length in S0. subst n.
    unfold iop2 in H. apply bind_ok in H. destruct H as (Y1 & E & H).
    assert (LY : length Y = length X). { rewrite (proj1 RY), (proj1 R), G, seq_length. auto. }
    rewrite bto_eq in E by auto. inversion E; subst Y1.
    assert (HX0 : 0 < length X) by lia. destruct (nth_error_lt_Some _ _ _ HX0) as [x0 Ex0].
    destruct (mapM_nth _ _ _ _ _ 0 (x0, yr) H) as (b & Eb & _). { rewrite nth_error_combine, Ex0, Ey. auto. }
    cbn [fst snd] in Eb. apply bind_ok in Eb. destruct Eb as (y1 & Eb & _). unfold bto in Eb.
    rewrite (proj2 R _ _ Ex0) in Eb. destruct (Nat.eqb_spec (length yr) N); [lia|]. destruct yr as [|? [|]]; try discriminate. cbn in Ly. auto.
  - rewrite seq_length in S0. subst n rs.
    destruct (forallb _ _); try discriminate. apply bind_ok in H. destruct H as (Y1 & E & H).
    rewrite bto_eq in E by (rewrite (proj1 RY); auto). inversion E; subst Y1.
    destruct (mapiM_nth _ _ _ _ _ _ _ H Ex) as (b & Eb & _).
    rewrite (last_index_NoDup m (m :: act) 0) in Eb by auto.
    rewrite (nth_error_nth Y 0 [] Ey) in Eb. unfold bto in Eb. rewrite Lx in Eb.
    destruct (Nat.eqb_spec (length yr) N); [lia|]. destruct yr as [|? [|]]; try discriminate. cbn in Ly. auto.
  - destruct G as (-> & Hl & Hb).
    destruct (forallb _ _ && _); try discriminate. apply bind_ok in H. destruct H as (Y1 & E & H).
    rewrite bto_eq in E by (rewrite (proj1 RY); auto). inversion E; subst Y1.
    destruct (mapiM_nth _ _ _ _ _ _ _ H Ex) as (b & Eb & _).
    rewrite (last_index_NoDup m (m :: act) 0) in Eb by auto.
    rewrite (nth_error_nth Y 0 [] Ey) in Eb. unfold put1 in Eb. destruct (forallb _ _); try discriminate.
    apply bind_ok in Eb. destruct Eb as (w & Eb & _). unfold bto in Eb.
    rewrite S0 in Eb. destruct (Nat.eqb_spec (length yr) n); [lia|]. destruct yr as [|? [|]]; try discriminate. cbn in Ly. auto.
Qed.

(** successful elementwise operations *)
Lemma bc2_ok_inv : forall A B C (f : A -> B -> C) X Y Z M1 N1 M2 N2, rect M1 N1 X -> rect M2 N2 Y -> 1 <= M1 -> 1 <= M2 ->
  bc2 f X Y = Ok Z -> compat M1 M2 /\ compat N1 N2 /\ rect (bdim M1 M2) (bdim N1 N2) Z.
Proof.
  intros A B C f X Y Z M1 N1 M2 N2 RX RY H1 H2 H.
  destruct (compat_dec M1 M2) as [CM|CM].
  2:{ rewrite bc2_incompat_rows in H; [discriminate|]. rewrite (proj1 RX), (proj1 RY). auto. }
  destruct (compat_dec N1 N2) as [CN|CN].
  2:{ rewrite (bc2_incompat_cells _ _ _ f X Y M1 N1 M2 N2) in H; auto. discriminate. }
  destruct (bc2_compat _ _ _ f X Y _ _ _ _ RX RY CM CN) as (Z' & E & R). rewrite H in E. inversion E; subst. auto.
Qed.

Lemma iop2_ok_inv : forall A B (f : A -> B -> A) X Y Z M1 N1 M2 N2, rect M1 N1 X -> rect M2 N2 Y -> 1 <= M1 ->
  iop2 f X Y = Ok Z -> (M2 = M1 \/ M2 = 1) /\ (M2 = M1 -> N2 = N1 \/ N2 = 1).
Proof.
  intros A B f X Y Z M1 N1 M2 N2 RX RY H1 H. split.
  - destruct (Nat.eq_dec M2 M1); auto. destruct (Nat.eq_dec M2 1); auto.
    rewrite iop2_incompat_rows in H; [discriminate| |]; rewrite ?(proj1 RX), (proj1 RY); auto.
  - intros ->. destruct (Nat.eq_dec N2 N1); auto. destruct (Nat.eq_dec N2 1); auto.
    rewrite (iop2_incompat_cells _ _ f X Y M1 N1 N2) in H; auto. discriminate.
Qed.
