(** * Lemmas about the NumPy primitives *)

From Coq Require Import List Arith Bool Lia Permutation.
From Verif Require Import Scalar Np.
Import ListNotations.

(** ** mapi *)
Lemma mapi_from_length : forall A B (f : nat -> A -> B) l i, length (mapi_from i f l) = length l.
Proof. induction l; cbn; intros; auto. Qed.
Lemma mapi_length : forall A B (f : nat -> A -> B) l, length (mapi f l) = length l.
Proof. intros; apply mapi_from_length. Qed.
Lemma mapi_from_nth : forall A B (f : nat -> A -> B) l i k,
  nth_error (mapi_from i f l) k = option_map (f (i + k)) (nth_error l k).
Proof.
  induction l; intros; destruct k; cbn; auto.
  - rewrite Nat.add_0_r; auto.
  - rewrite IHl. f_equal. f_equal. lia.
Qed.
Lemma mapi_nth : forall A B (f : nat -> A -> B) l k,
  nth_error (mapi f l) k = option_map (f k) (nth_error l k).
Proof. intros. apply mapi_from_nth. Qed.

Lemma nth_error_ext : forall A (l l' : list A),
  (forall k, nth_error l k = nth_error l' k) -> l = l'.
Proof.
  induction l; destruct l'; intros; auto.
  - specialize (H 0); discriminate.
  - specialize (H 0); discriminate.
  - f_equal. { specialize (H 0); cbn in H; congruence. }
    apply IHl. intros k. exact (H (S k)).
Qed.

Lemma nth_error_lt_Some : forall A (l : list A) k, k < length l -> exists a, nth_error l k = Some a.
Proof.
  intros. destruct (nth_error l k) eqn:E; eauto. apply nth_error_None in E; lia.
Qed.
Lemma nth_error_lt : forall A (l : list A) k a, nth_error l k = Some a -> k < length l.
Proof. intros. apply nth_error_Some. congruence. Qed.

Lemma nth_error_combine : forall A B (l1 : list A) (l2 : list B) k,
  nth_error (combine l1 l2) k =
  match nth_error l1 k, nth_error l2 k with Some a, Some b => Some (a, b) | _, _ => None end.
Proof.
  induction l1; destruct l2; intros; destruct k; cbn; auto.
  - destruct (nth_error l1 k); auto.
Qed.

Lemma map2_length : forall A B C (f : A -> B -> C) l1 l2, length (map2 f l1 l2) = min (length l1) (length l2).
Proof. induction l1; destruct l2; cbn; auto. Qed.
Lemma map2_nth : forall A B C (f : A -> B -> C) l1 l2 k,
  nth_error (map2 f l1 l2) k =
  match nth_error l1 k, nth_error l2 k with Some a, Some b => Some (f a b) | _, _ => None end.
Proof.
  induction l1; destruct l2; intros; destruct k; cbn; auto.
  destruct (nth_error l1 k); auto.
Qed.
Lemma map2_combine : forall A B C (f : A -> B -> C) l1 l2,
  map2 f l1 l2 = map (fun p => f (fst p) (snd p)) (combine l1 l2).
Proof. induction l1; destruct l2; cbn; intros; f_equal; auto. Qed.

Lemma nth_error_seq : forall n i k, nth_error (seq i n) k = if k <? n then Some (i + k) else None.
Proof.
  induction n; intros; destruct k; cbn [seq nth_error]; auto.
  - cbn. f_equal; lia.
  - rewrite IHn. change (S k <? S n) with (k <? n). destruct (k <? n); auto. f_equal; lia.
Qed.

Lemma nth_error_repeat : forall A (a : A) n k, nth_error (repeat a n) k = if k <? n then Some a else None.
Proof.
  induction n; intros; destruct k; cbn; auto. rewrite IHn. reflexivity.
Qed.

(** ** mapM *)
Lemma mapM_length : forall A B (f : A -> res B) l r, mapM f l = Ok r -> length r = length l.
Proof.
  induction l; cbn; intros. { inversion H; auto. }
  destruct (f a); cbn in H; try discriminate.
  destruct (mapM f l); cbn in H; try discriminate. inversion H; cbn; f_equal; auto.
Qed.
Lemma mapM_nth : forall A B (f : A -> res B) l r k a, mapM f l = Ok r -> nth_error l k = Some a ->
  exists b, f a = Ok b /\ nth_error r k = Some b.
Proof.
  induction l; cbn; intros. { destruct k; discriminate. }
  destruct (f a) eqn:E; cbn in H; try discriminate.
  destruct (mapM f l) eqn:E2; cbn in H; try discriminate. inversion H; subst.
  destruct k; cbn in *. { inversion H0; subst; eauto. }
  eapply IHl; eauto.
Qed.
Lemma mapM_ok : forall A B (f : A -> res B) l, (forall a, In a l -> exists b, f a = Ok b) -> exists r, mapM f l = Ok r.
Proof.
  induction l; cbn; intros; eauto.
  destruct (H a); auto. destruct IHl; auto. rewrite H0; cbn. rewrite H1; cbn; eauto.
Qed.
Lemma mapM_ext : forall A B (f g : A -> res B) l, (forall a, In a l -> f a = g a) -> mapM f l = mapM g l.
Proof.
  induction l; cbn; intros; auto. rewrite H; auto. rewrite IHl; auto.
Qed.
Lemma mapM_pure : forall A B (f : A -> B) l, mapM (fun a => Ok (f a)) l = Ok (map f l).
Proof. induction l; cbn; auto. rewrite IHl; auto. Qed.
Lemma mapM_map : forall A B C (g : A -> B) (f : B -> res C) l, mapM f (map g l) = mapM (fun a => f (g a)) l.
Proof. induction l; cbn; auto. rewrite IHl; auto. Qed.
Lemma mapM_intro : forall A B (f : A -> res B) l r,
  length r = length l ->
  (forall k a, nth_error l k = Some a -> exists b, nth_error r k = Some b /\ f a = Ok b) ->
  mapM f l = Ok r.
Proof.
  induction l; destruct r; cbn; intros; auto; try discriminate.
  destruct (H0 0 a eq_refl) as (b0 & E & E'). cbn in E. inversion E; subst. rewrite E'; cbn.
  rewrite (IHl r); auto. intros. apply (H0 (S k)); auto.
Qed.

Lemma combine_seq_nth : forall A (l : list A) k,
  nth_error (combine (seq 0 (length l)) l) k = option_map (fun a => (k, a)) (nth_error l k).
Proof.
  intros. rewrite nth_error_combine, nth_error_seq.
  destruct (Nat.ltb_spec k (length l)).
  - destruct (nth_error l k); reflexivity.
  - apply nth_error_None in H. rewrite H. reflexivity.
Qed.
Lemma mapiM_length : forall A B (f : nat -> A -> res B) l r, mapiM f l = Ok r -> length r = length l.
Proof.
  intros. apply mapM_length in H. rewrite H, combine_length, seq_length. lia.
Qed.
Lemma mapiM_nth : forall A B (f : nat -> A -> res B) l r k a, mapiM f l = Ok r -> nth_error l k = Some a ->
  exists b, f k a = Ok b /\ nth_error r k = Some b.
Proof.
  intros. unfold mapiM in H.
  eapply (mapM_nth _ _ _ _ _ k (k, a)) in H; eauto.
  rewrite combine_seq_nth, H0. auto.
Qed.
Lemma mapiM_ok : forall A B (f : nat -> A -> res B) l,
  (forall k a, nth_error l k = Some a -> exists b, f k a = Ok b) -> exists r, mapiM f l = Ok r.
Proof.
  intros. apply mapM_ok. intros [i a] Hin. cbn.
  apply In_nth_error in Hin. destruct Hin as [k Hk]. rewrite combine_seq_nth in Hk.
  destruct (nth_error l k) eqn:E; cbn in Hk; inversion Hk; subst; eauto.
Qed.

(** ** broadcasting *)
Lemma bpairs_same : forall A B (l1 : list A) (l2 : list B), length l1 = length l2 -> bpairs l1 l2 = Ok (combine l1 l2).
Proof. intros. unfold bpairs. rewrite H, Nat.eqb_refl. auto. Qed.
Lemma bpairs_one_r : forall A B (l1 : list A) (b : B), bpairs l1 [b] = Ok (map (fun a => (a, b)) l1).
Proof.
  intros. unfold bpairs. destruct l1 as [|a [|a' l1]]; cbn; auto.
Qed.

(** one row of an elementwise operation whose second operand has 1 or n cells *)
Definition rowop {A B C} (f : A -> B -> C) (x : list A) (y : list B) : list C :=
  match y with [b] => map (fun a => f a b) x | _ => map2 f x y end.

Lemma bpairs_rowop : forall A B C (f : A -> B -> C) x y,
  length y = 1 \/ length y = length x ->
  (cells <- bpairs x y ;; Ok (map (fun q => f (fst q) (snd q)) cells)) = Ok (rowop f x y).
Proof.
  intros. destruct y as [|b [|b' y]].
  - destruct H; cbn in H; try discriminate. destruct x; try discriminate. auto.
  - rewrite bpairs_one_r; cbn. rewrite map_map. auto.
  - destruct H; try discriminate. rewrite bpairs_same; auto. cbn [bind rowop].
    rewrite map2_combine. auto.
Qed.

Lemma rowop_length : forall A B C (f : A -> B -> C) x y,
  length y = 1 \/ length y = length x -> length (rowop f x y) = length x.
Proof.
  intros. destruct y as [|b [|b' y]]; unfold rowop.
  - rewrite map2_length. destruct H; cbn in *; lia.
  - apply map_length.
  - rewrite map2_length. destruct H; cbn in *; lia.
Qed.

Lemma bc2_rows : forall A B C (f : A -> B -> C) X Y,
  length X = length Y ->
  (forall k x y, nth_error X k = Some x -> nth_error Y k = Some y -> length y = 1 \/ length y = length x) ->
  bc2 f X Y = Ok (map2 (rowop f) X Y).
Proof.
  intros. unfold bc2. rewrite bpairs_same; auto. cbn [bind].
  rewrite map2_combine. rewrite <- mapM_pure. apply mapM_ext.
  intros [x y] Hin. cbn. apply bpairs_rowop.
  apply In_nth_error in Hin. destruct Hin as [k Hk]. rewrite nth_error_combine in Hk.
  destruct (nth_error X k) eqn:E; try discriminate.
  destruct (nth_error Y k) eqn:E2; try discriminate. inversion Hk; subst; eauto.
Qed.

Lemma bto_id : forall A (l : list A), bto (length l) l = Ok l.
Proof. intros. unfold bto. rewrite Nat.eqb_refl. auto. Qed.
Lemma bto_eq : forall A (l : list A) n, length l = n -> bto n l = Ok l.
Proof. intros; subst; apply bto_id. Qed.
Lemma bto_length : forall A n (l r : list A), bto n l = Ok r -> length r = n.
Proof.
  unfold bto; intros. destruct (Nat.eqb_spec (length l) n).
  - inversion H; subst; auto.
  - destruct l as [|a [|]]; try discriminate. inversion H. apply repeat_length.
Qed.

Lemma iop2_same : forall A B (f : A -> B -> A) X Y,
  length X = length Y ->
  (forall k x y, nth_error X k = Some x -> nth_error Y k = Some y -> length y = length x) ->
  iop2 f X Y = Ok (map2 (map2 f) X Y).
Proof.
  intros. unfold iop2. rewrite H, bto_id. cbn [bind].
  rewrite map2_combine. rewrite <- mapM_pure. apply mapM_ext.
  intros [x y] Hin. cbn.
  apply In_nth_error in Hin. destruct Hin as [k Hk]. rewrite nth_error_combine in Hk.
  destruct (nth_error X k) eqn:E; try discriminate.
  destruct (nth_error Y k) eqn:E2; try discriminate. inversion Hk; subst.
  rewrite <- (H0 _ _ _ E E2), bto_id. auto.
Qed.

(** ** take / put *)
Lemma take1_ok : forall A (l : list A) i a, take1 l i = Ok a <-> nth_error l i = Some a.
Proof. intros. unfold take1. destruct (nth_error l i); split; congruence. Qed.

Lemma takeM_length : forall A (l : list A) idx r, takeM l idx = Ok r -> length r = length idx.
Proof. intros. eapply mapM_length; eauto. Qed.
Lemma takeM_nth : forall A (l : list A) idx r k i, takeM l idx = Ok r -> nth_error idx k = Some i ->
  nth_error r k = nth_error l i.
Proof.
  intros. eapply mapM_nth in H; eauto. destruct H as (b & H1 & H2).
  apply take1_ok in H1. congruence.
Qed.
Lemma takeM_ok : forall A (l : list A) idx, (forall i, In i idx -> i < length l) -> exists r, takeM l idx = Ok r.
Proof.
  intros. apply mapM_ok. intros i Hi. apply H in Hi. apply nth_error_lt_Some in Hi.
  destruct Hi as [a Ha]. exists a. apply take1_ok. auto.
Qed.
Lemma takeM_all : forall A (l : list A), takeM l (seq 0 (length l)) = Ok l.
Proof.
  intros. apply mapM_intro. { rewrite seq_length; auto. }
  intros. rewrite nth_error_seq in H. destruct (Nat.ltb_spec k (length l)); try discriminate.
  inversion H; subst. apply nth_error_lt_Some in H0. destruct H0 as [b Hb]. exists b; split; auto.
  apply take1_ok; auto.
Qed.
Lemma takeM_map : forall A B (f : A -> B) l idx r, takeM l idx = Ok r -> takeM (map f l) idx = Ok (map f r).
Proof.
  intros. apply mapM_intro. { rewrite map_length. eapply takeM_length; eauto. }
  intros. pose proof (takeM_nth _ _ _ _ _ _ H H0).
  pose proof (mapM_nth _ _ _ _ _ _ _ H H0) as (b & E1 & E2). apply take1_ok in E1.
  exists (f b). split. { apply map_nth_error; auto. } apply take1_ok. apply map_nth_error; auto.
Qed.

Lemma last_index_Some : forall m l k, last_index m l = Some k -> nth_error l k = Some m.
Proof.
  induction l; cbn; intros; try discriminate.
  destruct (last_index m l) eqn:E.
  - inversion H; subst. cbn. auto.
  - destruct (Nat.eqb_spec a m); inversion H; subst; auto.
Qed.
Lemma last_index_None : forall m l, last_index m l = None <-> ~ In m l.
Proof.
  induction l; cbn; split; intros; auto.
  - destruct (last_index m l) eqn:E; try discriminate.
    destruct (Nat.eqb_spec a m); try discriminate. intros [->|?]; auto. apply IHl; auto.
  - destruct (last_index m l) eqn:E.
    + exfalso. apply H. right. apply last_index_Some in E. eapply nth_error_In; eauto.
    + destruct (Nat.eqb_spec a m); auto. subst. exfalso; auto.
Qed.
Lemma last_index_NoDup : forall m l k, NoDup l -> nth_error l k = Some m -> last_index m l = Some k.
Proof.
  intros. destruct (last_index m l) eqn:E.
  - apply last_index_Some in E. f_equal.
    rewrite NoDup_nth_error in H. apply H. { eapply nth_error_lt; eauto. } congruence.
  - apply last_index_None in E. exfalso; apply E. eapply nth_error_In; eauto.
Qed.
Lemma last_index_seq : forall m n, last_index m (seq 0 n) = if m <? n then Some m else None.
Proof.
  intros. destruct (Nat.ltb_spec m n).
  - apply last_index_NoDup. apply seq_NoDup. rewrite nth_error_seq.
    replace (m <? n) with true; auto. symmetry; apply Nat.ltb_lt; auto.
  - apply last_index_None. rewrite in_seq. lia.
Qed.

Lemma put1_length : forall A idx (old vals r : list A), put1 idx old vals = Ok r -> length r = length old.
Proof.
  unfold put1; intros. destruct (forallb _ _); try discriminate.
  destruct (bto _ _); try discriminate. cbn in H. inversion H. apply mapi_length.
Qed.
Lemma put1_ok : forall A idx (old vals : list A), (forall i, In i idx -> i < length old) ->
  length vals = length idx -> exists r, put1 idx old vals = Ok r.
Proof.
  unfold put1; intros.
  replace (forallb _ _) with true.
  - rewrite bto_eq; auto. cbn. eauto.
  - symmetry. apply forallb_forall. intros. apply Nat.ltb_lt. auto.
Qed.
Lemma put1_nth : forall A idx (old vals r : list A) n,
  length vals = length idx -> put1 idx old vals = Ok r ->
  nth_error r n = match last_index n idx with
                  | Some k => if n <? length old then nth_error vals k else None
                  | None => nth_error old n end.
Proof.
  unfold put1; intros. destruct (forallb _ _) eqn:Ef; try discriminate.
  rewrite bto_eq in H0; auto. cbn in H0. inversion H0. rewrite mapi_nth.
  destruct (last_index n idx) eqn:E.
  - pose proof (last_index_Some _ _ _ E) as Hk. pose proof (nth_error_lt _ _ _ _ Hk).
    destruct (Nat.ltb_spec n (length old)).
    + destruct (nth_error_lt_Some _ _ _ H3) as [a Ha]. rewrite Ha. cbn.
      symmetry. apply nth_error_nth'. lia.
    + apply nth_error_None in H3. rewrite H3. auto.
  - destruct (nth_error old n); auto.
Qed.
Lemma put1_all : forall A (old vals : list A), length vals = length old ->
  put1 (seq 0 (length old)) old vals = Ok vals.
Proof.
  intros. destruct (put1_ok A (seq 0 (length old)) old vals) as [r Hr].
  - intros i. rewrite in_seq. lia.
  - rewrite seq_length; auto.
  - rewrite Hr. f_equal. apply nth_error_ext. intros k.
    erewrite put1_nth; eauto. 2: rewrite seq_length; auto.
    rewrite last_index_seq. destruct (Nat.ltb_spec k (length old)); auto.
    pose proof H0. rewrite <- H in H0. apply nth_error_None in H0, H1. congruence.
Qed.

(** ** where *)
Lemma where_from_spec : forall l i m, In m (where_from i l) <-> (i <= m /\ nth_error l (m - i) = Some true).
Proof.
  induction l; cbn; intros.
  - split; [tauto|]. intros [_ H]. destruct (m - i); discriminate.
  - destruct a; cbn; rewrite ?IHl.
    + split.
      * intros [<-|[H1 H2]]. { rewrite Nat.sub_diag. auto. }
        split; [lia|]. replace (m - i) with (S (m - S i)) by lia. auto.
      * intros [H1 H2]. destruct (Nat.eq_dec i m); auto. right. split; [lia|].
        replace (m - i) with (S (m - S i)) in H2 by lia. auto.
    + split.
      * intros [H1 H2]. split; [lia|]. replace (m - i) with (S (m - S i)) by lia. auto.
      * intros [H1 H2]. assert (m <> i). { intros ->. rewrite Nat.sub_diag in H2. discriminate. }
        split; [lia|]. replace (m - i) with (S (m - S i)) in H2 by lia. auto.
Qed.
Lemma np_where_spec : forall l m, In m (np_where l) <-> nth_error l m = Some true.
Proof.
  intros. unfold np_where. rewrite where_from_spec. rewrite Nat.sub_0_r. intuition lia.
Qed.
Inductive incr : list nat -> Prop :=
| incr_nil : incr []
| incr_cons : forall a l, (forall b, In b l -> a < b) -> incr l -> incr (a :: l).
Lemma where_from_incr : forall l i, incr (where_from i l).
Proof.
  induction l; cbn; intros; [constructor|]. destruct a; auto.
  constructor; auto. intros b Hb. apply where_from_spec in Hb. lia.
Qed.
Lemma incr_NoDup : forall l, incr l -> NoDup l.
Proof.
  induction 1; constructor; auto. intros Hin. apply H in Hin. lia.
Qed.
Lemma incr_ext : forall l l', incr l -> incr l' -> (forall m, In m l <-> In m l') -> l = l'.
Proof.
  induction l; intros l' H H' Hm.
  - destruct l'; auto. exfalso. apply (Hm n). cbn; auto.
  - inversion H; subst. destruct l' as [|b l'].
    { exfalso. apply (Hm a). cbn; auto. }
    inversion H'; subst.
    assert (a = b).
    { assert (Ha : In a (b :: l')) by (apply Hm; cbn; auto).
      assert (Hb : In b (a :: l)) by (apply Hm; cbn; auto).
      destruct Ha as [|Ha]; auto. destruct Hb as [|Hb]; auto.
      apply H2 in Hb. apply H4 in Ha. lia. }
    subst. f_equal. apply IHl; auto. intros m. split; intros Hi.
    + assert (In m (b :: l')) by (apply Hm; cbn; auto). destruct H0; auto. subst. apply H2 in Hi. lia.
    + assert (In m (b :: l)) by (apply Hm; cbn; auto). destruct H0; auto. subst. apply H4 in Hi. lia.
Qed.
Lemma incr_full : forall l n, incr l -> (forall m, In m l -> m < n) -> length l = n -> l = seq 0 n.
Proof.
  intros l n Hi Hlt Hlen.
  assert (Hs : incr (seq 0 n)).
  { clear. generalize 0. induction n; cbn; intros; constructor; auto.
    intros b Hb. apply in_seq in Hb. lia. }
  apply incr_ext; auto. intros m. rewrite in_seq. split.
  - intros H. apply Hlt in H. lia.
  - intros H. assert (incl (seq 0 n) l); [|apply H0; apply in_seq; lia].
    apply NoDup_length_incl.
    + apply incr_NoDup; auto.
    + rewrite seq_length; lia.
    + intros a Ha. apply in_seq. apply Hlt in Ha. lia.
Qed.
