(** * The NumPy operations respect relations between entries *)
From Coq Require Import String List Arith Bool Lia.
From Verif Require Import Scalar Np NpFacts State Pdyn Memory SimSpec.
Import ListNotations.
Open Scope nat_scope.
Open Scope list_scope.

Lemma so_bind : forall A B C D (R : A -> B -> Prop) (S : C -> D -> Prop) r r' k k',
  same_outcome R r r' -> (forall a b, r = Ok a -> r' = Ok b -> R a b -> same_outcome S (k a) (k' b)) -> same_outcome S (bind r k) (bind r' k').
Proof. intros A B C D R S [a|e] [b|e'] k k' H1 H2; cbn in *; auto; contradiction. Qed.
Lemma so_mono : forall A B (R S : A -> B -> Prop) r r', (forall a b, R a b -> S a b) -> same_outcome R r r' -> same_outcome S r r'.
Proof. intros A B R S [a|e] [b|e'] H1 H2; cbn in *; auto. Qed.
Lemma so_ok : forall A B (R : A -> B -> Prop) r r' a, same_outcome R r r' -> r = Ok a -> exists b, r' = Ok b /\ R a b.
Proof. intros A B R r r' a H ->. destruct r' as [b|e]; cbn in H; [eauto|contradiction]. Qed.

Lemma F2_length : forall A B (R : A -> B -> Prop) l l', Forall2 R l l' -> length l' = length l.
Proof. intros A B R l l' H. induction H; cbn; auto. Qed.
Lemma F2_nth : forall A B (R : A -> B -> Prop) l l' n, Forall2 R l l' -> maybe R (nth_error l n) (nth_error l' n).
Proof. intros A B R l l' n H. revert n. induction H; intros [|n]; cbn; auto. Qed.
Lemma F2_nthd : forall A B (R : A -> B -> Prop) l l' n a b, Forall2 R l l' -> R a b -> R (nth n l a) (nth n l' b).
Proof. intros A B R l l' n a b H Hd. revert n. induction H; intros [|n]; cbn; auto. Qed.
Lemma F2_repeat : forall A B (R : A -> B -> Prop) a b n, R a b -> Forall2 R (repeat a n) (repeat b n).
Proof. induction n; cbn; auto. Qed.
Lemma F2_combine : forall A B C D (R : A -> B -> Prop) (S : C -> D -> Prop) l l' m m', Forall2 R l l' -> Forall2 S m m' -> Forall2 (both R S) (combine l m) (combine l' m').
Proof. intros A B C D R S l l' m m' H. revert m m'. induction H; intros m m' Hm; cbn; auto. destruct Hm; constructor; auto. split; auto. Qed.
Lemma F2_map : forall A B C D (R : A -> B -> Prop) (S : C -> D -> Prop) f g l l', Forall2 R l l' -> (forall a b, R a b -> S (f a) (g b)) -> Forall2 S (map f l) (map g l').
Proof. intros A B C D R S f g l l' H Hf. induction H; cbn; auto. Qed.
Lemma F2_map_eq : forall A B C (R : A -> B -> Prop) (f : A -> C) g l l', Forall2 R l l' -> (forall a b, R a b -> g b = f a) -> map g l' = map f l.
Proof. intros A B C R f g l l' H Hf. induction H; cbn; auto. f_equal; auto. Qed.
Lemma F2_map2 : forall A B C D E G (R : A -> B -> Prop) (S : C -> D -> Prop) (T : E -> G -> Prop) f g l l' m m', Forall2 R l l' -> Forall2 S m m' ->
  (forall a b c d, R a b -> S c d -> T (f a c) (g b d)) -> Forall2 T (map2 f l m) (map2 g l' m').
Proof. intros A B C D E G R S T f g l l' m m' H. revert m m'. induction H; intros m m' Hm Hf; cbn; auto. destruct Hm; constructor; auto. Qed.
Lemma F2_map2_eq : forall A B C D E (R : A -> B -> Prop) (S : C -> D -> Prop) (f : A -> C -> E) g l l' m m', Forall2 R l l' -> Forall2 S m m' ->
  (forall a b c d, R a b -> S c d -> g b d = f a c) -> map2 g l' m' = map2 f l m.
Proof. intros A B C D E R S f g l l' m m' H. revert m m'. induction H; intros m m' Hm Hf; cbn; auto. destruct Hm; f_equal; auto. Qed.
Lemma F2_mapi_from : forall A B C D (R : A -> B -> Prop) (S : C -> D -> Prop) (f : nat -> A -> C) (g : nat -> B -> D) l l' i, Forall2 R l l' ->
  (forall i a b, R a b -> S (f i a) (g i b)) -> Forall2 S (mapi_from i f l) (mapi_from i g l').
Proof. intros A B C D R S f g l l' i H Hf. revert i. induction H; intros i; cbn; auto. Qed.
Lemma F2_mapi : forall A B C D (R : A -> B -> Prop) (S : C -> D -> Prop) (f : nat -> A -> C) (g : nat -> B -> D) l l', Forall2 R l l' ->
  (forall i a b, R a b -> S (f i a) (g i b)) -> Forall2 S (mapi f l) (mapi g l').
Proof. intros. eapply F2_mapi_from; eauto. Qed.
Lemma F2_eq : forall A (l l' : list A), Forall2 eq l l' -> l' = l.
Proof. intros A l l' H. induction H; subst; auto. Qed.
Lemma F2_refl : forall A (R : A -> A -> Prop) l, (forall a, In a l -> R a a) -> Forall2 R l l.
Proof. induction l; intros; constructor; auto. apply H; cbn; auto. apply IHl. intros; apply H; cbn; auto. Qed.
Lemma F2_in_l : forall A B (R : A -> B -> Prop) l l' a, Forall2 R l l' -> In a l -> exists b, In b l' /\ R a b.
Proof. intros A B R l l' a H. induction H; cbn; intros Hin; [contradiction|]. destruct Hin as [->|Hin]; [eauto|]. destruct (IHForall2 Hin) as (b & ? & ?). eauto. Qed.
Lemma F2_impl : forall A B (R S : A -> B -> Prop) l l', (forall a b, R a b -> S a b) -> Forall2 R l l' -> Forall2 S l l'.
Proof. intros A B R S l l' H H1. induction H1; auto. Qed.
Lemma entries_impl : forall A B (R S : A -> B -> Prop) l l', (forall a b, R a b -> S a b) -> entries R l l' -> entries S l l'.
Proof. intros A B R S l l' H. apply F2_impl. intros a b. apply F2_impl; auto. Qed.

Lemma mapM_so : forall A B C D (R : A -> B -> Prop) (S : C -> D -> Prop) f g l l', Forall2 R l l' ->
  (forall a b, In a l -> R a b -> same_outcome S (f a) (g b)) -> same_outcome (Forall2 S) (mapM f l) (mapM g l').
Proof.
  intros A B C D R S f g l l' H Hf. induction H as [|a b l l' Hab H IH]; cbn; auto.
  eapply so_bind; [apply Hf; cbn; auto|]. intros x y _ _ Hxy. eapply so_bind; [apply IH; intros; apply Hf; cbn; auto|]. intros xs ys _ _ Hs. cbn. auto.
Qed.
Lemma bpairs_so : forall A B C D (R : A -> B -> Prop) (S : C -> D -> Prop) l l' m m', Forall2 R l l' -> Forall2 S m m' ->
  same_outcome (Forall2 (both R S)) (bpairs l m) (bpairs l' m').
Proof.
  intros A B C D R S l l' m m' H1 H2. unfold bpairs. rewrite (F2_length _ _ _ _ _ H1), (F2_length _ _ _ _ _ H2).
  destruct (length l =? length m). { cbn. apply F2_combine; auto. }
  assert (G : forall a b m m', R a b -> Forall2 S m m' -> Forall2 (both R S) (map (fun c => (a, c)) m) (map (fun c => (b, c)) m')).
  { intros. eapply F2_map; eauto. intros. split; auto. }
  assert (G' : forall a b l l', S a b -> Forall2 R l l' -> Forall2 (both R S) (map (fun c => (c, a)) l) (map (fun c => (c, b)) l')).
  { intros. eapply F2_map; eauto. intros. split; auto. }
  destruct H1 as [|a b l l' Hab H1]; [destruct H2 as [|? ? ? ? ? [|]]; cbn; auto; constructor|].
  destruct H1.
  - cbn. apply G; auto.
  - destruct H2 as [|? ? ? ? ? [|]]; cbn; auto. constructor; [split; auto|]. constructor; [split; auto|]. apply G'; auto.
Qed.
Lemma bc2_so : forall A B C D E G (R : A -> B -> Prop) (S : C -> D -> Prop) (T : E -> G -> Prop) f g X X' Y Y', entries R X X' -> entries S Y Y' ->
  (forall a b c d, R a b -> S c d -> T (f a c) (g b d)) -> same_outcome (entries T) (bc2 f X Y) (bc2 g X' Y').
Proof.
  intros A B C D E G R S T f g X X' Y Y' H1 H2 Hf. unfold bc2. eapply so_bind; [eapply bpairs_so; eauto|]. intros rows rows' _ _ Hr.
  eapply mapM_so; eauto. intros p q _ [Hp Hq]. eapply so_bind; [eapply bpairs_so; eauto|]. intros cs cs' _ _ Hc. cbn.
  eapply F2_map; eauto. intros u v [Hu Hv]. auto.
Qed.
Lemma bto_so : forall A B (R : A -> B -> Prop) n l l', Forall2 R l l' -> same_outcome (Forall2 R) (bto n l) (bto n l').
Proof.
  intros A B R n l l' H. unfold bto. rewrite (F2_length _ _ _ _ _ H). destruct (length l =? n); auto.
  destruct H as [|? ? ? ? ? [|]]; cbn; auto. apply F2_repeat; auto.
Qed.
Lemma iop2_so : forall A B C D (R : A -> B -> Prop) (S : C -> D -> Prop) f g X X' Y Y', entries R X X' -> entries S Y Y' ->
  (forall a b c d, R a b -> S c d -> R (f a c) (g b d)) -> same_outcome (entries R) (iop2 f X Y) (iop2 g X' Y').
Proof.
  intros A B C D R S f g X X' Y Y' H1 H2 Hf. unfold iop2. rewrite (F2_length _ _ _ _ _ H1). eapply so_bind; [eapply bto_so; eauto|].
  intros Y1 Y1' _ _ Hy. eapply mapM_so; [eapply F2_combine; eauto|]. intros p q _ [Hp Hq]. rewrite (F2_length _ _ _ _ _ Hp).
  eapply so_bind; [eapply bto_so; eauto|]. intros y y' _ _ Hyy. cbn. eapply F2_map2; eauto.
Qed.
Lemma take1_so : forall A B (R : A -> B -> Prop) l l' i, Forall2 R l l' -> same_outcome R (take1 l i) (take1 l' i).
Proof. intros A B R l l' i H. unfold take1. pose proof (F2_nth _ _ _ _ _ i H) as P. destruct (nth_error l i), (nth_error l' i); cbn in *; auto; contradiction. Qed.
Lemma takeM_so : forall A B (R : A -> B -> Prop) l l' ix, Forall2 R l l' -> same_outcome (Forall2 R) (takeM l ix) (takeM l' ix).
Proof.
  intros A B R l l' ix H. unfold takeM. eapply (mapM_so _ _ _ _ eq); [apply F2_refl; auto|]. intros a b _ ->. apply take1_so; auto.
Qed.
Lemma gather_so : forall A B (R : A -> B -> Prop) i X X', entries R X X' -> same_outcome (entries R) (gather i X) (gather i X').
Proof.
  intros A B R i X X' H. destruct i as [|rs|rs bs]; cbn [gather]; [exact H|apply takeM_so; exact H|].
  eapply so_bind; [apply takeM_so; exact H|]. intros rows rows' _ _ Hr. rewrite (F2_length _ _ _ _ _ Hr). destruct (length rows =? length bs); [|cbn; auto].
  eapply (mapM_so _ _ _ _ (both (Forall2 R) eq)); [apply F2_combine; [exact Hr|apply F2_refl; auto]|].
  intros [a1 a2] [b1 b2] _ [H1 H2]. cbn in *. subst. apply takeM_so; auto.
Qed.
Lemma mapiM_so : forall A B C D (R : A -> B -> Prop) (S : C -> D -> Prop) f g l l', Forall2 R l l' ->
  (forall i a b, R a b -> same_outcome S (f i a) (g i b)) -> same_outcome (Forall2 S) (mapiM f l) (mapiM g l').
Proof.
  intros A B C D R S f g l l' H Hf. unfold mapiM. rewrite (F2_length _ _ _ _ _ H).
  eapply (mapM_so _ _ _ _ (both eq R)); [apply F2_combine; [apply F2_refl; auto|exact H]|]. intros [a1 a2] [b1 b2] _ [H1 H2]. cbn in *. subst. apply Hf; auto.
Qed.
Lemma put1_so : forall A B (R : A -> B -> Prop) ix old old' v v', Forall2 R old old' -> Forall2 R v v' -> same_outcome (Forall2 R) (put1 ix old v) (put1 ix old' v').
Proof.
  intros A B R ix old old' v v' H1 H2. unfold put1. rewrite (F2_length _ _ _ _ _ H1). destruct (forallb _ ix); [|cbn; auto].
  eapply so_bind; [apply bto_so; exact H2|]. intros w w' _ _ Hw. cbn. eapply F2_mapi; eauto. intros i a b Hab. destruct (last_index i ix); auto. apply F2_nthd; auto.
Qed.
Lemma scatter_so : forall A B (R : A -> B -> Prop) i X X' Y Y', entries R X X' -> entries R Y Y' -> same_outcome (entries R) (scatter i X Y) (scatter i X' Y').
Proof.
  intros A B R i X X' Y Y' H1 H2. destruct i as [|rs|rs bs]; cbn [scatter].
  - eapply iop2_so; eauto.
  - rewrite (F2_length _ _ _ _ _ H1). destruct (forallb _ rs); [|cbn; auto]. eapply so_bind; [apply bto_so; exact H2|]. intros w w' _ _ Hw.
    eapply mapiM_so; eauto. intros j a b Hab. destruct (last_index j rs); [|exact Hab]. rewrite (F2_length _ _ _ _ _ Hab). apply bto_so. apply F2_nthd; auto.
  - rewrite (F2_length _ _ _ _ _ H1). destruct (forallb _ rs && _); [|cbn; auto]. eapply so_bind; [apply bto_so; exact H2|]. intros w w' _ _ Hw.
    eapply mapiM_so; eauto. intros j a b Hab. destruct (last_index j rs); [|exact Hab]. apply put1_so; auto. apply F2_nthd; auto.
Qed.
Lemma pick_so : forall A B (R : A -> B -> Prop) X X' js, entries R X X' -> same_outcome (Forall2 R) (pick X js) (pick X' js).
Proof.
  intros A B R X X' js H. unfold pick. rewrite (F2_length _ _ _ _ _ H). destruct (length X =? length js); [|cbn; auto].
  eapply (mapM_so _ _ _ _ (both (Forall2 R) eq)); [apply F2_combine; [exact H|apply F2_refl; auto]|]. intros [a1 a2] [b1 b2] _ [H1 H2]. cbn in *. subst. apply take1_so; auto.
Qed.
Lemma select_so : forall A B (R : A -> B -> Prop) b n n' o o', Forall2 R n n' -> Forall2 R o o' -> Forall2 R (select b n o) (select b n' o').
Proof.
  induction b as [|[] b IH]; intros n n' o o' Hn Ho; cbn [select]; auto.
  - destruct Hn; auto. destruct Ho; auto.
  - destruct Hn; auto. destruct Ho; auto.
Qed.
Lemma map_entries : forall A B C D (R : A -> B -> Prop) (S : C -> D -> Prop) f g X X', entries R X X' -> (forall a b, R a b -> S (f a) (g b)) ->
  entries S (map (map f) X) (map (map g) X').
Proof. intros A B C D R S f g X X' H Hf. eapply F2_map; eauto. intros a b Hab. eapply F2_map; eauto. Qed.
Lemma amapi_entries : forall A B C D (R : A -> B -> Prop) (S : C -> D -> Prop) (f : nat -> nat -> A -> C) (g : nat -> nat -> B -> D) X X', entries R X X' -> (forall k n a b, R a b -> S (f k n a) (g k n b)) ->
  entries S (amapi f X) (amapi g X').
Proof. intros A B C D R S f g X X' H Hf. unfold amapi. eapply F2_mapi; eauto. intros i a b Hab. eapply F2_mapi; eauto. Qed.
Lemma shape1_so : forall A B (R : A -> B -> Prop) X X', entries R X X' -> shape1 X' = shape1 X.
Proof. intros A B R X X' [|? ? ? ? H]; cbn; auto. eapply F2_length; eauto. Qed.
Lemma npoints_so : forall A B (R : A -> B -> Prop) X X', entries R X X' -> npoints X' = npoints X.
Proof. intros A B R X X' H. unfold npoints. f_equal. eapply F2_map_eq; eauto. intros a b Hab. eapply F2_length; eauto. Qed.
