(** * Objective promotion is pointwise *)
From Coq Require Import String List Arith Bool Lia.
From Verif Require Import Scalar Np NpFacts Nd Objective ObjSpec.
Import ListNotations.
Open Scope nat_scope.
Open Scope list_scope.

(** ** row-major positions *)
Lemma size_app : forall s t, size (s ++ t) = size s * size t.
Proof. unfold size. induction s; intros; cbn in *; [lia|]. rewrite IHs. lia. Qed.
Lemma size_cons : forall a s, size (a :: s) = a * size s.
Proof. reflexivity. Qed.
Lemma unravel_app : forall s t q r, q < size s -> r < size t -> unravel (s ++ t) (q * size t + r) = unravel s q ++ unravel t r.
Proof.
  induction s as [|a s IH]; intros t q r Hq Hr.
  - cbn in Hq. replace q with 0 by lia. reflexivity.
  - cbn [app unravel]. rewrite size_app. rewrite size_cons in Hq. assert (size s <> 0) by nia. assert (size t <> 0) by lia.
    assert (E1 : (q * size t + r) / (size s * size t) = q / size s).
    { rewrite (Nat.mul_comm (size s)). rewrite <- Nat.div_div by auto. f_equal. rewrite Nat.div_add_l by auto. rewrite Nat.div_small by auto. lia. }
    rewrite E1. f_equal.
    assert (E2 : (q * size t + r) mod (size s * size t) = (q mod size s) * size t + r).
    { rewrite Nat.mod_eq by nia. rewrite E1. rewrite (Nat.mod_eq q (size s)) by auto. pose proof (Nat.mul_div_le q (size s) ltac:(auto)).
      rewrite Nat.mul_sub_distr_r. nia. }
    rewrite E2. apply IH; auto. apply Nat.mod_upper_bound. auto.
Qed.
Lemma unravel_len : forall s k, length (unravel s k) = length s.
Proof. induction s; intros; cbn; auto. Qed.
Lemma unravel_zero : forall s k, In k (unravel s 0) -> k = 0.
Proof.
  induction s as [|a s IH]; intros k H; [contradiction|]. cbn [unravel] in H. destruct H as [<-|H].
  - destruct (size s) eqn:E. reflexivity. apply Nat.div_small. lia.
  - destruct (size s) eqn:E. apply IH. exact H. rewrite Nat.mod_0_l in H by lia. auto.
Qed.
Lemma unravel_1 : forall a k, unravel [a] k = [k].
Proof. intros. cbn [unravel size fold_right]. rewrite Nat.div_1_r. auto. Qed.
Lemma unravel_valid : forall s k, k < size s -> Forall2 lt (unravel s k) s.
Proof.
  induction s as [|a s IH]; intros k H; cbn [unravel]; constructor; rewrite size_cons in H.
  - apply Nat.div_lt_upper_bound; nia.
  - apply IH. apply Nat.mod_upper_bound. nia.
Qed.

(** ** broadcasting to the same shape *)
Lemma brev_same : forall r, brev r r = Some r.
Proof. induction r; cbn; auto. unfold bdim. rewrite Nat.eqb_refl, IHr. auto. Qed.
Lemma bshape_same : forall s, bshape s s = Some s.
Proof. intros. unfold bshape. rewrite brev_same. cbn. rewrite rev_involutive. auto. Qed.
Lemma proj_rev_valid : forall r i, Forall2 lt i r -> proj_rev r i = i.
Proof. intros r i H. induction H as [|j n i r L F IH]; cbn; auto. rewrite IH. f_equal. destruct (Nat.eqb_spec n 1); lia. Qed.
Lemma Forall2_rev' : forall A B (R : A -> B -> Prop) l l', Forall2 R l l' -> Forall2 R (rev l) (rev l').
Proof. intros. induction H; cbn; auto. apply Forall2_app; auto. Qed.
Lemma bget_valid : forall A (x : nd A) i, Forall2 lt i (shape x) -> bget x i = get x i.
Proof. intros. unfold bget. rewrite proj_rev_valid by (apply Forall2_rev'; auto). rewrite rev_involutive. auto. Qed.

Section Facts.
  Context {A B : Type}.

  Lemma dims : forall (x : nd A) s N d, shape x = s ++ [N; d] -> atleast_2d x = x /\ dim1 x = Ok d /\ dim2 x = Ok N.
  Proof.
    intros x s N d H. unfold atleast_2d, dim1, dim2. rewrite H. rewrite rev_app_distr. cbn. split; auto. destruct s as [|a [|b s]]; reflexivity.
  Qed.
  Lemma reshape_points : forall (x : nd A) s N d, shape x = s ++ [N; d] -> 0 < d -> 0 < N ->
    exists x2, reshape_rows d x = Ok x2 /\ shape x2 = [size s * N; d] /\
      forall q n, q < size s -> n < N -> forall j, j < d -> get x2 [q * N + n; j] = get x (unravel s q ++ [n; j]).
  Proof.
    intros x s N d H Hd HN. unfold reshape_rows. destruct (Nat.eqb_spec d 0) as [|Hd0]; [lia|]. unfold reshape. rewrite H, size_app. cbn [size fold_right].
    replace (size s * (N * (d * 1)) / d) with (size s * N) by (rewrite Nat.mul_1_r; rewrite Nat.mul_assoc; rewrite Nat.div_mul; auto).
    destruct (Nat.eqb_spec (size s * N * (d * 1)) (size s * (N * (d * 1)))) as [_|E]; [|lia].
    eexists. split; [reflexivity|]. split; [reflexivity|]. intros q n Hq Hn j Hj. cbn [get ravel size fold_right]. f_equal.
    replace ((q * N + n) * (d * 1) + (j * 1 + 0)) with (q * size [N; d] + (n * d + j)) by (cbn; lia).
    rewrite unravel_app; auto. 2:{ cbn. nia. } f_equal. cbn [unravel size fold_right]. rewrite Nat.mul_1_r, Nat.div_1_r.
    f_equal. rewrite Nat.div_add_l by lia. rewrite (Nat.div_small j d) by auto. lia.
    f_equal. rewrite Nat.add_comm, Nat.mod_add by lia. apply Nat.mod_small; auto.
  Qed.
  (** the values for the rows, put back into rows of N *)
  Lemma reshape_values : forall (r : nd B) Q N, size (shape r) = Q * N -> 0 < N ->
    exists y, reshape_rows N r = Ok y /\ shape y = [Q; N] /\ forall q n, get y [q; n] = get r (unravel (shape r) (q * N + n)).
  Proof.
    intros r Q N H HN. unfold reshape_rows. destruct (Nat.eqb_spec N 0) as [|HN0]; [lia|]. rewrite H. rewrite Nat.div_mul by auto. unfold reshape. rewrite H.
    replace (size [Q; N]) with (Q * N) by (cbn; lia). rewrite Nat.eqb_refl. eexists. split; [reflexivity|]. split; [reflexivity|].
    intros q n'. cbn [get]. f_equal. f_equal. cbn. lia.
  Qed.

  Lemma mapM_all : forall X Y (f : X -> res Y) (P : X -> Y -> Prop) l, (forall x, In x l -> exists y, f x = Ok y /\ P x y) ->
    exists ys, mapM f l = Ok ys /\ Forall2 P l ys.
  Proof.
    induction l as [|x l IH]; intros H. exists []; auto. destruct (H x) as (y & E & HP). left; auto. destruct IH as (ys & E' & F). intros; apply H; right; auto.
    exists (y :: ys). cbn [mapM]. rewrite E. cbn [bind]. rewrite E'. auto.
  Qed.
  Lemma Forall2_nth_seq : forall Y (P : nat -> Y -> Prop) n ys d, Forall2 P (seq 0 n) ys -> forall k, k < n -> P k (nth k ys d).
  Proof.
    intros Y P n ys d H k Hk. assert (G : forall a n ys, Forall2 P (seq a n) ys -> forall k, k < n -> P (a + k) (nth k ys d)).
    { clear. intros a n. revert a. induction n; intros a ys H k Hk; [lia|]. inversion H; subst. destruct k. rewrite Nat.add_0_r. auto. cbn. replace (a + S k) with (S a + k) by lia. apply IHn; auto. lia. }
    apply (G 0 n ys H k Hk).
  Qed.

  (** [apply_along_axis] with a fixed result shape *)
  Lemma apply_rows_ok : forall (f : nd A -> res (nd B)) (x : nd A) P d rs, shape x = [P; d] -> 0 < P ->
    (forall v, shape v = [d] -> exists r, f v = Ok r /\ shape r = rs) ->
    exists r, apply_rows f x = Ok r /\ shape r = P :: rs /\
      forall p i, p < P -> Forall2 lt i rs -> exists o, f (sub p x) = Ok o /\ get r (p :: i) = get o i.
  Proof.
    intros f x P d rs H HP Hf. unfold apply_rows. rewrite H. cbn [hd].
    destruct (mapM_all _ _ (fun k => f (sub k x)) (fun k r => f (sub k x) = Ok r /\ shape r = rs) (seq 0 P)) as (outs & E & F).
    { intros k _. destruct (Hf (sub k x)) as (r & E & Hr). unfold sub. cbn. rewrite H. auto. exists r. auto. }
    rewrite E. cbn [bind]. destruct outs as [|o outs]. { inversion F. destruct P; [lia|discriminate]. }
    assert (Hall : forall r, In r (o :: outs) -> shape r = rs). { clear - F. revert F. generalize (o :: outs). intros l F. induction F; intros r Hr; [contradiction|]. destruct Hr as [<-|Hr]; [apply H|auto]. }
    assert (Ho : shape o = rs) by (apply Hall; left; auto). rewrite Ho.
    assert (Eb : forallb (fun r => match bshape rs (shape r) with Some s => if list_eq_dec Nat.eq_dec s rs then true else false | None => false end) (o :: outs) = true).
    { apply forallb_forall. intros r Hr. rewrite (Hall r Hr), bshape_same. destruct (list_eq_dec Nat.eq_dec rs rs); auto. }
    rewrite Eb. eexists. split; [reflexivity|]. split; [reflexivity|]. intros p i Hp Hi. cbn [get hd tl].
    destruct (Forall2_nth_seq _ _ _ _ o F p Hp) as [E1 E2]. exists (nth p (o :: outs) o). split; auto. apply bget_valid. rewrite E2. auto.
  Qed.

  Lemma point_sub : forall (x2 : nd A) d p, point (sub p x2) d [] = point x2 d [p].
  Proof. intros. reflexivity. Qed.
  Lemma point_ext : forall (x y : nd A) d i k, (forall j, j < d -> get x (i ++ [j]) = get y (k ++ [j])) -> point x d i = point y d k.
  Proof. intros. unfold point. apply map_ext_in. intros j Hj. apply H. apply in_seq in Hj. lia. Qed.

  Lemma apply_1D_ok : forall (f : nd A -> res (nd B)) g (x : nd A) s N d, shape x = s ++ [N; d] -> 0 < d -> 0 < N -> 0 < size s -> objective_1D f d g ->
    exists y, apply_1D f x = Ok y /\ shape y = [size s; N] /\ forall q n, q < size s -> n < N -> get y [q; n] = g (point x d (unravel s q ++ [n])).
  Proof.
    intros f g x s N d H Hd HN Hs (rs & Hrs & Hf). destruct (dims x s N d H) as (D0 & D1 & D2). unfold apply_1D. rewrite D0, D1, D2. cbn [bind].
    destruct (reshape_points x s N d H Hd HN) as (x2 & E2 & S2 & G2). rewrite E2. cbn [bind].
    destruct (apply_rows_ok f x2 (size s * N) d rs S2 ltac:(nia)) as (r & Er & Sr & Gr). { intros v Hv. destruct (Hf v Hv) as (r & E & S & _). eauto. }
    rewrite Er. cbn [bind]. destruct (reshape_values r (size s) N) as (y & Ey & Sy & Gy); auto. { rewrite Sr, size_cons. change (size rs) with (entries rs). rewrite Hrs. lia. }
    exists y. split; auto. split; auto. intros q n Hq Hn. rewrite Gy, Sr. cbn [unravel]. change (size rs) with (entries rs). rewrite Hrs, Nat.div_1_r, Nat.mod_1_r.
    destruct (Gr (q * N + n) (unravel rs 0)) as (o & Eo & Go). nia. apply unravel_valid. change (size rs) with (entries rs). lia.
    rewrite Go. destruct (Hf (sub (q * N + n) x2)) as (o' & Eo' & So & Vo). { unfold sub. cbn. rewrite S2. auto. }
    rewrite Eo in Eo'. injection Eo' as <-. rewrite Vo. 2: apply unravel_len. 2: apply unravel_zero. rewrite point_sub. f_equal. apply point_ext. intros j Hj. rewrite <- app_assoc. cbn [app]. apply G2; auto.
  Qed.

  Lemma apply_2D_ok : forall (f : nd A -> res (nd B)) g (x : nd A) s N d, shape x = s ++ [N; d] -> 0 < d -> 0 < N -> objective_2D f d g ->
    exists y, apply_2D f x = Ok y /\ shape y = [size s; N] /\ forall q n, q < size s -> n < N -> get y [q; n] = g (point x d (unravel s q ++ [n])).
  Proof.
    intros f g x s N d H Hd HN Hf. destruct (dims x s N d H) as (D0 & D1 & D2). unfold apply_2D. rewrite D0, D1, D2. cbn [bind].
    destruct (reshape_points x s N d H Hd HN) as (x2 & E2 & S2 & G2). rewrite E2. cbn [bind].
    destruct (dims x2 [] (size s * N) d S2) as (D0' & _). rewrite D0'.
    destruct (Hf (size s * N) x2 S2) as (r & Er & Hr). rewrite Er. cbn [bind].
    assert (Sz : size (shape r) = size s * N) by (destruct Hr as [(E & _)|[(E & _)|(E & _)]]; rewrite E; cbn; lia).
    destruct (reshape_values r (size s) N Sz HN) as (y & Ey & Sy & Gy).
    exists y. split; auto. split; auto. intros q n Hq Hn. rewrite Gy.
    assert (HP : q * N + n < size s * N) by nia.
    transitivity (g (point x2 d [q * N + n])).
    - destruct Hr as [(E & V)|[(E & V)|(E & V)]]; rewrite E; cbn [unravel size fold_right].
      + rewrite Nat.div_1_r. apply V; auto.
      + rewrite Nat.div_1_r, Nat.mod_1_r. cbn [Nat.div Nat.divmod fst]. apply V; auto.
      + rewrite Nat.mul_1_r. rewrite Nat.div_small by auto. rewrite Nat.mod_small by auto. rewrite Nat.div_1_r. apply V; auto.
    - f_equal. apply point_ext. intros j Hj. rewrite <- app_assoc. cbn [app]. apply G2; auto.
  Qed.

  Definition objective (k : kind) (f : nd A -> res (nd B)) (d : nat) (g : list A -> B) : Prop :=
    match k with K1D => objective_1D f d g | K2D => objective_2D f d g | K3D => objective_3D f d g end.

  Theorem promotion_pointwise : forall k f g d M N (x : nd A), 0 < M -> 0 < N -> 0 < d -> objective k f d g -> shape x = [M; N; d] ->
    pointwise (apply_kind k f) g x M N d.
  Proof.
    intros k f g d M N x HM HN Hd Hf H.
    assert (Hs : shape x = [M] ++ [N; d]) by auto. unfold pointwise. destruct k; cbn [objective apply_kind] in *.
    - destruct (apply_1D_ok f g x [M] N d Hs Hd HN) as (y & Ey & Sy & Gy); auto. { cbn. lia. } exists y. split; auto. cbn [size fold_right] in *. rewrite Nat.mul_1_r in *. split; auto.
      intros m n Hm Hn. rewrite Gy by auto. rewrite unravel_1. auto.
    - destruct (apply_2D_ok f g x [M] N d Hs Hd HN Hf) as (y & Ey & Sy & Gy); auto. exists y. split; auto. cbn [size fold_right] in *. rewrite Nat.mul_1_r in *. split; auto.
      intros m n Hm Hn. rewrite Gy by auto. rewrite unravel_1. auto.
    - destruct (Hf M N x H) as (y & Ey & Sy & Gy). eauto.
  Qed.

  (** matrices and vectors are one run *)
  Theorem promotion_matrix : forall k f g d N (x : nd A), k <> K3D -> 0 < N -> 0 < d -> objective k f d g -> shape x = [N; d] ->
    exists y, apply_kind k f x = Ok y /\ shape y = [1; N] /\ forall n, n < N -> get y [0; n] = g (point x d [n]).
  Proof.
    intros k f g d N x Hk HN Hd Hf H. assert (Hs : shape x = [] ++ [N; d]) by auto. destruct k; cbn [objective apply_kind] in *; [| |congruence].
    - destruct (apply_1D_ok f g x [] N d Hs Hd HN) as (y & Ey & Sy & Gy); auto. exists y. split; auto. split; auto. intros n Hn. rewrite Gy; auto.
    - destruct (apply_2D_ok f g x [] N d Hs Hd HN Hf) as (y & Ey & Sy & Gy); auto. exists y. split; auto. split; auto. intros n Hn. rewrite Gy; auto.
  Qed.
  Theorem promotion_vector : forall k f g d (x : nd A), k <> K3D -> 0 < d -> objective k f d g -> shape x = [d] ->
    exists y, apply_kind k f x = Ok y /\ shape y = [1; 1] /\ get y [0; 0] = g (point x d []).
  Proof.
    intros k f g d x Hk Hd Hf H. set (x' := atleast_2d x). assert (Hx : x' = mknd [1; d] (fun i => get x (tl i))) by (unfold x', atleast_2d; rewrite H; auto).
    assert (E : apply_kind k f x = apply_kind k f x').
    { assert (A2 : atleast_2d x' = x') by (rewrite Hx; reflexivity). destruct k; cbn; [| |congruence]; unfold apply_1D, apply_2D; rewrite A2; reflexivity. }
    rewrite E. destruct (promotion_matrix k f g d 1 x' Hk ltac:(lia) Hd Hf) as (y & Ey & Sy & Gy). rewrite Hx; auto.
    exists y. split; auto. split; auto. rewrite Gy by lia. rewrite Hx. reflexivity.
  Qed.

  (** the counter *)
  Theorem counter : forall (ap : nd A -> res (nd B)) n (x : nd A) s d y n', shape x = s ++ [d] -> 1 <= length s -> call ap n x = Ok (y, n') -> ap x = Ok y /\ n' = n + entries s.
  Proof.
    intros ap n x s d y n' H Hs HC. unfold call in HC. destruct (ap x) as [y'|]; [|discriminate]. cbn in HC. injection HC as <- <-. split; auto.
    assert (E : atleast_2d x = x). { unfold atleast_2d. rewrite H. destruct s as [|a [|b s]]; cbn in *; auto; lia. }
    rewrite E, H. rewrite removelast_last. auto.
  Qed.

  (** ** the check of the constructor *)
  Lemma check_iff : forall (fk : nd A -> res (nd B)) M N z nfe, (exists n, check_f_dims fk M N true z nfe = Ok n) <-> exists y, fk z = Ok y /\ shape y = [M; N].
  Proof.
    intros. unfold check_f_dims. destruct (fk z) as [y|e]; cbn [bind]; split.
    - intros [n H]. destruct (list_eq_dec Nat.eq_dec (shape y) [M; N]); [|discriminate]. eauto.
    - intros (y' & E & S). injection E as <-. destruct (list_eq_dec Nat.eq_dec (shape y) [M; N]); [eauto|contradiction].
    - intros [n H]. discriminate.
    - intros (y' & E & _). discriminate.
  Qed.
  Lemma reshape_rows_shape : forall (r : nd B) N y, reshape_rows N r = Ok y -> exists Q, shape y = [Q; N] /\ size (shape r) = Q * N.
  Proof.
    intros r N y H. unfold reshape_rows in H. destruct (N =? 0); [discriminate|]. unfold reshape in H. destruct (Nat.eqb_spec (size [size (shape r) / N; N]) (size (shape r))) as [E|]; [|discriminate].
    injection H as <-. eexists. split; [reflexivity|]. rewrite <- E at 1. cbn. lia.
  Qed.

  (** 1D: an objective with results of one fixed shape passes exactly when it returns one number *)
  Theorem check_1D : forall (f : nd A -> res (nd B)) M N d (z : nd A) nfe rs, 0 < M -> 0 < N -> 0 < d -> shape z = [M; N; d] ->
    (forall v, shape v = [d] -> exists r, f v = Ok r /\ shape r = rs) ->
    (exists n, check_f_dims (apply_kind K1D f) M N true z nfe = Ok n) <-> entries rs = 1.
  Proof.
    intros f M N d z nfe rs HM HN Hd H Hf. rewrite check_iff. cbn [apply_kind]. assert (Hs : shape z = [M] ++ [N; d]) by auto.
    destruct (dims z [M] N d Hs) as (D0 & D1 & D2). unfold apply_1D. rewrite D0, D1, D2. cbn [bind].
    destruct (reshape_points z [M] N d Hs Hd HN) as (x2 & E2 & S2 & G2). rewrite E2. cbn [bind]. cbn [size fold_right] in S2. rewrite Nat.mul_1_r in S2.
    destruct (apply_rows_ok f x2 (M * N) d rs S2 ltac:(nia) Hf) as (r & Er & Sr & Gr). rewrite Er. cbn [bind]. split.
    - intros (y & Ey & Sy). apply reshape_rows_shape in Ey. destruct Ey as (Q & E1 & E3). rewrite Sr, size_cons in E3. rewrite E1 in Sy. injection Sy as ->. change (size rs) with (entries rs) in E3. nia.
    - intros E. destruct (reshape_values r M N) as (y & Ey & Sy & _); eauto. rewrite Sr, size_cons. change (size rs) with (entries rs). rewrite E. lia.
  Qed.
  (** 2D: exactly when it returns M*N numbers *)
  Theorem check_2D : forall (f : nd A -> res (nd B)) M N d (z : nd A) nfe k, 0 < M -> 0 < N -> 0 < d -> shape z = [M; N; d] ->
    (forall v, shape v = [M * N; d] -> exists r, f v = Ok r /\ entries (shape r) = k) ->
    (exists n, check_f_dims (apply_kind K2D f) M N true z nfe = Ok n) <-> k = M * N.
  Proof.
    intros f M N d z nfe k HM HN Hd H Hf. rewrite check_iff. cbn [apply_kind]. assert (Hs : shape z = [M] ++ [N; d]) by auto.
    destruct (dims z [M] N d Hs) as (D0 & D1 & D2). unfold apply_2D. rewrite D0, D1, D2. cbn [bind].
    destruct (reshape_points z [M] N d Hs Hd HN) as (x2 & E2 & S2 & G2). rewrite E2. cbn [bind]. cbn [size fold_right] in S2. rewrite Nat.mul_1_r in S2.
    destruct (dims x2 [] (M * N) d S2) as (D0' & _). rewrite D0'. destruct (Hf x2 S2) as (r & Er & Kr). rewrite Er. cbn [bind]. change (entries (shape r)) with (size (shape r)) in Kr. split.
    - intros (y & Ey & Sy). apply reshape_rows_shape in Ey. destruct Ey as (Q & E1 & E3). rewrite E1 in Sy. injection Sy as ->. lia.
    - intros E. destruct (reshape_values r M N) as (y & Ey & Sy & _); eauto. lia.
  Qed.

  (** more than three axes: promoted objectives are always rejected (two or more particles) *)
  Theorem check_higher : forall k (f : nd A -> res (nd B)) g M N s e d (z : nd A) nfe, k <> K3D -> 0 < M -> 2 <= N -> 0 < entries s -> 0 < e -> 0 < d ->
    shape z = M :: N :: s ++ [e; d] -> objective k f d g -> check_f_dims (apply_kind k f) M N true z nfe = Err ValueError.
  Proof.
    intros k f g M N s e d z nfe Hk HM HN Hs He Hd H Hf. assert (H' : shape z = (M :: N :: s) ++ [e; d]) by auto. change (entries s) with (size s) in Hs.
    assert (HS : 0 < size (M :: N :: s)) by (rewrite !size_cons; nia).
    assert (G : exists y, apply_kind k f z = Ok y /\ shape y = [size (M :: N :: s); e]).
    { destruct k; cbn [objective apply_kind] in *; [| |congruence].
      - destruct (apply_1D_ok f g z _ e d H' Hd He HS Hf) as (y & Ey & Sy & _). eauto.
      - destruct (apply_2D_ok f g z _ e d H' Hd He Hf) as (y & Ey & Sy & _). eauto. }
    destruct G as (y & Ey & Sy). unfold check_f_dims. rewrite Ey. cbn [bind]. destruct (list_eq_dec Nat.eq_dec (shape y) [M; N]) as [E|]; auto.
    exfalso. rewrite Sy in E. injection E as E _. change (M * (N * size s) = M) in E. assert (2 <= N * size s) by nia. nia.
  Qed.

  (** what the check accepts and counts *)
  Theorem check_counts : forall (fk : nd A -> res (nd B)) M N z nfe n, check_f_dims fk M N true z nfe = Ok n -> n = map (fun k => k + N) nfe.
  Proof. intros fk M N z nfe n H. unfold check_f_dims in H. destruct (fk z); [|discriminate]. cbn in H. destruct (list_eq_dec _ _ _); [|discriminate]. congruence. Qed.

  (** ** init_f *)
  Theorem init_f_char : forall callable f_dim check (f : nd A -> res (nd B)) M N z k n, init_f callable f_dim check f M N z = Ok (k, n) ->
    promote callable f_dim = Ok k /\ length n = M /\ (forall c, In c n -> c = if check then N else 0) /\ (check = true -> exists y, apply_kind k f z = Ok y /\ shape y = [M; N]).
  Proof.
    intros callable f_dim check f M N z k n H. unfold init_f in H. destruct (promote callable f_dim) as [k0|]; [|discriminate]. cbn [bind] in H.
    destruct (check_f_dims (apply_kind k0 f) M N check z (repeat 0 M)) as [n0|] eqn:E; [|discriminate]. injection H as <- <-. split; auto.
    destruct check.
    - pose proof (check_counts _ _ _ _ _ _ E) as ->. rewrite map_length, repeat_length. split; auto.
      split. { intros c Hc. apply in_map_iff in Hc. destruct Hc as (u & <- & Hu). apply repeat_spec in Hu. subst. reflexivity. }
      intros _. apply (proj1 (check_iff (apply_kind k0 f) M N z (repeat 0 M))). eauto.
    - injection E as <-. rewrite repeat_length. split; auto. split; [|discriminate]. intros c Hc. apply repeat_spec in Hc. auto.
  Qed.
  Theorem init_f_accepts : forall k f_dim check f g d M N (z : nd A), 0 < M -> 0 < N -> 0 < d -> promote true f_dim = Ok k -> objective k f d g -> shape z = [M; N; d] ->
    exists n, init_f true f_dim check f M N z = Ok (k, n).
  Proof.
    intros k f_dim check f g d M N z HM HN Hd Hp Hf Hz. unfold init_f. rewrite Hp. cbn [bind]. destruct check; [|cbn; eauto].
    destruct (promotion_pointwise k f g d M N z HM HN Hd Hf Hz) as (y & Ey & Sy & _).
    destruct (proj2 (check_iff (apply_kind k f) M N z (repeat 0 M))) as (n & En); eauto. rewrite En. cbn. eauto.
  Qed.

  (** ** ensembles *)
  Theorem init_x_shapes : forall (x : nd A) M0 N0 d0 gen X M N ds, init_x (Some x) M0 N0 d0 gen = Ok (X, M, N, ds) ->
    shape X = M :: N :: ds /\
    match shape x with
    | [] => False
    | [d] => M = 1 /\ N = 1 /\ ds = [d] /\ forall j, get X [0; 0; j] = get x [j]
    | [n; d] => M = 1 /\ N = n /\ ds = [d] /\ forall n j, get X [0; n; j] = get x [n; j]
    | s => s = M :: N :: ds /\ forall i, get X i = get x i
    end.
  Proof.
    intros x M0 N0 d0 gen X M N ds H. unfold init_x in H. cbn [bind] in H. destruct (shape x) as [|a [|b [|c s]]] eqn:E; cbn [shape] in H.
    - rewrite E in H. discriminate.
    - injection H as <- <- <- <-. cbn. auto 6.
    - injection H as <- <- <- <-. cbn. auto 6.
    - rewrite E in H. injection H as <- <- <- <-. auto.
  Qed.
  Theorem init_x_accepts : forall (x : nd A) M0 N0 d0 gen, shape x <> [] -> exists r, init_x (Some x) M0 N0 d0 gen = Ok r.
  Proof.
    intros x M0 N0 d0 gen H. unfold init_x. cbn [bind]. destruct (shape x) as [|a [|b [|c s]]] eqn:E; cbn [shape]; [congruence| | |rewrite E]; eauto.
  Qed.
  Theorem init_x_none : forall M N gen, init_x (A := A) None M N None gen = Err RuntimeErr.
  Proof. reflexivity. Qed.
  Theorem init_x_drawn : forall M N d (gen : nat -> nat -> nat -> nd A), (forall M N d, shape (gen M N d) = [M; N; d]) ->
    init_x None M N (Some d) gen = Ok (gen M N d, M, N, [d]).
  Proof. intros M N d gen H. unfold init_x. cbn [bind]. rewrite H. auto. Qed.
End Facts.

Theorem promote_kinds : forall callable f_dim k, promote callable f_dim = Ok k ->
  callable = true /\ f_dim = match k with K1D => "1D" | K2D => "2D" | K3D => "3D" end%string.
Proof.
  intros callable f_dim k H. unfold promote in H. destruct callable; [|discriminate]. split; auto. cbn [negb] in H.
  destruct (String.eqb_spec f_dim "3D"); [injection H as <-; auto|]. destruct (String.eqb_spec f_dim "2D"); [injection H as <-; auto|].
  destruct (String.eqb_spec f_dim "1D"); [injection H as <-; auto|discriminate].
Qed.
Theorem promote_rejects : forall callable f_dim,
  promote callable f_dim = if negb callable then Err TypeError else match f_dim with "1D" => Ok K1D | "2D" => Ok K2D | "3D" => Ok K3D | _ => Err ValueError end%string.
Proof.
  intros callable f_dim. destruct (promote callable f_dim) as [k|e] eqn:E.
  - apply promote_kinds in E. destruct E as [-> ->]. destruct k; reflexivity.
  - destruct callable; unfold promote in E; cbn [negb] in *; [|congruence].
    destruct (String.eqb_spec f_dim "3D"); [discriminate|]. destruct (String.eqb_spec f_dim "2D"); [discriminate|]. destruct (String.eqb_spec f_dim "1D"); [discriminate|].
    injection E as <-. repeat match goal with |- _ = match ?x with _ => _ end => destruct x; auto end; exfalso; congruence.
Qed.
