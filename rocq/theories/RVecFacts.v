(** * Facts on sums and vectors *)
From Coq Require Import List Arith Reals Permutation Lia Lra.
From Verif Require Import Np NpFacts RVec.
Import ListNotations.
Open Scope R_scope.

Lemma Rsum_app : forall a b, Rsum (a ++ b) = Rsum a + Rsum b.
Proof. unfold Rsum. induction a; intros; cbn in *; [lra|]. rewrite IHa. lra. Qed.
Lemma Rsum_cons : forall a l, Rsum (a :: l) = a + Rsum l.
Proof. reflexivity. Qed.
Lemma Rsum_perm : forall a b, Permutation a b -> Rsum a = Rsum b.
Proof. induction 1; rewrite ?Rsum_cons in *; lra. Qed.
Lemma Rsum_map_plus : forall A (f g : A -> R) l, Rsum (map (fun x => f x + g x) l) = Rsum (map f l) + Rsum (map g l).
Proof. induction l; cbn [map]; rewrite ?Rsum_cons; [cbn; lra|]. lra. Qed.
Lemma Rsum_map_scal : forall A a (f : A -> R) l, Rsum (map (fun x => a * f x) l) = a * Rsum (map f l).
Proof. induction l; cbn [map]; rewrite ?Rsum_cons; [cbn; lra|]. rewrite IHl. lra. Qed.
Lemma Rsum_map_div : forall A a (f : A -> R) l, Rsum (map (fun x => f x / a) l) = Rsum (map f l) / a.
Proof. intros. unfold Rdiv. rewrite Rmult_comm, <- Rsum_map_scal. f_equal. apply map_ext. intros; lra. Qed.
Lemma Rsum_map_opp : forall A (f : A -> R) l, Rsum (map (fun x => - f x) l) = - Rsum (map f l).
Proof. induction l; cbn [map]; rewrite ?Rsum_cons; [cbn; lra|]. lra. Qed.
Lemma Rsum_map_minus : forall A (f g : A -> R) l, Rsum (map (fun x => f x - g x) l) = Rsum (map f l) - Rsum (map g l).
Proof. induction l; cbn [map]; rewrite ?Rsum_cons; [cbn; lra|]. lra. Qed.
Lemma Rsum_map_0 : forall A (f : A -> R) l, (forall x, In x l -> f x = 0) -> Rsum (map f l) = 0.
Proof. induction l; intros; cbn [map]; rewrite ?Rsum_cons; [reflexivity|]. rewrite H by (left; auto). rewrite IHl; [lra|]. intros; apply H; right; auto. Qed.
Lemma Rsum_map_const : forall A c (l : list A), Rsum (map (fun _ => c) l) = INR (length l) * c.
Proof. induction l; cbn [map length]; rewrite ?Rsum_cons; [cbn; lra|]. rewrite IHl, S_INR. lra. Qed.
Lemma Rsum_map_le : forall A (f g : A -> R) l, (forall x, In x l -> f x <= g x) -> Rsum (map f l) <= Rsum (map g l).
Proof. induction l; intros; cbn [map]; rewrite ?Rsum_cons; [cbn; lra|].
  assert (f a <= g a) by (apply H; left; auto). assert (Rsum (map f l) <= Rsum (map g l)) by (apply IHl; intros; apply H; right; auto). lra. Qed.
Lemma Rsum_map_ext : forall A (f g : A -> R) l, (forall x, In x l -> f x = g x) -> Rsum (map f l) = Rsum (map g l).
Proof. intros. f_equal. apply map_ext_in. auto. Qed.
Lemma Rsum_nonneg : forall l, (forall x, In x l -> 0 <= x) -> 0 <= Rsum l.
Proof. induction l; intros; rewrite ?Rsum_cons; [cbn; lra|]. assert (0 <= a) by (apply H; left; auto). assert (0 <= Rsum l) by (apply IHl; intros; apply H; right; auto). lra. Qed.
Lemma Rsum_map_nonneg : forall A (f : A -> R) l, (forall x, In x l -> 0 <= f x) -> 0 <= Rsum (map f l).
Proof. intros. apply Rsum_nonneg. intros x Hx. apply in_map_iff in Hx. destruct Hx as (y & <- & Hy). auto. Qed.
Lemma Rsum_map_pos : forall A (f : A -> R) l y, (forall x, In x l -> 0 <= f x) -> In y l -> 0 < f y -> 0 < Rsum (map f l).
Proof. induction l; intros y H Hi Hp; [destruct Hi|]. cbn [map]; rewrite Rsum_cons.
  assert (0 <= f a) by (apply H; left; auto).
  assert (0 <= Rsum (map f l)) by (apply Rsum_map_nonneg; intros; apply H; right; auto).
  destruct Hi as [->|Hi]; [lra|]. assert (0 < Rsum (map f l)) by (apply (IHl y); auto; intros; apply H; right; auto). lra. Qed.
Lemma Rsum_abs : forall A (f : A -> R) l, Rabs (Rsum (map f l)) <= Rsum (map (fun x => Rabs (f x)) l).
Proof. induction l; cbn [map]; rewrite ?Rsum_cons; [cbn; rewrite Rabs_R0; lra|]. eapply Rle_trans; [apply Rabs_triang|]. lra. Qed.
Lemma Rsum_swap : forall A B (f : A -> B -> R) l k,
  Rsum (map (fun a => Rsum (map (f a) k)) l) = Rsum (map (fun b => Rsum (map (fun a => f a b) l)) k).
Proof.
  induction l; intros; cbn [map].
  - symmetry. apply Rsum_map_0. reflexivity.
  - rewrite Rsum_cons, IHl, <- Rsum_map_plus. reflexivity.
Qed.

Lemma map2_map : forall A B C A' B' (f : A -> B -> C) (g : A' -> A) (h : B' -> B) l k,
  map2 f (map g l) (map h k) = map2 (fun a b => f (g a) (h b)) l k.
Proof. induction l; destruct k; cbn; auto. rewrite IHl. auto. Qed.
Lemma map_map2 : forall A B C D (f : A -> B -> C) (g : C -> D) l k, map g (map2 f l k) = map2 (fun a b => g (f a b)) l k.
Proof. induction l; destruct k; cbn; auto. rewrite IHl. auto. Qed.
Lemma map2_ext : forall A B C (f g : A -> B -> C) l k, (forall a b, f a b = g a b) -> map2 f l k = map2 g l k.
Proof. induction l; destruct k; cbn; intros; auto. rewrite H, IHl; auto. Qed.
Lemma map2_same : forall A C (f : A -> A -> C) l, map2 f l l = map (fun a => f a a) l.
Proof. induction l; cbn; auto. rewrite IHl. auto. Qed.
Lemma map2_map_same : forall T A B C (f : A -> B -> C) (g : T -> A) (h : T -> B) l, map2 f (map g l) (map h l) = map (fun t => f (g t) (h t)) l.
Proof. intros. rewrite map2_map, map2_same. auto. Qed.
Lemma map_nth_seq : forall A (d : A) (l : list A), map (fun i => nth i l d) (seq 0 (length l)) = l.
Proof.
  intros A d l. induction l; cbn; auto. f_equal. rewrite <- seq_shift, map_map. exact IHl.
Qed.
Lemma map_nth_seq_n : forall A (d : A) (l : list A) n, length l = n -> map (fun i => nth i l d) (seq 0 n) = l.
Proof. intros; subst. apply map_nth_seq. Qed.
Lemma list_nth_ext : forall A (d : A) (u v : list A) n, length u = n -> length v = n ->
  (forall i, (i < n)%nat -> nth i u d = nth i v d) -> u = v.
Proof. intros. apply nth_ext with (d := d) (d' := d); [lia|]. intros. apply H1. lia. Qed.
Lemma nth_map2 : forall A B C (f : A -> B -> C) l k i da db dc, (i < length l)%nat -> (i < length k)%nat ->
  nth i (map2 f l k) dc = f (nth i l da) (nth i k db).
Proof. induction l; destruct k; intros i da db dc H1 H2; cbn in *; try lia. destruct i; auto. apply IHl; lia. Qed.
Lemma nth_map : forall A B (f : A -> B) l i da db, (i < length l)%nat -> nth i (map f l) db = f (nth i l da).
Proof. induction l; intros; cbn in *; try lia. destruct i; auto. apply IHl; lia. Qed.
Lemma nth_map_seq : forall A (f : nat -> A) n i d, (i < n)%nat -> nth i (map f (seq 0 n)) d = f i.
Proof. intros. rewrite nth_map with (da := 0%nat) by (rewrite seq_length; auto). rewrite seq_nth by auto. auto. Qed.

(** dot products as sums over indices *)
Lemma dot_sum : forall u v n, length u = n -> length v = n -> dot u v = Rsum (map (fun i => nth i u 0 * nth i v 0) (seq 0 n)).
Proof.
  intros u v n <- H. unfold dot. rewrite <- (map_nth_seq _ 0 u) at 1. rewrite <- (map_nth_seq_n _ 0 v (length u) H) at 1.
  rewrite map2_map_same. reflexivity.
Qed.
Lemma dot_comm : forall u v, dot u v = dot v u.
Proof. unfold dot. induction u; destruct v; cbn [map2]; auto. rewrite !Rsum_cons, IHu. lra. Qed.
Lemma dot_nil_r : forall u, dot u [] = 0.
Proof. destruct u; reflexivity. Qed.
Lemma dot_cons : forall a u b v, dot (a :: u) (b :: v) = a * b + dot u v.
Proof. reflexivity. Qed.
Lemma dot_vadd_r : forall u v w, length v = length w -> dot u (vadd v w) = dot u v + dot u w.
Proof.
  unfold vadd. induction u; destruct v, w; intros; cbn in H; try lia; cbn [map2]; rewrite ?dot_nil_r, ?dot_cons; try (cbn; lra).
  rewrite IHu by lia. lra.
Qed.
Lemma dot_vsub_r : forall u v w, length v = length w -> dot u (vsub v w) = dot u v - dot u w.
Proof.
  unfold vsub. induction u; destruct v, w; intros; cbn in H; try lia; cbn [map2]; rewrite ?dot_nil_r, ?dot_cons; try (cbn; lra).
  rewrite IHu by lia. lra.
Qed.
Lemma dot_vscal_r : forall u a v, dot u (vscal a v) = a * dot u v.
Proof. unfold vscal. induction u; destruct v; cbn [map]; rewrite ?dot_nil_r, ?dot_cons; try (cbn; lra). rewrite IHu. lra. Qed.
Lemma dot_vscal_l : forall u a v, dot (vscal a u) v = a * dot u v.
Proof. intros. rewrite dot_comm, dot_vscal_r, dot_comm. auto. Qed.
Lemma dot_vadd_l : forall u v w, length v = length w -> dot (vadd v w) u = dot v u + dot w u.
Proof. intros. rewrite dot_comm, dot_vadd_r by auto. rewrite (dot_comm u v), (dot_comm u w). auto. Qed.
Lemma dot_vsub_l : forall u v w, length v = length w -> dot (vsub v w) u = dot v u - dot w u.
Proof. intros. rewrite dot_comm, dot_vsub_r by auto. rewrite (dot_comm u v), (dot_comm u w). auto. Qed.
Lemma sqnorm_cons : forall a u, sqnorm (a :: u) = a * a + sqnorm u.
Proof. reflexivity. Qed.
Lemma sqnorm_nonneg : forall u, 0 <= sqnorm u.
Proof. induction u; [cbn; lra|]. rewrite sqnorm_cons. nra. Qed.
Lemma sqnorm_0 : forall u, sqnorm u = 0 -> forall i, nth i u 0 = 0.
Proof.
  induction u; intros H i; [destruct i; auto|]. rewrite sqnorm_cons in H. assert (Hu := sqnorm_nonneg u).
  assert (a = 0) by nra. assert (sqnorm u = 0) by nra. destruct i; cbn; auto.
Qed.
Lemma vnorm_nonneg : forall u, 0 <= vnorm u.
Proof. intros; apply sqrt_pos. Qed.
Lemma vnorm_sq : forall u, vnorm u * vnorm u = sqnorm u.
Proof. intros; apply sqrt_sqrt, sqnorm_nonneg. Qed.
Lemma vnorm_0 : forall u, vnorm u = 0 -> forall i, nth i u 0 = 0.
Proof. intros u H. apply sqnorm_0. rewrite <- vnorm_sq, H. lra. Qed.
Lemma vnorm_scal : forall a u, vnorm (vscal a u) = Rabs a * vnorm u.
Proof.
  intros. unfold vnorm, sqnorm. rewrite dot_vscal_r, dot_vscal_l, <- Rmult_assoc, sqrt_mult_alt by nra.
  f_equal. change (a * a) with (Rsqr a). apply sqrt_Rsqr_abs.
Qed.
(** Cauchy-Schwarz *)
Lemma dot_cs : forall u v, length u = length v -> dot u v * dot u v <= sqnorm u * sqnorm v.
Proof.
  intros u v H. destruct (Req_dec (sqnorm v) 0) as [E|E].
  - assert (dot u v = 0) as ->. { rewrite (dot_sum u v (length u)) by auto. apply Rsum_map_0. intros. rewrite (sqnorm_0 v E). lra. }
    rewrite E. lra.
  - assert (Hv := sqnorm_nonneg v).
    assert (P := sqnorm_nonneg (vsub (vscal (sqnorm v) u) (vscal (dot u v) v))).
    unfold sqnorm in P at 1. unfold vscal in P.
    rewrite dot_vsub_r, !dot_vsub_l in P by (rewrite ?map_length; auto).
    fold (vscal (sqnorm v) u) (vscal (dot u v) v) in P.
    rewrite !dot_vscal_r, !dot_vscal_l in P. fold (sqnorm v) (sqnorm u) in P. rewrite (dot_comm v u) in P.
    assert (0 <= sqnorm v * (sqnorm u * sqnorm v - dot u v * dot u v)) by nra. nra.
Qed.
Lemma dot_cs_norm : forall u v, length u = length v -> Rabs (dot u v) <= vnorm u * vnorm v.
Proof.
  intros. apply Rsqr_incr_0_var.
  - rewrite <- Rsqr_abs. unfold Rsqr. replace (vnorm u * vnorm v * (vnorm u * vnorm v)) with (sqnorm u * sqnorm v) by (rewrite <- !vnorm_sq; lra).
    apply dot_cs; auto.
  - apply Rmult_le_pos; apply vnorm_nonneg.
Qed.
