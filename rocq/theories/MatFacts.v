(** * Facts on matrix square roots *)
From Coq Require Import List Arith Reals Lra Lia.
From Verif Require Import Scalar RVec RVecFacts MatSqrt MatSpec.
Import ListNotations.
Open Scope R_scope.

Lemma msum_S : forall d f, msum (S d) f = msum d f + f d.
Proof. intros. unfold msum. rewrite seq_S, map_app, Rsum_app. cbn. ring. Qed.
Lemma msum_0 : forall f, msum 0 f = 0.
Proof. reflexivity. Qed.
Lemma msum_ext : forall d f g, (forall i, (i < d)%nat -> f i = g i) -> msum d f = msum d g.
Proof. intros. unfold msum. f_equal. apply map_ext_in. intros i Hi. apply H. apply in_seq in Hi. lia. Qed.
Lemma msum_add : forall d f g, msum d (fun i => f i + g i) = msum d f + msum d g.
Proof. induction d; intros; rewrite ?msum_S, ?msum_0, ?IHd; ring. Qed.
Lemma msum_scal : forall d a f, msum d (fun i => a * f i) = a * msum d f.
Proof. induction d; intros; rewrite ?msum_S, ?msum_0, ?IHd; ring. Qed.
Lemma msum_scal_r : forall d a f, msum d (fun i => f i * a) = msum d f * a.
Proof. induction d; intros; rewrite ?msum_S, ?msum_0, ?IHd; ring. Qed.
Lemma msum_zero : forall d f, (forall i, (i < d)%nat -> f i = 0) -> msum d f = 0.
Proof. intros. rewrite (msum_ext d f (fun _ => 0 * 0)) by (intros; rewrite H; auto; ring). rewrite msum_scal. ring. Qed.
Lemma msum_nonneg : forall d f, (forall i, (i < d)%nat -> 0 <= f i) -> 0 <= msum d f.
Proof.
  induction d; intros f H; rewrite ?msum_S, ?msum_0; [lra|]. assert (0 <= msum d f) by (apply IHd; intros; apply H; lia).
  assert (0 <= f d) by (apply H; lia). lra.
Qed.
Lemma msum_swap : forall d e f, msum d (fun i => msum e (fun j => f i j)) = msum e (fun j => msum d (fun i => f i j)).
Proof.
  induction d; intros; rewrite ?msum_S, ?msum_0.
  - symmetry. apply msum_zero. auto.
  - rewrite IHd, <- msum_add. apply msum_ext. intros. rewrite msum_S. auto.
Qed.
Lemma msum_delta : forall d i f, (i < d)%nat -> msum d (fun j => if Nat.eqb i j then f j else 0) = f i.
Proof.
  induction d; intros i f H; [lia|]. rewrite msum_S. destruct (Nat.eqb_spec i d).
  - subst. rewrite msum_zero; [ring|]. intros j Hj. destruct (Nat.eqb_spec d j); [lia|auto].
  - rewrite IHd by lia. ring.
Qed.

Section Sqrt.
  Variables (d : nat) (B : nat -> R) (V : mat).
  Hypothesis O1 : meq d (mmul d (mtr V) V) mid.

  (** V diag(c) V^T *)
  Definition vdv (c : nat -> R) : mat := fun i j => msum d (fun k => c k * (V i k * V j k)).
  Lemma vdv_sym : forall c i j, vdv c i j = vdv c j i.
  Proof. intros. unfold vdv. apply msum_ext. intros. ring. Qed.
  Lemma vdv_mul : forall a c i j, mmul d (vdv a) (vdv c) i j = vdv (fun k => a k * c k) i j.
  Proof.
    intros a c i j. unfold mmul, vdv.
    rewrite (msum_ext d _ (fun k => msum d (fun p => msum d (fun q => (a p * V i p * (c q * V j q)) * (V k p * V k q))))).
    2:{ intros k Hk. rewrite <- msum_scal_r. apply msum_ext. intros p Hp. rewrite <- msum_scal. apply msum_ext. intros. ring. }
    rewrite msum_swap. apply msum_ext. intros p Hp. rewrite msum_swap.
    rewrite (msum_ext d _ (fun q => if Nat.eqb p q then a p * c q * (V i p * V j q) else 0)).
    2:{ intros q Hq. rewrite msum_scal. assert (E := O1 p q Hp Hq). unfold mmul, mtr, mid in E. rewrite E. destruct (Nat.eqb p q); ring. }
    rewrite msum_delta by auto. auto.
  Qed.
  Lemma vdv_psd : forall c, (forall k, (k < d)%nat -> 0 <= c k) -> mpsd d (vdv c).
  Proof.
    intros c H. split; [intros i j _ _; apply vdv_sym|]. intros v. unfold mquad, vdv.
    rewrite (msum_ext d _ (fun i => msum d (fun k => msum d (fun j => c k * (v i * V i k) * (v j * V j k))))).
    2:{ intros i Hi. rewrite msum_swap. apply msum_ext. intros j Hj. rewrite <- msum_scal, <- msum_scal_r. apply msum_ext. intros. ring. }
    rewrite msum_swap. apply msum_nonneg. intros k Hk.
    rewrite (msum_ext d _ (fun i => (c k * (v i * V i k)) * msum d (fun j => v j * V j k))).
    2:{ intros i Hi. rewrite <- msum_scal. apply msum_ext. intros. ring. }
    rewrite msum_scal_r. rewrite msum_scal. assert (Q := Rle_0_sqr (msum d (fun j => v j * V j k))). unfold Rsqr in Q.
    rewrite Rmult_assoc. apply Rmult_le_pos; auto.
  Qed.
  Lemma mat_sqrt_vdv : forall i j, mat_sqrt d B V i j = vdv (fun k => sqrt (Rmax (B k) 0)) i j.
  Proof. intros. unfold mat_sqrt, mmul, mtr, vdv. apply msum_ext. intros. ring. Qed.
End Sqrt.

Lemma mquad_ext : forall d A A' v, meq d A A' -> mquad d A v = mquad d A' v.
Proof. intros. unfold mquad. apply msum_ext. intros i Hi. apply msum_ext. intros j Hj. rewrite H; auto. Qed.
Lemma mpsd_ext : forall d A A', meq d A A' -> mpsd d A -> mpsd d A'.
Proof.
  intros d A A' E [S P]. split.
  - intros i j Hi Hj. rewrite <- !E; auto.
  - intros v. rewrite <- (mquad_ext _ _ _ _ E). auto.
Qed.
Lemma mmul_ext : forall d A A' B B', meq d A A' -> meq d B B' -> meq d (mmul d A B) (mmul d A' B').
Proof. intros d A A' B B' E1 E2 i j Hi Hj. unfold mmul. apply msum_ext. intros. rewrite E1, E2; auto. Qed.

Lemma eigen_vdv : forall d A B V, eigen d A B V -> meq d A (vdv d V B).
Proof.
  intros d A B V (_ & _ & E) i j Hi Hj. rewrite <- E by auto. unfold mmul, mtr, vdv. apply msum_ext. intros k Hk.
  rewrite (msum_ext d _ (fun q => if Nat.eqb k q then B k * V j q else 0)) by (intros q Hq; destruct (Nat.eqb k q); ring).
  rewrite msum_delta by auto. ring.
Qed.

(** the root is symmetric positive semidefinite *)
Theorem mat_sqrt_psd : forall d A B V, eigen d A B V -> mpsd d (mat_sqrt d B V).
Proof.
  intros d A B V (O1 & _ & _). apply (mpsd_ext d (vdv d V (fun k => sqrt (Rmax (B k) 0)))).
  - intros i j _ _. symmetry. apply mat_sqrt_vdv.
  - apply vdv_psd. intros. apply sqrt_pos.
Qed.

(** its square P is the positive part of A: P and P - A are positive semidefinite with product zero *)
Theorem mat_sqrt_square : forall d A B V, eigen d A B V -> exists P, P = mmul d (mat_sqrt d B V) (mat_sqrt d B V) /\
  mpsd d P /\ mpsd d (fun i j => P i j - A i j) /\ meq d (mmul d P (fun i j => P i j - A i j)) (fun _ _ => 0).
Proof.
  intros d A B V HE. pose proof (eigen_vdv _ _ _ _ HE) as EA. destruct HE as (O1 & _ & _). eexists. split; [reflexivity|].
  assert (EP : meq d (mmul d (mat_sqrt d B V) (mat_sqrt d B V)) (vdv d V (fun k => Rmax (B k) 0))).
  { intros i j Hi Hj. rewrite (mmul_ext d _ (vdv d V (fun k => sqrt (Rmax (B k) 0))) _ (vdv d V (fun k => sqrt (Rmax (B k) 0)))); auto.
    - rewrite vdv_mul by auto. unfold vdv. apply msum_ext. intros. rewrite sqrt_sqrt; auto. apply Rmax_r.
    - intros p q _ _. apply mat_sqrt_vdv.
    - intros p q _ _. apply mat_sqrt_vdv. }
  assert (EN : meq d (fun i j => mmul d (mat_sqrt d B V) (mat_sqrt d B V) i j - A i j) (vdv d V (fun k => Rmax (B k) 0 - B k))).
  { intros i j Hi Hj. rewrite EP, EA by auto. unfold vdv. unfold Rminus at 1. rewrite <- (Rmult_1_l (msum d (fun k => B k * _))), Ropp_mult_distr_l.
    rewrite <- msum_scal, <- msum_add. apply msum_ext. intros. ring. }
  split; [|split].
  - eapply mpsd_ext; [intros i j Hi Hj; symmetry; apply EP; auto|]. apply vdv_psd. intros. apply Rmax_r.
  - eapply mpsd_ext; [intros i j Hi Hj; symmetry; apply EN; auto|]. apply vdv_psd. intros. assert (H1 := Rmax_l (B k) 0). lra.
  - intros i j Hi Hj. rewrite (mmul_ext d _ _ _ _ EP EN i j Hi Hj). rewrite vdv_mul by auto. unfold vdv. apply msum_zero. intros k Hk.
    destruct (Rle_dec (B k) 0); [rewrite Rmax_right by auto; ring|rewrite Rmax_left by lra; ring].
Qed.

(** eigenvalues of a positive semidefinite matrix are non-negative, so the square is A *)
Lemma psd_eigenvalues : forall d A B V, eigen d A B V -> mpsd d A -> forall k, (k < d)%nat -> 0 <= B k.
Proof.
  intros d A B V HE [_ P] k Hk. pose proof (eigen_vdv _ _ _ _ HE) as EA. destruct HE as (O1 & _ & _).
  specialize (P (fun i => V i k)). rewrite (mquad_ext _ _ _ _ EA) in P. unfold mquad, vdv in P.
  rewrite (msum_ext d _ (fun i => V i k * (B k * V i k))) in P.
  - rewrite (msum_ext d _ (fun i => B k * (V i k * V i k))) in P by (intros; ring). rewrite msum_scal in P.
    assert (E := O1 k k Hk Hk). unfold mmul, mtr, mid in E. rewrite Nat.eqb_refl in E. rewrite E in P. lra.
  - intros i Hi. rewrite (msum_ext d _ (fun j => V i k * msum d (fun q => B q * V i q * (V j q * V j k)))).
    2:{ intros j Hj. rewrite Rmult_assoc, <- (msum_scal_r d (V j k)). f_equal. apply msum_ext. intros. ring. }
    rewrite msum_scal. f_equal. rewrite msum_swap.
    rewrite (msum_ext d _ (fun q => if Nat.eqb k q then B k * V i k else 0)).
    2:{ intros q Hq. rewrite msum_scal. assert (E := O1 q k Hq Hk). unfold mmul, mtr, mid in E. rewrite E.
        rewrite (Nat.eqb_sym q k). destruct (Nat.eqb_spec k q); [subst|]; ring. }
    rewrite (msum_delta d k (fun _ => B k * V i k)) by auto. auto.
Qed.

Theorem mat_sqrt_root : forall d A B V, eigen d A B V -> mpsd d A -> meq d (mmul d (mat_sqrt d B V) (mat_sqrt d B V)) A.
Proof.
  intros d A B V HE HP. pose proof (psd_eigenvalues _ _ _ _ HE HP) as HB. pose proof (eigen_vdv _ _ _ _ HE) as EA. destruct HE as (O1 & _ & _).
  intros i j Hi Hj. rewrite EA by auto.
  rewrite (mmul_ext d _ (vdv d V (fun k => sqrt (Rmax (B k) 0))) _ (vdv d V (fun k => sqrt (Rmax (B k) 0)))); auto.
  - rewrite vdv_mul by auto. unfold vdv. apply msum_ext. intros k Hk. rewrite sqrt_sqrt by apply Rmax_r. rewrite Rmax_left by auto. auto.
  - intros p q _ _. apply mat_sqrt_vdv.
  - intros p q _ _. apply mat_sqrt_vdv.
Qed.


Lemma finite_entries_spec : forall d A, finite_entries d A = true <-> forall i j, (i < d)%nat -> (j < d)%nat -> A i j = Fin (real_entries A i j).
Proof.
  intros d A. unfold finite_entries, real_entries. rewrite forallb_forall. split.
  - intros H i j Hi Hj. specialize (H i ltac:(apply in_seq; lia)). rewrite forallb_forall in H. specialize (H j ltac:(apply in_seq; lia)).
    destruct (A i j); congruence.
  - intros H i Hi. apply forallb_forall. intros j Hj. apply in_seq in Hi. apply in_seq in Hj. rewrite (H i j) by lia. auto.
Qed.

(** the root of the zero matrix is zero *)
Theorem compute_mat_sqrt_zero : forall eigh d A, (forall i j, (i < d)%nat -> (j < d)%nat -> A i j = Fin 0) ->
  eigen d (real_entries A) (fst (eigh d (real_entries A))) (snd (eigh d (real_entries A))) ->
  forall i j, (i < d)%nat -> (j < d)%nat -> compute_mat_sqrt eigh d A i j = Fin 0.
Proof.
  intros eigh d A Z HE i j Hi Hj. unfold compute_mat_sqrt.
  assert (finite_entries d A = true) as -> by (apply finite_entries_spec; intros; unfold real_entries; rewrite Z; auto).
  destruct (eigh d (real_entries A)) as [B V]. cbn [fst snd] in HE. f_equal.
  assert (HB : forall k, (k < d)%nat -> B k <= 0).
  { intros k Hk.
    set (NA := fun i j => - real_entries A i j).
    assert (HN : eigen d NA (fun k => - B k) V).
    { destruct HE as (O1 & O2 & E). split; [auto|split; auto]. intros p q Hp Hq. unfold NA. rewrite <- E by auto.
      unfold mmul. replace (- msum d (fun k0 => V p k0 * msum d (fun k1 => (if Nat.eqb k0 k1 then B k0 else 0) * mtr V k1 q)))
        with (-1 * msum d (fun k0 => V p k0 * msum d (fun k1 => (if Nat.eqb k0 k1 then B k0 else 0) * mtr V k1 q))) by ring.
      rewrite <- msum_scal. apply msum_ext. intros a Ha.
      replace (-1 * (V p a * msum d (fun k1 => (if Nat.eqb a k1 then B a else 0) * mtr V k1 q)))
        with (V p a * (-1 * msum d (fun k1 => (if Nat.eqb a k1 then B a else 0) * mtr V k1 q))) by ring.
      f_equal. rewrite <- msum_scal. apply msum_ext. intros b Hb. destruct (Nat.eqb a b); ring. }
    assert (HP : mpsd d NA).
    { apply (mpsd_ext d (fun _ _ => 0)). { intros p q Hp Hq. unfold NA, real_entries. rewrite Z by auto. ring. }
      split; [intros ? ? _ _; auto|]. intros v. unfold mquad. rewrite msum_zero; [lra|]. intros. apply msum_zero. intros. ring. }
    assert (Q := psd_eigenvalues _ _ _ _ HN HP k Hk). cbn in Q. lra. }
  rewrite mat_sqrt_vdv. unfold vdv. apply msum_zero. intros k Hk. rewrite Rmax_right by auto. rewrite sqrt_0. ring.
Qed.

Theorem mat_sqrt_root_eigenvalues : forall d A B V, eigen d A B V -> (forall k, (k < d)%nat -> 0 <= B k) ->
  mpsd d A /\ meq d (mmul d (mat_sqrt d B V) (mat_sqrt d B V)) A.
Proof.
  intros d A B V HE HB. assert (HP : mpsd d A).
  { apply (mpsd_ext d (vdv d V B)); [intros i j Hi Hj; symmetry; apply (eigen_vdv d A B V); auto|apply vdv_psd; auto]. }
  split; auto. apply mat_sqrt_root; auto.
Qed.

(** ** floats *)
Lemma compute_mat_sqrt_finite : forall eigh d A, (forall i j, (i < d)%nat -> (j < d)%nat -> exists a, A i j = Fin a) ->
  exists a, (forall i j, (i < d)%nat -> (j < d)%nat -> A i j = Fin (a i j)) /\ forall i j, compute_mat_sqrt eigh d A i j = Fin (mat_sqrt d (fst (eigh d a)) (snd (eigh d a)) i j).
Proof.
  intros eigh d A H. exists (real_entries A). split.
  - intros i j Hi Hj. destruct (H i j Hi Hj) as (a & E). unfold real_entries. rewrite E. reflexivity.
  - intros i j. unfold compute_mat_sqrt. replace (finite_entries d A) with true.
    + destruct (eigh d (real_entries A)). reflexivity.
    + symmetry. unfold finite_entries. apply forallb_forall. intros k Hk. apply forallb_forall. intros l Hl. apply in_seq in Hk, Hl.
      destruct (H k l) as (a & ->); [lia|lia|reflexivity].
Qed.
Lemma compute_mat_sqrt_nan : forall eigh d A i j, (i < d)%nat -> (j < d)%nat -> (forall a, A i j <> Fin a) -> forall k l, compute_mat_sqrt eigh d A k l = NaN.
Proof.
  intros eigh d A i j Hi Hj H k l. unfold compute_mat_sqrt. replace (finite_entries d A) with false; [reflexivity|].
  symmetry. apply Bool.not_true_is_false. intros F. unfold finite_entries in F. rewrite forallb_forall in F. specialize (F i ltac:(apply in_seq; lia)).
  rewrite forallb_forall in F. specialize (F j ltac:(apply in_seq; lia)). destruct (A i j) eqn:E; try discriminate. exact (H _ eq_refl).
Qed.
Theorem compute_mat_sqrt_spec : forall eigh d A,
  ((forall i j, (i < d)%nat -> (j < d)%nat -> exists a, A i j = Fin a) ->
   exists a, (forall i j, (i < d)%nat -> (j < d)%nat -> A i j = Fin (a i j)) /\ forall i j, compute_mat_sqrt eigh d A i j = Fin (mat_sqrt d (fst (eigh d a)) (snd (eigh d a)) i j)) /\
  (forall i j, (i < d)%nat -> (j < d)%nat -> (forall a, A i j <> Fin a) -> forall k l, compute_mat_sqrt eigh d A k l = NaN).
Proof. intros. split; [apply compute_mat_sqrt_finite|apply compute_mat_sqrt_nan]. Qed.
