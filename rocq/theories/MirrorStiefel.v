(** * The polar factor of a matrix is the nearest matrix with orthonormal columns *)
From Coq Require Import List Arith Reals Lra Lia Psatz.
From Verif Require Import Scalar Np NpFacts RVec RVecFacts ConsSpec ConsFacts Cbo CboSpec CboFacts MatSqrt MatSpec MatFacts MirrorMaps MirrorSpec MirrorProj.
Import ListNotations.
Open Scope R_scope.

Lemma msum_app : forall a b f, msum (a + b) f = msum a f + msum b (fun j => f (a + j)%nat).
Proof.
  induction b; intros f. rewrite Nat.add_0_r, msum_0. ring. rewrite Nat.add_succ_r, !msum_S, IHb. ring.
Qed.
Lemma msum_flat : forall n k f, msum (n * k) f = msum n (fun i => msum k (fun j => f (i * k + j)%nat)).
Proof.
  induction n; intros k f. cbn [Nat.mul]. rewrite !msum_0. auto.
  rewrite msum_S. replace (S n * k)%nat with (n * k + k)%nat by lia. rewrite msum_app, IHn. auto.
Qed.
Lemma dot_entries : forall n k p q, length p = (n * k)%nat -> length q = (n * k)%nat ->
  dot p q = msum n (fun i => msum k (fun j => entry k p i j * entry k q i j)).
Proof. intros n k p q Hp Hq. rewrite (dot_sum _ _ (n * k)) by auto. fold (msum (n * k) (fun i => nth i p 0 * nth i q 0)). apply msum_flat. Qed.

Lemma msum_half : forall n (f g : nat -> R), msum n (fun i => f i * g i) <= (msum n (fun i => f i * f i) + msum n (fun i => g i * g i)) / 2.
Proof.
  induction n; intros f g. rewrite !msum_0. lra. rewrite !msum_S. specialize (IHn f g). pose proof (Rle_0_sqr (f n - g n)) as S. unfold Rsqr in S. lra.
Qed.
Lemma msum_le : forall n f g, (forall i, (i < n)%nat -> f i <= g i) -> msum n f <= msum n g.
Proof. intros. unfold msum. apply Rsum_map_le. intros i Hi. apply in_seq in Hi. apply H. lia. Qed.
Lemma msum_square : forall n f, msum n f * msum n f = msum n (fun i => msum n (fun j => f i * f j)).
Proof.
  intros. rewrite <- msum_scal_r. apply msum_ext. intros. symmetry. apply msum_scal.
Qed.

Lemma mid_diag : forall i, mid i i = 1.
Proof. intros. unfold mid. rewrite Nat.eqb_refl. auto. Qed.
Lemma msum_mid : forall k (f : nat -> R) i, (i < k)%nat -> msum k (fun j => f j * mid i j) = f i.
Proof.
  intros k f i H. transitivity (msum k (fun j => if Nat.eqb i j then f j else 0)). 2:apply msum_delta; auto.
  apply msum_ext. intros j _. unfold mid. destruct (Nat.eqb i j); ring.
Qed.

Section Polar.
  Variables (n k : nat) (y : list R) (U : mat) (s : nat -> R) (Vh : mat).
  Hypothesis (Hy : length y = (n * k)%nat) (HS : svd_of n k y U s Vh).
  Definition polar_point : list R := map (fun i => mmul k U Vh (i / k)%nat (i mod k)%nat) (seq 0 (n * k)).
  Lemma polar_len : length polar_point = (n * k)%nat.
  Proof. unfold polar_point. rewrite map_length, seq_length. auto. Qed.
  Lemma polar_entry : forall i j, (i < n)%nat -> (j < k)%nat -> entry k polar_point i j = mmul k U Vh i j.
  Proof.
    intros i j Hi Hj. unfold entry, polar_point. rewrite nth_map_seq by nia.
    replace ((i * k + j) / k)%nat with i. replace ((i * k + j) mod k)%nat with j. auto.
    - rewrite Nat.add_comm, Nat.mod_add, Nat.mod_small; lia.
    - rewrite Nat.add_comm, Nat.div_add, Nat.div_small; lia.
  Qed.

  (** the scalar product of y with a matrix q *)
  Lemma polar_dot : forall q, length q = (n * k)%nat ->
    dot y q = msum k (fun l => s l * msum n (fun i => U i l * msum k (fun j => entry k q i j * Vh l j))).
  Proof.
    intros q Hq. rewrite (dot_entries n k) by auto. destruct HS as (_ & _ & _ & _ & E).
    transitivity (msum n (fun i => msum k (fun l => s l * (U i l * msum k (fun j => entry k q i j * Vh l j))))).
    - apply msum_ext. intros i Hi. transitivity (msum k (fun j => msum k (fun l => s l * (U i l * (entry k q i j * Vh l j))))).
      + apply msum_ext. intros j Hj. rewrite E by auto. rewrite <- msum_scal_r. apply msum_ext. intros. ring.
      + rewrite msum_swap. apply msum_ext. intros l Hl. rewrite !msum_scal. auto.
    - rewrite msum_swap. apply msum_ext. intros l Hl. apply msum_scal.
  Qed.

  Lemma row_norm : forall q l, stiefel n k q -> (l < k)%nat ->
    msum n (fun i => msum k (fun j => entry k q i j * Vh l j) * msum k (fun j => entry k q i j * Vh l j)) = 1.
  Proof.
    intros q l Hq Hl. transitivity (msum k (fun j => Vh l j * Vh l j)).
    2:{ destruct HS as (_ & V1 & _). specialize (V1 l l Hl Hl). rewrite mid_diag in V1. exact V1. }
    transitivity (msum k (fun j => msum k (fun j' => (Vh l j * Vh l j') * msum n (fun i => entry k q i j * entry k q i j')))).
    - transitivity (msum n (fun i => msum k (fun j => msum k (fun j' => (Vh l j * Vh l j') * (entry k q i j * entry k q i j'))))).
      + apply msum_ext. intros i _. rewrite msum_square. apply msum_ext. intros j _. apply msum_ext. intros j' _. ring.
      + rewrite msum_swap. apply msum_ext. intros j _. rewrite msum_swap. apply msum_ext. intros j' _. apply msum_scal.
    - apply msum_ext. intros j Hj. transitivity (msum k (fun j' => Vh l j * Vh l j' * mid j j')).
      + apply msum_ext. intros j' Hj'. f_equal. apply (Hq j j'); auto.
      + apply (msum_mid k (fun j' => Vh l j * Vh l j')); auto.
  Qed.

  Lemma polar_le : forall q, length q = (n * k)%nat -> stiefel n k q -> dot y q <= msum k s.
  Proof.
    intros q Hq Sq. rewrite polar_dot by auto. apply msum_le. intros l Hl. destruct HS as (U1 & _ & _ & Sp & _).
    pose proof (msum_half n (fun i => U i l) (fun i => msum k (fun j => entry k q i j * Vh l j))) as C. cbv beta in C.
    rewrite (row_norm q l Sq Hl) in C. specialize (U1 l l Hl Hl). rewrite mid_diag in U1. unfold mmul, mtr in U1. rewrite U1 in C.
    specialize (Sp l Hl). apply Rle_trans with (s l * 1); [|lra]. apply Rmult_le_compat_l; auto. lra.
  Qed.

  Lemma polar_row : forall i l, (i < n)%nat -> (l < k)%nat -> msum k (fun j => entry k polar_point i j * Vh l j) = U i l.
  Proof.
    intros i l Hi Hl. destruct HS as (_ & V1 & _). transitivity (msum k (fun h => U i h * msum k (fun j => Vh h j * Vh l j))).
    - transitivity (msum k (fun j => msum k (fun h => U i h * (Vh h j * Vh l j)))).
      + apply msum_ext. intros j Hj. rewrite polar_entry by auto. unfold mmul. rewrite <- msum_scal_r. apply msum_ext. intros; ring.
      + rewrite msum_swap. apply msum_ext. intros h _. apply msum_scal.
    - transitivity (msum k (fun h => U i h * mid l h)). 2:apply msum_mid; auto. apply msum_ext. intros h Hh. f_equal.
      specialize (V1 h l Hh Hl). unfold mmul, mtr in V1. rewrite V1. unfold mid. rewrite Nat.eqb_sym. auto.
  Qed.
  Lemma polar_eq : dot y polar_point = msum k s.
  Proof.
    rewrite polar_dot by apply polar_len. apply msum_ext. intros l Hl. destruct HS as (U1 & _).
    replace (msum n _) with 1. ring. specialize (U1 l l Hl Hl). rewrite mid_diag in U1. symmetry. rewrite <- U1. unfold mmul, mtr. apply msum_ext.
    intros i Hi. f_equal. apply polar_row; auto.
  Qed.
  Lemma polar_stiefel : stiefel n k polar_point.
  Proof.
    intros a b Ha Hb. destruct HS as (U1 & _ & V2 & _). unfold mmul at 1, mtr.
    transitivity (msum n (fun i => msum k (fun h => msum k (fun h' => (Vh h a * Vh h' b) * (U i h * U i h'))))).
    - apply msum_ext. intros i Hi. rewrite !polar_entry by auto. unfold mmul. rewrite <- msum_scal_r. apply msum_ext. intros h Hh.
      rewrite <- msum_scal. apply msum_ext. intros. ring.
    - rewrite msum_swap. transitivity (msum k (fun h => Vh h a * Vh h b)).
      + apply msum_ext. intros h Hh. rewrite msum_swap. transitivity (msum k (fun h' => Vh h a * Vh h' b * mid h h')).
        * apply msum_ext. intros h' Hh'. rewrite msum_scal. f_equal. apply (U1 h h'); auto.
        * apply (msum_mid k (fun h' => Vh h a * Vh h' b)); auto.
      + apply (V2 a b); auto.
  Qed.
  Lemma stiefel_sqnorm : forall q, length q = (n * k)%nat -> stiefel n k q -> sqnorm q = INR k.
  Proof.
    intros q Hq Sq. unfold sqnorm. rewrite (dot_entries n k) by auto. rewrite msum_swap.
    transitivity (msum k (fun _ => 1)).
    - apply msum_ext. intros j Hj. specialize (Sq j j Hj Hj). rewrite mid_diag in Sq. exact Sq.
    - clear. induction k. rewrite msum_0. auto. rewrite msum_S, IHn, S_INR. auto.
  Qed.
  Lemma polar_nearest : nearest (stiefel n k) y polar_point.
  Proof.
    split. { rewrite polar_len; auto. } split. apply polar_stiefel. intros q Hq Sq. rewrite Hy in Hq. apply dist_le_sq.
    rewrite !sqnorm_sub by (rewrite ?polar_len; congruence).
    rewrite (stiefel_sqnorm q), (stiefel_sqnorm polar_point) by auto using polar_len, polar_stiefel.
    rewrite polar_eq. pose proof (polar_le q Hq Sq). lra.
  Qed.
  Lemma polar_fixed : stiefel n k y -> polar_point = y.
  Proof.
    intros Sy. destruct polar_nearest as (_ & Sp & HN). specialize (HN y eq_refl Sy).
    assert (E0 : sqnorm (vsub y y) = 0). { rewrite sqnorm_sub by auto. unfold sqnorm. ring. }
    assert (D0 : dist y y = 0). { unfold dist, vnorm. rewrite E0. apply sqrt_0. }
    assert (D : dist y polar_point = 0). { pose proof (vnorm_nonneg (vsub y polar_point)). unfold dist in *. lra. }
    symmetry. apply (coord_ext _ _ (n * k)); auto. apply polar_len. intros i Hi. pose proof (vnorm_0 _ D i) as Z.
    fold (coord i (vsub y polar_point)) in Z. rewrite coord_vsub in Z by (rewrite polar_len; auto). lra.
  Qed.
End Polar.

Lemma stiefel_conj : forall n k svd y U s Vh, (k <= n)%nat -> length y = (n * k)%nat -> svd (floats y) = (U, Vh) -> svd_of n k y U s Vh ->
  mm_conj (ProjectionStiefel n k svd) (floats y) = floats (polar_point n k U Vh).
Proof.
  intros n k svd y U s Vh Hk Hy E HS. cbn [mm_conj]. rewrite E. rewrite Nat.min_r by auto. unfold polar_point, floats. rewrite map_map. reflexivity.
Qed.
