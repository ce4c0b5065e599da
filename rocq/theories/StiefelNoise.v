(** * The correction of isotropic noise on the Stiefel manifold *)
From Coq Require Import List Arith Bool Reals Lra Lia.
From Verif Require Import Scalar Np NpFacts RVec RVecFacts ConsSpec ConsFacts PolarFacts RegFacts Consensus Cbo CboSpec CboFacts AbsorbFacts MatSqrt MatSpec MatFacts
  Variant MirrorSpec MirrorFacts MirrorStiefel HyperMaps HyperSpec HyperFacts MomentSpec MomentFacts ParticleInitFacts HyperRun.
Import ListNotations.
Open Scope R_scope.

Lemma mid_if : forall i j, mid i j = if Nat.eqb i j then 1 else 0.
Proof. intros. unfold mid. destruct (Nat.eqb i j); auto. Qed.
Lemma mid_sym : forall i j, mid i j = mid j i.
Proof. intros. rewrite !mid_if, Nat.eqb_sym. auto. Qed.
Lemma msum_mid_r : forall k (f : nat -> R) i, (i < k)%nat -> msum k (fun j => f j * mid j i) = f i.
Proof. intros. rewrite <- (msum_mid k f i) by auto. apply msum_ext. intros. rewrite (mid_sym i). auto. Qed.
Lemma msum_one : forall k r, msum k (fun _ => r) = INR k * r.
Proof. intros. unfold msum. rewrite Rsum_map_const, seq_length. auto. Qed.

Section Stiefel.
  Context {Om : Type} (A : average Om) (n k : nat) (x : list R) (xi : Om -> list R).
  Hypothesis HX : stiefel n k x.
  Hypothesis HW : white A (n * k) 1 xi.

  Let X := entry k x.
  Let Z w := entry k (xi w).
  Lemma Z_mean : forall l i, (l < n)%nat -> (i < k)%nat -> mean_is A (fun w => Z w l i) 0.
  Proof. intros l i Hl Hi. destruct HW as (_ & H & _). apply (H (l * k + i)%nat). nia. Qed.
  Lemma Z_cov : forall l i m j, (l < n)%nat -> (i < k)%nat -> (m < n)%nat -> (j < k)%nat -> mean_is A (fun w => Z w l i * Z w m j) (mid l m * mid i j).
  Proof.
    intros l i m j Hl Hi Hm Hj. destruct HW as (_ & _ & H). eapply mean_eq; [apply (H (l * k + i)%nat (m * k + j)%nat); nia|intros w; reflexivity|].
    rewrite !mid_if. destruct (Nat.eqb_spec (l * k + i) (m * k + j)), (Nat.eqb_spec l m), (Nat.eqb_spec i j); subst; try ring; exfalso; try nia.
    all: try (assert (i = j) by lia; contradiction).
  Qed.
  Let B w a b := msum n (fun l => X l a * Z w l b).
  Lemma B_mean : forall a b, (b < k)%nat -> mean_is A (fun w => B w a b) 0.
  Proof.
    intros a b Hb. eapply mean_eq; [apply (mean_msum _ A n (fun l w => X l a * Z w l b) (fun l => X l a * 0)); intros; apply (avg_scal _ A); apply Z_mean; auto|reflexivity|].
    apply msum_zero. intros; ring.
  Qed.
  Lemma B_cov : forall a b c d, (a < k)%nat -> (b < k)%nat -> (c < k)%nat -> (d < k)%nat -> mean_is A (fun w => B w a b * B w c d) (mid a c * mid b d).
  Proof.
    intros a b c d Ha Hb Hc Hd.
    eapply mean_eq; [apply (mean_msum _ A n (fun l w => msum n (fun m => X l a * X m c * (Z w l b * Z w m d))) (fun l => msum n (fun m => X l a * X m c * (mid l m * mid b d))));
      intros l Hl; apply (mean_msum _ A n (fun m w => X l a * X m c * (Z w l b * Z w m d)) (fun m => X l a * X m c * (mid l m * mid b d))); intros m Hm; apply (avg_scal _ A); apply Z_cov; auto| |].
    - intros w. cbn beta. unfold B. rewrite <- msum_scal_r. apply msum_ext. intros l Hl. rewrite <- msum_scal. apply msum_ext. intros m Hm. ring.
    - transitivity (msum n (fun l => X l a * X l c * mid b d)).
      + apply msum_ext. intros l Hl. rewrite <- (msum_mid n (fun m => X l a * X m c * mid b d) l Hl). apply msum_ext. intros; ring.
      + rewrite msum_scal_r. f_equal. apply (HX a c); auto.
  Qed.
  (** the symmetric part *)
  Let S w a b := / 2 * (B w a b + B w b a).
  Let T w l i := Z w l i - msum k (fun a => X l a * S w a i).
  Lemma T_mean : forall l i, (l < n)%nat -> (i < k)%nat -> mean_is A (fun w => T w l i) 0.
  Proof.
    intros l i Hl Hi. eapply mean_eq; [apply (avg_add _ A); [apply (Z_mean l i); auto|apply (avg_scal _ A (-1));
      apply (mean_msum _ A k (fun a w => X l a * S w a i) (fun a => X l a * (/ 2 * (0 + 0)))); intros a Ha; apply (avg_scal _ A); apply (avg_scal _ A); apply (avg_add _ A); apply B_mean; auto]| |].
    - intros w. cbn beta. unfold T. ring.
    - rewrite msum_zero; [ring|]. intros; ring.
  Qed.
  (** (P Z)^T (P Z) = Z^T Z - B^T S - S B + S S *)
  Lemma TT : forall w i j, (i < k)%nat -> (j < k)%nat -> msum n (fun l => T w l i * T w l j) =
    msum n (fun l => Z w l i * Z w l j) - msum k (fun a => B w a i * S w a j) - msum k (fun a => S w a i * B w a j) + msum k (fun a => S w a i * S w a j).
  Proof.
    intros w i j Hi Hj. set (Y := fun l j => msum k (fun a => X l a * S w a j)).
    assert (G : forall f b, msum n (fun l => f l * Y l b) = msum k (fun a => msum n (fun l => X l a * f l) * S w a b)).
    { intros f b. unfold Y. transitivity (msum n (fun l => msum k (fun a => X l a * f l * S w a b))).
      - apply msum_ext. intros l _. rewrite <- msum_scal. apply msum_ext. intros; ring.
      - rewrite msum_swap. apply msum_ext. intros a _. apply msum_scal_r. }
    assert (XY : forall a b, (a < k)%nat -> msum n (fun l => X l a * Y l b) = S w a b). { intros a b Ha. unfold Y, X. apply (stiefel_gram n k x (S w) a b HX Ha). }
    transitivity (msum n (fun l => (Z w l i * Z w l j - Z w l i * Y l j) - Z w l j * Y l i) + msum n (fun l => Y l i * Y l j)).
    - rewrite <- msum_add. apply msum_ext. intros l _. unfold T. fold (Y l i) (Y l j). ring.
    - rewrite !msum_sub, !G. f_equal; [f_equal|].
      + apply msum_ext. intros a _. fold (B w a j). ring.
      + apply msum_ext. intros a Ha. rewrite XY by auto. auto.
  Qed.
  Lemma SB_mean : forall i j, (i < k)%nat -> (j < k)%nat -> mean_is A (fun w => msum k (fun a => B w a i * S w a j)) ((INR k + 1) / 2 * mid i j).
  Proof.
    intros i j Hi Hj. eapply mean_eq; [apply (mean_msum _ A k (fun a w => / 2 * (B w a i * B w a j + B w a i * B w j a)) (fun a => / 2 * (mid a a * mid i j + mid a j * mid i a)));
      intros a Ha; apply (avg_scal _ A); apply (avg_add _ A); apply B_cov; auto| |].
    - intros w. apply msum_ext. intros a _. unfold S. ring.
    - rewrite msum_scal, msum_add. rewrite (msum_ext k (fun a => mid a a * mid i j) (fun _ => mid i j)) by (intros; rewrite (mid_if i0 i0), Nat.eqb_refl; ring).
      rewrite msum_one. rewrite (msum_mid k (fun a => mid a j) i Hi). field.
  Qed.
  Lemma SS_mean : forall i j, (i < k)%nat -> (j < k)%nat -> mean_is A (fun w => msum k (fun a => S w a i * S w a j)) ((INR k + 1) / 2 * mid i j).
  Proof.
    intros i j Hi Hj.
    eapply mean_eq; [apply (mean_msum _ A k (fun a w => / 4 * ((B w a i * B w a j + B w a i * B w j a) + (B w i a * B w a j + B w i a * B w j a)))
        (fun a => / 4 * ((mid a a * mid i j + mid a j * mid i a) + (mid i a * mid a j + mid i j * mid a a))));
      intros a Ha; apply (avg_scal _ A); apply (avg_add _ A); apply (avg_add _ A); apply B_cov; auto| |].
    - intros w. apply msum_ext. intros a _. unfold S. field.
    - rewrite msum_scal, !msum_add. rewrite (msum_ext k (fun a => mid a a * mid i j) (fun _ => mid i j)) by (intros; rewrite (mid_if i0 i0), Nat.eqb_refl; ring).
      rewrite (msum_ext k (fun a => mid i j * mid a a) (fun _ => mid i j)) by (intros; rewrite (mid_if i0 i0), Nat.eqb_refl; ring).
      rewrite msum_one. rewrite (msum_mid k (fun a => mid a j) i Hi). rewrite (msum_ext k (fun a => mid i a * mid a j) (fun a => mid a j * mid i a)) by (intros; ring).
      rewrite (msum_mid k (fun a => mid a j) i Hi). field.
  Qed.
  Lemma TT_mean : forall i j, (i < k)%nat -> (j < k)%nat -> mean_is A (fun w => msum n (fun l => T w l i * T w l j)) ((2 * INR n - INR k - 1) / 2 * mid i j).
  Proof.
    intros i j Hi Hj. eapply mean_eq.
    - eapply (avg_add _ A (fun w => msum n (fun l => Z w l i * Z w l j)) _ (msum n (fun l => mid l l * mid i j))).
      + apply (mean_msum _ A n (fun l w => Z w l i * Z w l j)). intros l Hl. apply Z_cov; auto.
      + apply (avg_add _ A). apply (avg_scal _ A (-1)). apply (SB_mean i j Hi Hj). apply (avg_add _ A). apply (avg_scal _ A (-1)). apply (SB_mean j i Hj Hi). apply (SS_mean i j Hi Hj).
    - intros w. cbn beta. rewrite TT by auto. rewrite (msum_ext k (fun a => B w a j * S w a i) (fun a => S w a i * B w a j)) by (intros; ring). ring.
    - rewrite (msum_ext n (fun l => mid l l * mid i j) (fun _ => mid i j)) by (intros; rewrite (mid_if i0 i0), Nat.eqb_refl; ring). rewrite msum_one, (mid_sym j i). field.
  Qed.
  Lemma T_tan : forall w l i, (l < n)%nat -> (i < k)%nat -> entry k (stiefel_tan n k x (xi w)) l i = T w l i.
  Proof.
    intros w l i Hl Hi. rewrite stiefel_tan_entry by auto. unfold T. fold (Z w l i). f_equal. rewrite <- msum_scal. apply msum_ext. intros a Ha. fold (X l a). unfold S, rsym.
    fold X. replace (msum n (fun l0 => entry k (xi w) l0 a * X l0 i)) with (B w i a) by (apply msum_ext; intros; unfold Z; ring). fold (Z w). fold (B w a i). ring.
  Qed.

  (** the white noise, projected onto the tangent space *)
  Definition PZ w := entry k (stiefel_tan n k x (xi w)).
  Lemma PZ_mean : forall l i, (l < n)%nat -> (i < k)%nat -> mean_is A (fun w => PZ w l i) 0.
  Proof. intros l i Hl Hi. eapply mean_eq; [apply (T_mean l i Hl Hi)| |reflexivity]. intros w. symmetry. apply T_tan; auto. Qed.
  Lemma PZ_gram : forall i j, (i < k)%nat -> (j < k)%nat -> mean_is A (fun w => msum n (fun l => PZ w l i * PZ w l j)) ((2 * INR n - INR k - 1) / 2 * mid i j).
  Proof. intros i j Hi Hj. eapply mean_eq; [apply (TT_mean i j Hi Hj)| |reflexivity]. intros w. apply msum_ext. intros l Hl. unfold PZ. rewrite !T_tan; auto. Qed.
End Stiefel.

Lemma stiefel_skew : forall n k x z i j, stiefel n k x -> (i < k)%nat -> (j < k)%nat ->
  msum n (fun l => entry k x l i * entry k (stiefel_tan n k x z) l j) + msum n (fun l => entry k (stiefel_tan n k x z) l i * entry k x l j) = 0.
Proof.
  intros n k x z i j HX Hi Hj.
  assert (E : forall a b, (a < k)%nat -> (b < k)%nat -> msum n (fun l => entry k x l a * entry k (stiefel_tan n k x z) l b) = msum n (fun l => entry k x l a * entry k z l b) - / 2 * rsym n k x z a b).
  { intros a b Ha Hb. rewrite <- (stiefel_gram n k x (rsym n k x z) a b HX Ha) at 1. rewrite <- msum_scal, <- msum_sub. apply msum_ext. intros l Hl. rewrite stiefel_tan_entry by auto. ring. }
  rewrite (msum_ext n (fun l => entry k (stiefel_tan n k x z) l i * entry k x l j) (fun l => entry k x l j * entry k (stiefel_tan n k x z) l i)) by (intros; ring).
  rewrite !E by auto. rewrite (rsym_sym n k x z j i). unfold rsym. rewrite (msum_ext n (fun l => entry k z l i * entry k x l j) (fun l => entry k x l j * entry k z l i)) by (intros; ring). field.
Qed.

Lemma entry_coord : forall k p i j, entry k p i j = coord (i * k + j) p.
Proof. reflexivity. Qed.

(** P (a y + b z) = a P y + b P z *)
Lemma stiefel_tan_lin : forall n k x y z a b i j, length y = (n * k)%nat -> length z = (n * k)%nat -> (i < n)%nat -> (j < k)%nat ->
  entry k (stiefel_tan n k x (vadd (vscal a y) (vscal b z))) i j = a * entry k (stiefel_tan n k x y) i j + b * entry k (stiefel_tan n k x z) i j.
Proof.
  intros n k x y z a b i j Ly Lz Hi Hj. rewrite !stiefel_tan_entry by auto.
  assert (E : forall i j, entry k (vadd (vscal a y) (vscal b z)) i j = a * entry k y i j + b * entry k z i j).
  { intros. rewrite !entry_coord, coord_vadd by (rewrite !length_vscal; congruence). rewrite !coord_vscal. auto. }
  rewrite E. assert (R : forall l, rsym n k x (vadd (vscal a y) (vscal b z)) l j = a * rsym n k x y l j + b * rsym n k x z l j).
  { intros l. unfold rsym.
    rewrite (msum_ext n (fun l0 => entry k (vadd (vscal a y) (vscal b z)) l0 l * entry k x l0 j) (fun l0 => a * (entry k y l0 l * entry k x l0 j) + b * (entry k z l0 l * entry k x l0 j))) by (intros; rewrite E; ring).
    rewrite (msum_ext n (fun l0 => entry k x l0 l * entry k (vadd (vscal a y) (vscal b z)) l0 j) (fun l0 => a * (entry k x l0 l * entry k y l0 j) + b * (entry k x l0 l * entry k z l0 j))) by (intros; rewrite E; ring).
    rewrite !msum_add, !msum_scal. ring. }
  rewrite (msum_ext k _ (fun l => a * (entry k x i l * rsym n k x y l j) + b * (entry k x i l * rsym n k x z l j))) by (intros; rewrite R; ring).
  rewrite msum_add, !msum_scal. ring.
Qed.

(** x_tilde, as a matrix *)
Lemma stiefel_tilde : forall n k svd dt sg x cp z, 0 <= dt -> length x = (n * k)%nat -> length cp = (n * k)%nat -> length z = (n * k)%nat -> exists q,
  x_tilde (StiefelD n k svd) NIso (Fin dt) (Fin sg) (floats x) (floats cp) (floats z) = floats q /\ length q = (n * k)%nat /\
  forall i j, (i < n)%nat -> (j < k)%nat -> entry k q i j =
    (1 - dt * sg ^ 2 / 2 * ((2 * INR n - INR k - 1) / 2) * sqnorm (vsub x cp)) * entry k x i j + dt * entry k (stiefel_tan n k x cp) i j + sg * sqrt dt * vnorm (vsub x cp) * entry k (stiefel_tan n k x z) i j.
Proof.
  intros n k svd dt sg x cp z Hdt Lx Lc Lz. set (d := (n * k)%nat) in *. set (u := vsub x cp). assert (Lu : length u = d) by (apply length_vsub; auto).
  assert (Lr : length (rnoise NIso dt u z) = d) by (apply length_rnoise; auto).
  assert (Lt : length (stiefel_tan n k x (vadd (vscal dt cp) (vscal sg (rnoise NIso dt u z)))) = d) by apply stiefel_tan_len.
  eexists. split; [|split].
  - unfold x_tilde. rewrite floats_sub, noise_floats, !floats_scal, floats_add by auto. fold u. rewrite stiefel_tan_fin by (auto; apply length_vadd; rewrite length_vscal; auto).
    cbn [surface_of h_nc]. unfold nc_iso. cbn [sdf_lap sdf_grad]. rewrite fnorm_floats. cbn [fmul kmul KOps_R]. rewrite fdiv_fin by lra. cbn [fmul kmul KOps_R]. rewrite floats_scal, floats_add, floats_sub. reflexivity.
  - apply length_vsub; [apply length_vadd; auto|rewrite length_vscal; auto].
  - intros i j Hi Hj. rewrite entry_coord, coord_vsub by (rewrite length_vscal, (length_vadd _ _ d); auto). rewrite coord_vadd by congruence. rewrite coord_vscal. rewrite <- !entry_coord.
    assert (Er : rnoise NIso dt u z = vscal (sqrt dt * vnorm u) z). { apply (coord_ext _ _ d); auto. rewrite length_vscal; auto. intros h Hh. rewrite (noise_coord _ _ _ _ _ d), coord_vscal by auto. ring. }
    rewrite Er. replace (vscal sg (vscal (sqrt dt * vnorm u) z)) with (vscal (sg * (sqrt dt * vnorm u)) z).
    2:{ apply (coord_ext _ _ d); rewrite ?length_vscal; auto. intros h Hh. rewrite !coord_vscal. ring. }
    rewrite (stiefel_tan_lin n k x cp z) by auto. rewrite <- vnorm_sq. field.
Qed.

Theorem stiefel_iso : forall n k svd sg x cp, stiefel n k x -> length x = (n * k)%nat -> length cp = (n * k)%nat -> exists C : mat,
  forall dt Om (A : average Om) xi, 0 <= dt -> white A (n * k) 1 xi -> exists q,
    (forall w, x_tilde (StiefelD n k svd) NIso (Fin dt) (Fin sg) (floats x) (floats cp) (floats (xi w)) = floats (q w)) /\
    forall i j, (i < k)%nat -> (j < k)%nat -> mean_is A (fun w => mmul n (mtr (entry k (q w))) (entry k (q w)) i j) (mid i j + dt ^ 2 * C i j).
Proof.
  intros n k svd sg x cp HX Lx Lc. set (L := (2 * INR n - INR k - 1) / 2). set (u := vsub x cp). set (W := stiefel_tan n k x cp).
  exists (fun i j => (sg ^ 2 / 2 * L * sqnorm u) ^ 2 * mid i j + msum n (fun l => entry k W l i * entry k W l j)). intros dt Om A xi Hdt HW. pose proof HW as (HL & _ & _).
  set (h := dt * sg ^ 2 / 2 * L * sqnorm u). set (t := sg * sqrt dt * vnorm u).
  assert (SD : sqrt dt * sqrt dt = dt) by (apply sqrt_def; auto).
  assert (HT : t * t = 2 * h / L \/ L = 0). { destruct (Req_dec L 0); auto. left. unfold t, h. rewrite <- vnorm_sq. transitivity (sg ^ 2 * (sqrt dt * sqrt dt) * vnorm u ^ 2); [ring|]. rewrite SD. field. auto. }
  assert (HTL : t * t * L = 2 * h). { destruct HT as [HT|HT]; [rewrite HT|unfold h; rewrite HT; ring]. destruct (Req_dec L 0) as [E|E]; [unfold h; rewrite E; unfold Rdiv; ring|field; auto]. }
  set (q0 := fun w => vsub (vadd x (stiefel_tan n k x (vadd (vscal dt cp) (vscal t (xi w))))) (vscal h x)).
  assert (EQ : forall w, exists q, x_tilde (StiefelD n k svd) NIso (Fin dt) (Fin sg) (floats x) (floats cp) (floats (xi w)) = floats q /\ length q = (n * k)%nat /\ forall i j, (i < n)%nat -> (j < k)%nat ->
    entry k q i j = (1 - h) * entry k x i j + dt * entry k W i j + t * entry k (stiefel_tan n k x (xi w)) i j).
  { intros w. apply (stiefel_tilde n k svd dt sg x cp (xi w)); auto. }
  assert (Lq : forall w, length (q0 w) = (n * k)%nat) by (intros w; apply length_vsub; [apply length_vadd; [auto|apply stiefel_tan_len]|rewrite length_vscal; auto]).
  assert (Eq0 : forall w i j, (i < n)%nat -> (j < k)%nat -> entry k (q0 w) i j = (1 - h) * entry k x i j + dt * entry k W i j + t * entry k (stiefel_tan n k x (xi w)) i j).
  { intros w i j Hi Hj. unfold q0. rewrite entry_coord, coord_vsub by (rewrite length_vscal, (length_vadd _ _ (n * k)); auto; apply stiefel_tan_len).
    rewrite coord_vadd by (rewrite stiefel_tan_len; auto). rewrite coord_vscal, <- !entry_coord. rewrite (stiefel_tan_lin n k x cp (xi w)) by auto. fold W. ring. }
  exists q0. split.
  - intros w. destruct (EQ w) as (q & E1 & E2 & E3). rewrite E1. f_equal. apply (coord_ext _ _ (n * k)); auto. intros r Hr.
    assert (Hk0 : (k <> 0)%nat) by (intros ->; lia). assert (A1 : (r / k < n)%nat) by (apply Nat.div_lt_upper_bound; nia). assert (A2 : (r mod k < k)%nat) by (apply Nat.mod_upper_bound; auto).
    replace r with (r / k * k + r mod k)%nat by (rewrite Nat.mul_comm; symmetry; apply Nat.div_mod; auto). rewrite <- !entry_coord, E3, Eq0 by auto. auto.
  - intros i j Hi Hj. set (P := PZ n k x xi).
    assert (ML : forall a b, (a < k)%nat -> (b < k)%nat -> mean_is A (fun w => msum n (fun l => entry k W l a * P w l b)) 0).
    { intros a b Ha Hb. eapply mean_eq; [apply (mean_msum _ A n (fun l w => entry k W l a * P w l b) (fun l => entry k W l a * 0)); intros l Hl; apply (avg_scal _ A); apply (PZ_mean A n k x xi HW l b Hl Hb)|reflexivity|].
      apply msum_zero. intros; ring. }
    eapply mean_eq.
    + apply (avg_add _ A). apply (avg_const _ A ((1 - h) ^ 2 * mid i j + dt ^ 2 * msum n (fun l => entry k W l i * entry k W l j))).
      apply (avg_add _ A). apply (avg_scal _ A (dt * t)). apply (ML i j Hi Hj). apply (avg_add _ A). apply (avg_scal _ A (dt * t)). apply (ML j i Hj Hi).
      apply (avg_scal _ A (t * t)). apply (PZ_gram A n k x xi HX HW i j Hi Hj).
    + intros w. cbn beta. unfold mmul, mtr. 
      pose proof (stiefel_skew n k x (xi w) i j HX Hi Hj) as S1. pose proof (stiefel_skew n k x cp i j HX Hi Hj) as S2. fold W in S2. fold (PZ n k x xi w) in S1. fold P in S1.
      pose proof (HX i j Hi Hj) as S0. unfold mmul, mtr in S0.
      rewrite (msum_ext n (fun l => entry k (q0 w) l i * entry k (q0 w) l j) (fun l => (1 - h) ^ 2 * (entry k x l i * entry k x l j) + (1 - h) * dt * (entry k x l i * entry k W l j + entry k W l i * entry k x l j)
         + (1 - h) * t * (entry k x l i * P w l j + P w l i * entry k x l j) + dt ^ 2 * (entry k W l i * entry k W l j) + dt * t * (entry k W l i * P w l j) + dt * t * (entry k W l j * P w l i) + t * t * (P w l i * P w l j))).
      2:{ intros l Hl. rewrite !Eq0 by auto. fold (PZ n k x xi w). fold P. ring. }
      rewrite !msum_add, !msum_scal, !msum_add. rewrite S0, S1, S2. change (PZ n k x xi) with P. ring.
    + cbn beta. fold L. replace (dt * t * 0 + (dt * t * 0 + t * t * (L * mid i j))) with (t * t * L * mid i j) by ring. rewrite HTL. unfold h. generalize L (sqnorm u) (mid i j). intros. field.
Qed.
