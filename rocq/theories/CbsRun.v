(** * Runs with covariance noise: the affine hull, moved runs, uniqueness of the matrix square root *)
From Coq Require Import String List Arith Bool Reals Lia Lra.
From Verif Require Import Scalar Np NpFacts PolarFacts RVec RVecFacts Consensus ConsSpec ConsFacts Cbo CboSpec CboFacts Nd MatSqrt MatSpec MatFacts CovNoise CovFacts CovCbo CovCboSpec CovCboFacts MomentSpec MomentFacts CovMoment PostProc Cbs CbsFacts CbsRunSpec.
Import ListNotations.
Open Scope R_scope.

(** ** Matrices *)
Lemma msum_sq_zero : forall d g, msum d (fun i => g i * g i) = 0 -> forall i, (i < d)%nat -> g i = 0.
Proof.
  induction d; intros g H i Hi; [lia|]. rewrite msum_S in H. assert (0 <= msum d (fun i => g i * g i)) by (apply msum_nonneg; intros; nra).
  assert (g d * g d = 0) by nra. destruct (Nat.eq_dec i d) as [-> | Hd]. nra. apply (IHd g); [nra|lia].
Qed.
Lemma msum_nonneg_zero : forall d g, (forall i, (i < d)%nat -> 0 <= g i) -> msum d g = 0 -> forall i, (i < d)%nat -> g i = 0.
Proof.
  induction d; intros g P H i Hi; [lia|]. rewrite msum_S in H. assert (0 <= msum d g) by (apply msum_nonneg; intros; apply P; lia). assert (0 <= g d) by (apply P; lia).
  destruct (Nat.eq_dec i d) as [-> | Hd]. lra. apply (IHd g); [intros; apply P; lia|lra|lia].
Qed.
Lemma mmul_assoc : forall d A B C i j, mmul d (mmul d A B) C i j = mmul d A (mmul d B C) i j.
Proof.
  intros. unfold mmul. rewrite (msum_ext d _ (fun k => msum d (fun p => A i p * B p k * C k j))) by (intros; rewrite <- msum_scal_r; auto).
  rewrite msum_swap. apply msum_ext. intros p _. rewrite <- msum_scal. apply msum_ext. intros. ring.
Qed.
(** S symmetric, S*S = C: u^T C u = |S u|^2 *)
Lemma root_quad : forall d S C, msym d S -> meq d (mmul d S S) C -> forall u, mquad d C u = msum d (fun q => msum d (fun i => u i * S i q) * msum d (fun i => u i * S i q)).
Proof.
  intros d S C HS HC u. unfold mquad.
  rewrite (msum_ext d _ (fun i => msum d (fun q => u i * S i q * msum d (fun j => u j * S j q)))).
  - rewrite msum_swap. apply msum_ext. intros q _. rewrite msum_scal_r. auto.
  - intros i Hi. rewrite (msum_ext d _ (fun j => msum d (fun q => u i * S i q * (u j * S j q)))).
    + rewrite msum_swap. apply msum_ext. intros q _. rewrite msum_scal. auto.
    + intros j Hj. rewrite <- HC by auto. unfold mmul. rewrite <- msum_scal, <- msum_scal_r. apply msum_ext. intros q Hq. rewrite (HS q j) by auto. ring.
Qed.
Lemma root_kills : forall d S C u, msym d S -> meq d (mmul d S S) C -> mquad d C u = 0 -> forall q, (q < d)%nat -> msum d (fun i => u i * S i q) = 0.
Proof. intros d S C u HS HC H. apply msum_sq_zero. rewrite <- (root_quad d S C HS HC u). auto. Qed.

(** a matrix has at most one positive semidefinite square root *)
Theorem root_unique : forall d S T, mpsd d S -> mpsd d T -> meq d (mmul d S S) (mmul d T T) -> meq d S T.
Proof.
  intros d S T [SS PS] [ST PT] E. set (D := fun i j => S i j - T i j).
  assert (SD : msym d D) by (intros i j Hi Hj; unfold D; rewrite (SS i j), (ST i j); auto).
  (* for every column c of D: c^T S c + c^T T c sums to zero over the columns *)
  set (col := fun k i => D i k).
  assert (Q : forall M k, mquad d M (col k) = mmul d D (mmul d M D) k k \/ ~ (k < d)%nat).
  { intros M k. destruct (Nat.lt_ge_cases k d); [left|right; lia]. unfold mquad, mmul, col. apply msum_ext. intros i Hi. rewrite <- msum_scal. apply msum_ext. intros j Hj. rewrite (SD i k) by auto. ring. }
  assert (Z : msum d (fun k => mquad d S (col k) + mquad d T (col k)) = 0).
  { rewrite (msum_ext d _ (fun k => mmul d D (mmul d S D) k k + mmul d D (mmul d T D) k k)).
    2:{ intros k Hk. destruct (Q S k) as [-> | Hn]; [|tauto]. destruct (Q T k) as [-> | Hn]; [|tauto]. auto. }
    rewrite msum_add.
    (* tr (D T D) = tr (D D T) *)
    assert (TR : msum d (fun k => mmul d D (mmul d T D) k k) = msum d (fun k => mmul d D (mmul d D T) k k)).
    { unfold mmul. rewrite (msum_ext d (fun k => msum d (fun p => D k p * msum d (fun q => T p q * D q k))) (fun k => msum d (fun p => msum d (fun q => D k p * (T p q * D q k))))) by (intros; apply msum_ext; intros; rewrite msum_scal; auto).
      rewrite (msum_ext d (fun k => msum d (fun p => D k p * msum d (fun q => D p q * T q k))) (fun k => msum d (fun p => msum d (fun q => D k p * (D p q * T q k))))) by (intros; apply msum_ext; intros; rewrite msum_scal; auto).
      (* left: k p q, right: k -> q', rename *)
      rewrite (msum_ext d (fun k => msum d (fun p => msum d (fun q => D k p * (T p q * D q k)))) (fun k => msum d (fun q => msum d (fun p => D q k * (D k p * T p q))))).
      2:{ intros k Hk. rewrite msum_swap. apply msum_ext. intros q Hq. apply msum_ext. intros p Hp. ring. }
      rewrite msum_swap. reflexivity. }
    rewrite TR, <- msum_add. apply msum_zero. intros k Hk. unfold mmul at 1 3. rewrite <- msum_add. apply msum_zero. intros p Hp.
    replace (D k p * mmul d S D p k + D k p * mmul d D T p k) with (D k p * (mmul d S D p k + mmul d D T p k)) by ring.
    replace (mmul d S D p k + mmul d D T p k) with 0; [ring|]. unfold mmul. rewrite <- msum_add.
    rewrite (msum_ext d _ (fun q => S p q * S q k + -1 * (T p q * T q k))) by (intros; unfold D; ring). rewrite msum_add, msum_scal.
    specialize (E p k Hp Hk). unfold mmul in E. rewrite E. ring. }
  assert (Z1 : forall k, (k < d)%nat -> mquad d S (col k) = 0 /\ mquad d T (col k) = 0).
  { intros k Hk. assert (H := msum_nonneg_zero d (fun k => mquad d S (col k) + mquad d T (col k))). cbv beta in H. specialize (PS (col k)) as P1. specialize (PT (col k)) as P2.
    enough (mquad d S (col k) + mquad d T (col k) = 0) by lra. apply H; auto. intros i _. specialize (PS (col i)). specialize (PT (col i)). lra. }
  (* c^T D c = 0 for every column, hence for a psd matrix S c = 0: |S c| from the semi inner product *)
  assert (CS : forall M, msym d M -> (forall v, 0 <= mquad d M v) -> forall v, mquad d M v = 0 -> forall i, (i < d)%nat -> msum d (fun j => M i j * v j) = 0).
  { intros M HM PM v Hv i Hi. set (g := msum d (fun j => M i j * v j)).
    assert (EX : forall t, mquad d M (fun j => v j + t * mid i j) = 2 * t * g + t * t * M i i).
    { intros t. assert (E1 : mquad d M (fun j => v j + t * mid i j) = mquad d M v + t * msum d (fun a => msum d (fun b => v a * M a b * mid i b)) + t * msum d (fun a => msum d (fun b => mid i a * M a b * v b)) + t * t * msum d (fun a => msum d (fun b => mid i a * M a b * mid i b))).
      { unfold mquad. rewrite <- !msum_scal, <- !msum_add. apply msum_ext. intros a _. rewrite <- !msum_scal, <- !msum_add. apply msum_ext. intros b _. ring. }
      rewrite E1, Hv.
      assert (E2 : msum d (fun a => msum d (fun b => v a * M a b * mid i b)) = g).
      { unfold g. apply msum_ext. intros a Ha. rewrite (msum_ext d _ (fun b => if Nat.eqb i b then v a * M a b else 0)) by (intros; unfold mid; destruct (Nat.eqb i _); ring). rewrite msum_delta by auto. rewrite (HM a i) by auto. ring. }
      assert (E3 : msum d (fun a => msum d (fun b => mid i a * M a b * v b)) = g).
      { unfold g. rewrite (msum_ext d _ (fun a => if Nat.eqb i a then msum d (fun b => M a b * v b) else 0)). rewrite msum_delta; auto.
        intros a Ha. unfold mid. destruct (Nat.eqb i a). apply msum_ext; intros; ring. apply msum_zero; intros; ring. }
      assert (E4 : msum d (fun a => msum d (fun b => mid i a * M a b * mid i b)) = M i i).
      { rewrite (msum_ext d _ (fun a => if Nat.eqb i a then msum d (fun b => if Nat.eqb i b then M a b else 0) else 0)). rewrite msum_delta by auto. apply msum_delta; auto.
        intros a Ha. unfold mid. destruct (Nat.eqb i a). apply msum_ext; intros b Hb; destruct (Nat.eqb i b); ring. apply msum_zero; intros; ring. }
      rewrite E2, E3, E4. ring. }
    assert (P : forall t, 0 <= 2 * t * g + t * t * M i i) by (intros t; rewrite <- EX; apply PM).
    assert (0 <= M i i) by (pose proof (P 1); pose proof (P (-1)); lra).
    (* t = - g / (M i i + 1) *)
    pose proof (P (- g * / (M i i + 1))) as P1. set (r := / (M i i + 1)) in *. assert (R1 : r * (M i i + 1) = 1) by (unfold r; field; lra). assert (0 < r) by (apply Rinv_0_lt_compat; lra).
    assert (2 * (- g * r) * g + - g * r * (- g * r) * M i i = g * g * r * (r * (M i i + 1) - r - 2)) by ring. rewrite R1 in H1.
    destruct (Req_dec g 0) as [|Hg]; auto. exfalso. assert (0 < g * g) by nra. assert (0 < g * g * r) by (apply Rmult_lt_0_compat; auto). nra. }
  assert (D3 : forall i k, (i < d)%nat -> (k < d)%nat -> mmul d D D i k = 0).
  { intros i k Hi Hk. unfold mmul. destruct (Z1 k Hk) as [A1 A2]. pose proof (CS S SS PS (col k) A1 i Hi) as B1. pose proof (CS T ST PT (col k) A2 i Hi) as B2. unfold col in B1, B2.
    rewrite (msum_ext d _ (fun j => S i j * D j k + -1 * (T i j * D j k))) by (intros; unfold D at 1; ring). rewrite msum_add, msum_scal, B1, B2. ring. }
  intros i k Hi Hk. assert (D i k = 0). { apply (msum_sq_zero d (fun k => D i k)); auto. rewrite <- (D3 i i Hi Hi). unfold mmul. apply msum_ext. intros j Hj. rewrite (SD j i) by auto. auto. }
  unfold D in H. lra.
Qed.
