(** * Examples for initial particles *)
From Coq Require Import List String Arith Reals Lra Lia ZArith.
From Verif Require Import Scalar Np Nd RVec RVecFacts MatSqrt MatSpec MatFacts MomentSpec MomentFacts ExMoment ParticleInit ParticleInitSpec.
Import ListNotations.
Open Scope R_scope.

(** the decomposition of a multiple of the identity *)
Definition id_svd : svd_fun := fun d A => (eye, fun k => A k k, eye).
Lemma eye_ortho : forall d, meq d (mmul d eye (mtr eye)) mid.
Proof.
  intros d i j Hi Hj. unfold mmul, mtr, eye, mid. rewrite (msum_ext d _ (fun k => if Nat.eqb i k then if Nat.eqb j k then 1 else 0 else 0)).
  - rewrite (msum_delta d i (fun k => if Nat.eqb j k then 1 else 0)) by auto. rewrite Nat.eqb_sym. reflexivity.
  - intros k _. destruct (i =? k)%nat, (j =? k)%nat; ring.
Qed.
Lemma eye_ortho' : forall d, meq d (mmul d (mtr eye) eye) mid.
Proof. intros d i j Hi Hj. rewrite <- (eye_ortho d i j Hi Hj). unfold mmul, mtr, eye. apply msum_ext. intros k _. rewrite (Nat.eqb_sym k i), (Nat.eqb_sym k j). reflexivity. Qed.
Lemma id_svd_ok : forall delta, svd_ok id_svd delta.
Proof.
  intros delta d. unfold id_svd, is_svd. split; [apply eye_ortho'|]. split; [apply eye_ortho|]. split; [apply eye_ortho'|]. split.
  - intros k Hk. unfold eye. rewrite Nat.eqb_refl. nra.
  - intros i j Hi Hj. unfold eye. rewrite (msum_ext d _ (fun k => if Nat.eqb i k then delta ^ 2 * mid k j else 0)).
    + apply (msum_delta d i (fun k => delta ^ 2 * mid k j)); auto.
    + intros k _. unfold mid. rewrite Nat.eqb_refl. destruct (i =? k)%nat; ring.
Qed.

(** two equally likely values with the moments of the uniform distribution *)
Definition two_values (w : bool) (_ : list nat) : R := / 2 + (if w then 1 else -1) * / (2 * sqrt 3).
Lemma two_flat : flat fair two_values /\ forall w, in_unit (two_values w).
Proof.
  assert (S3 : sqrt 3 * sqrt 3 = 3) by (apply sqrt_sqrt; lra). assert (P : 1 < sqrt 3) by (rewrite <- sqrt_1; apply sqrt_lt_1; lra).
  assert (Q : (/ (2 * sqrt 3)) ^ 2 = / 12) by (rewrite pow_inv; f_equal; nra).
  assert (B : 0 < / (2 * sqrt 3) < / 2). { split; [apply Rinv_0_lt_compat; lra|]. apply Rinv_lt_contravar; lra. }
  split.
  - intros i. unfold two_values. cbn. unfold uniform_mean. cbn. cbn in Q. split; [lra|]. nra.
  - intros w i. unfold two_values. destruct w; lra.
Qed.
(** signs for one run of one particle with two coordinates *)
Definition sign_draws (w : bool * bool) (i : list nat) : R := match i with [_; _; 0%nat] => if fst w then 1 else -1 | _ => if snd w then 1 else -1 end.
Lemma signs_standard : standard sign_avg [1; 1; 2]%nat sign_draws.
Proof.
  intros i k Hi Hk.
  assert (X : forall i, inside i [1; 1; 2]%nat -> i = [0; 0; 0]%nat \/ i = [0; 0; 1]%nat).
  { intros q Hq. destruct q as [|a [|b [|c [|]]]]; cbn in Hq; try tauto. destruct Hq as (A & B & C & _). destruct a; [|lia]. destruct b; [|lia]. destruct c as [|[|]]; [auto|auto|lia]. }
  destruct (X i Hi) as [-> | ->]; destruct (X k Hk) as [-> | ->]; cbn; unfold uniform_mean; cbn; split; lra.
Qed.
