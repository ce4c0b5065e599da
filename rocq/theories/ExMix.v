(** * Examples for mixtures: diagonal covariances *)
From Coq Require Import List Arith Bool Reals Lra Lia.
From Verif Require Import Scalar Np RVec MatSqrt MatSpec MatFacts Mixture MixSpec MixFacts.
Import ListNotations.
Open Scope R_scope.

Definition diag (l : list R) : mat := fun i j => if (i =? j)%nat then nth i l 0 else 0.
Definition diag_eigh (d : nat) (C : mat) : (nat -> R) * mat := (fun k => C k k, mid).
Lemma mid_ortho : forall d, meq d (mmul d (mtr mid) mid) mid /\ meq d (mmul d mid (mtr mid)) mid.
Proof.
  intros d. split; intros i j Hi Hj; unfold mmul, mtr, mid; rewrite (msum_ext d _ (fun k => if Nat.eqb i k then if Nat.eqb k j then 1 else 0 else 0)); try (apply (msum_delta d i (fun k => if Nat.eqb k j then 1 else 0)); auto);
    intros k _; rewrite ?(Nat.eqb_sym k i), ?(Nat.eqb_sym j k); destruct (i =? k)%nat, (k =? j)%nat; ring.
Qed.
Lemma diag_ok : forall d l, eigh_ok diag_eigh d (diag l).
Proof.
  intros d l. unfold eigh_ok, diag_eigh, eigen. cbn [fst snd]. split; [apply mid_ortho|]. split; [apply mid_ortho|].
  intros i j Hi Hj. unfold mmul at 1. rewrite (msum_ext d _ (fun k => if Nat.eqb i k then mmul d (fun i j => if (i =? j)%nat then diag l i i else 0) (mtr mid) k j else 0)).
  - rewrite (msum_delta d i (fun k => _)) by auto. unfold mmul. rewrite (msum_ext d _ (fun k => if Nat.eqb i k then (if Nat.eqb j k then diag l i i else 0) else 0)).
    + rewrite (msum_delta d i (fun k => _)) by auto. unfold diag. rewrite Nat.eqb_refl, (Nat.eqb_sym j i). reflexivity.
    + intros k _. unfold mtr, mid. destruct (i =? k)%nat, (j =? k)%nat; ring.
  - intros k _. unfold mid at 1. destruct (i =? k)%nat; ring.
Qed.
Lemma diag_inverse : forall d l k, length l = d -> length k = d -> (forall i, (i < d)%nat -> nth i k 0 * nth i l 0 = 1) -> inverse_of d (diag l) (diag k).
Proof.
  intros d l k _ _ H i j Hi Hj. unfold mmul, diag, mid. rewrite (msum_ext d _ (fun p => if Nat.eqb i p then (if Nat.eqb p j then nth i k 0 * nth p l 0 else 0) else 0)).
  - rewrite (msum_delta d i (fun p => _)) by auto. rewrite H by auto. reflexivity.
  - intros p _. destruct (i =? p)%nat, (p =? j)%nat; ring.
Qed.

(** two components in the plane *)
Definition mm_means : list (list R) := [[0; 0]; [3; 1]].
Definition mm_covs : list mat := [diag [1; 1]; diag [2; / 2]].
Lemma mm_ex : (forall m C, In (m, C) (combine mm_means mm_covs) -> eigh_ok diag_eigh (length m) C) /\ (exists gs, mm_init diag_eigh mm_means mm_covs = Ok gs) /\
  (forall i m C P D, nth_error mm_means i = Some m -> nth_error mm_covs i = Some C -> nth_error [diag [1; 1]; diag [/ 2; 2]] i = Some P -> nth_error [1; 1] i = Some D ->
     eigh_ok diag_eigh (length m) C /\ inverse_of (length m) C P /\ det_is diag_eigh (length m) C D).
Proof.
  split; [|split].
  - intros m C [H|[H|[]]]; inversion H; subst; apply diag_ok.
  - unfold mm_init, mm_means, mm_covs, mvn_freeze, diag_eigh. cbn [length seq forallb]. unfold diag. cbn [Nat.eqb nth].
    assert (E1 : Rltb 0 1 = true) by (apply Rltb_true; lra). assert (E2 : Rltb 0 2 = true) by (apply Rltb_true; lra). assert (E3 : Rltb 0 (/ 2) = true) by (apply Rltb_true; lra).
    rewrite E1, E2, E3. cbn [andb bind]. eexists. reflexivity.
  - intros i m C P D H1 H2 H3 H4. destruct i as [|[|i]]; [| |destruct i; discriminate]; cbn in H1, H2, H3, H4; inversion H1; inversion H2; inversion H3; inversion H4; subst; clear H1 H2 H3 H4; (split; [apply diag_ok|]); split.
    + apply diag_inverse; auto. intros [|[|i]] Hi; cbn in *; [lra|lra|lia].
    + unfold det_is, diag_eigh, diag. cbn. ring.
    + apply diag_inverse; auto. intros [|[|i]] Hi; cbn in *; [lra|lra|lia].
    + unfold det_is, diag_eigh, diag. cbn. field.
Qed.
