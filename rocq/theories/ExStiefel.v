(** * White noise on the 2 x 2 matrices and a rotation: example *)
From Coq Require Import List Arith Bool Reals Lia Lra.
From Verif Require Import Scalar Np RVec ConsSpec MatSqrt MatSpec MirrorSpec MomentSpec MomentFacts ExMoment ExMs.
Import ListNotations.
Open Scope R_scope.

(** three fair signs and their product *)
Definition xi4 (w : wO) : list R := let a := sgn (fst (fst w)) in let b := sgn (snd (fst w)) in let c := sgn (snd w) in [a; b; c; a * b * c].
Lemma xi4_white : white walsh (2 * 2) 1 xi4.
Proof.
  split; [reflexivity|]. split.
  - intros i Hi. destruct i as [|[|[|[|i]]]]; [| | | |lia]; cbn; unfold uniform_mean; cbn; lra.
  - intros i j Hi Hj. destruct i as [|[|[|[|i]]]]; [| | | |lia]; (destruct j as [|[|[|[|j]]]]; [| | | |lia]); cbn; unfold uniform_mean; cbn; lra.
Qed.
Lemma rotation_stiefel : stiefel 2 2 [3/5; -4/5; 4/5; 3/5].
Proof. intros i j Hi Hj. destruct i as [|[|i]]; [| |lia]; (destruct j as [|[|j]]; [| |lia]); unfold mmul, mtr, msum, entry, mid; cbn; lra. Qed.
