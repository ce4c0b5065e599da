(** * Particles of any shape: a concrete ensemble *)
From Coq Require Import List Arith Bool Reals Lia.
From Verif Require Import Scalar Np RVec Consensus Nd Cbo Polar NdPart NdPartSpec NdPartFacts NdPartFacts2.
Import ListNotations.
Open Scope nat_scope.

(** the shape of tests/dynamics/test_abstraction.py:48-57 with fewer runs: two runs of three particles of shape (2,3,1);
    every entry encodes its own index *)
Definition tx : nd (fl R) := mknd [2; 3; 2; 3; 1] (fun i => Fin (INR (fold_left (fun a b => 10 * a + b) i 0))).
Definition te : nd (fl R) := mknd [2; 3] (fun i => match i with [m; n] => Fin (INR (m + n)) | _ => NaN end).
Definition ta : nd (fl R) := mknd [2; 1] (fun _ => Fin 1%R).
Definition ta3 : nd (fl R) := mknd [2; 1; 1] (fun _ => Fin 1%R).

Lemma ex_point : point tx 1 2 = map (fun n => Fin (INR n)) [12000; 12010; 12020; 12100; 12110; 12120].
Proof. reflexivity. Qed.
Lemma ex_points : length (points tx 0) = 3 /\ row te 1 = map (fun n => Fin (INR n)) [1; 2; 3] /\ rank [2; 3; 1] [1; 2; 0] = 5.
Proof. repeat split. Qed.
Lemma ex_hyps : shape te = [2; 3] /\ shape tx = 2 :: 3 :: [2; 3; 1] /\ shape ta = [2; 1] /\ shape ta3 = [2; 1; 1] /\ 1 < 2 /\ 2 < 3.
Proof. repeat split; auto. Qed.

Lemma ex_diff_tol : exists u, nd_update_diff 3 tx tx = Ok u /\ shape u = [2; 3; 2] /\ forall tol, nd_diff_tol 2 tol u = Err ShapeError.
Proof.
  destruct (update_diff_nd 2 3 [2] 3 1 tx tx eq_refl eq_refl) as (u & E & S). exists u. split; [exact E|]. split; [exact S|].
  intros tol. apply (diff_tol_nd 2 3 [2] tol u); auto.
Qed.
Lemma ex_polar : (exists x', nd_polar_step NIso KGauss (Fin 1%R) (Fin 1%R) (Fin 1%R) (Fin 1%R) te tx ta3 ta3 tx = Ok x') /\
  (exists e, nd_polar_step NIso KLaplace (Fin 1%R) (Fin 1%R) (Fin 1%R) (Fin 1%R) te tx ta3 ta3 tx = Err e).
Proof.
  split.
  - destruct (polar_step_flat 2 3 [2; 3; 1] NIso (Fin 1%R) (Fin 1%R) (Fin 1%R) (Fin 1%R) te tx ta3 ta3 tx) as (x' & E & _); auto. exists x'; auto.
  - apply polar_other_raises; [discriminate|cbn; lia].
Qed.
Lemma ex_objective : nd_num_eval (shape tx) = 36 /\ promoted_shape (shape tx) = [12; 3] /\
  dims_accepted (shape tx) (promoted_shape (shape tx)) = false.
Proof. repeat split. Qed.
