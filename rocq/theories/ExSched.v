(** * Concrete states for the scheduler theorems *)
From Coq Require Import List Arith Reals.
From Verif Require Import Scalar Np State Pdyn ExR.
Import ListNotations.
Open Scope R_scope.

Definition rst0 : st R rvec :=
  match rinit 2 (fun v => v) [] with Ok s => s | Err _ => mkst 0 0 [] None [] None None [] NaN NaN NaN NaN 0 [] [] [] [] [] [] [] 0 [] [] IAll IAll [] None [] [] 0 1 end.
Definition sst (a : R) : st R rvec := set_alpha [[Fin a]; [Fin a]] rst0.
Definition sst1 (a : R) : st R rvec :=
  mkst 1 2 [[[Fin 0]; [Fin 1]]] None [[Fin 0; Fin 1]] None None [[Fin a]] (Fin 1) (Fin 1) (Fin 1) (Fin 0) 0 [] [] [] [] [] [] [] 0 [0%nat] [] IAll IAll [] None [] [] 0 1.
