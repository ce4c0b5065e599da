(** * What a step should do to particles of any shape

    A particle of shape (d1, ..., dq) is a vector of d1*...*dq numbers written in another way.  The functions below
    read the flattened particles out of an ensemble and describe the step on them with the operations on lists of
    numbers only. *)
From Coq Require Import List Arith Bool Reals.
From Verif Require Import Scalar Np RVec Consensus Nd Cbo Polar NdPart.
Import ListNotations.
Open Scope nat_scope.

(** particle [n] of run [m], flattened; all particles of a run; a row of a matrix *)
Definition point (x : nd (fl R)) (m n : nat) : vec := map (fun ix => get x (m :: n :: ix)) (indices (skipn 2 (shape x))).
Definition points (x : nd (fl R)) (m : nat) : list vec := map (point x m) (seq 0 (nth 1 (shape x) 0)).
Definition row (e : nd (fl R)) (m : nat) : list (fl R) := map (fun n => get e [m; n]) (seq 0 (nth 1 (shape e) 0)).

(** the move of one flattened particle towards [c] *)
Definition moved (k : noise_model) (lamda dt sigma : fl R) (p c z : vec) : vec :=
  let drift := map2 fsub p c in
  map2 fadd p (map2 fadd (map (fmul (fmul (fopp lamda) dt)) drift) (map (fmul sigma) (noise_of k dt drift z))).

(** minus the logarithm of the Gaussian kernel of two flattened particles *)
Definition gauss_nl (kappa : fl R) (p q : vec) : fl R :=
  fmul (finv (fmul (Fin 2%R) (fmul kappa kappa))) (fsum (map (fun a => fmul a a) (map2 fsub p q))).

(** position of an index tuple in memory (C order) *)
Definition size (dims : list nat) : nat := fold_right Nat.mul 1 dims.
Fixpoint rank (dims ix : list nat) : nat :=
  match dims, ix with n :: r, i :: ix => i * size r + rank r ix | _, _ => 0 end.
