(** * Specification: evaluating an objective point by point *)
From Coq Require Import List Arith.
From Verif Require Import Scalar Np Nd.
Import ListNotations.

Section Spec.
  Context {A B : Type}.

  (** the last axis of x at the index i: the coordinates of one particle *)
  Definition point (x : nd A) (d : nat) (i : list nat) : list A := map (fun j => get x (i ++ [j])) (seq 0 d).

  (** number of entries of a shape *)
  Definition entries (s : list nat) : nat := fold_right Nat.mul 1 s.

  (** a '1D' objective: on vectors of length d it returns one number, in an array of fixed shape of size one *)
  Definition objective_1D (f : nd A -> res (nd B)) (d : nat) (g : list A -> B) : Prop :=
    exists rs, entries rs = 1 /\ forall v, shape v = [d] -> exists r, f v = Ok r /\ shape r = rs /\ forall i, length i = length rs -> (forall k, In k i -> k = 0) -> get r i = g (point v d []).

  (** a '2D' objective: on P vectors it returns P numbers, as a vector, a row or a column *)
  Definition objective_2D (f : nd A -> res (nd B)) (d : nat) (g : list A -> B) : Prop :=
    forall P v, shape v = [P; d] -> exists r, f v = Ok r /\
      ((shape r = [P] /\ forall p, p < P -> get r [p] = g (point v d [p])) \/
       (shape r = [P; 1] /\ forall p, p < P -> get r [p; 0] = g (point v d [p])) \/
       (shape r = [1; P] /\ forall p, p < P -> get r [0; p] = g (point v d [p]))).

  (** a '3D' objective: on an ensemble it returns one number per particle *)
  Definition objective_3D (f : nd A -> res (nd B)) (d : nat) (g : list A -> B) : Prop :=
    forall M N v, shape v = [M; N; d] -> exists r, f v = Ok r /\ shape r = [M; N] /\ forall m n, m < M -> n < N -> get r [m; n] = g (point v d [m; n]).

  (** the value at an (M,N,d) ensemble is pointwise g *)
  Definition pointwise (fk : nd A -> res (nd B)) (g : list A -> B) (x : nd A) (M N d : nat) : Prop :=
    exists y, fk x = Ok y /\ shape y = [M; N] /\ forall m n, m < M -> n < N -> get y [m; n] = g (point x d [m; n]).
End Spec.
