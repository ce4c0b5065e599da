(** * Specification: global minima *)
From Coq Require Import List Reals.
From Verif Require Import Scalar Np.
Import ListNotations.
Open Scope R_scope.

(** v is the value at p and no point (of any dimension the function accepts) has a smaller one *)
Definition global_min (f : list R -> res R) (p : list R) (v : R) : Prop := f p = Ok v /\ forall q w, f q = Ok w -> v <= w.
(** the same among the points of dimension d *)
Definition global_min_dim (d : nat) (f : list R -> res R) (p : list R) (v : R) : Prop :=
  length p = d /\ f p = Ok v /\ forall q w, length q = d -> f q = Ok w -> v <= w.
(** p is the only point of its dimension with that value *)
Definition only_point (f : list R -> res R) (p : list R) (v : R) : Prop := forall q, length q = length p -> f q = Ok v -> q = p.
Definition unbounded_below (f : list R -> res R) : Prop := forall B, exists p w, length p = 2%nat /\ f p = Ok w /\ w < B.
(** every point of dimension d has a value *)
Definition defined_on (d : nat) (f : list R -> res R) : Prop := forall q, length q = d -> exists w, f q = Ok w.
(** a vector, or a single number used for all d coordinates *)
Definition expand (d : nat) (m : list R) : list R := match m with [b] => repeat b d | _ => m end.
