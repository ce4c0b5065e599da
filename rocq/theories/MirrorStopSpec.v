(** * Specification: what MirrorCBO may do later *)
From Coq Require Import List Arith Bool Reals.
From Verif Require Import Scalar Np State Pdyn Exec RVec ConsSpec Cbo CboSpec MemSpec Variant.
Import ListNotations.

(** [later_v inner c d p p']: steps with finite draws and termination checks in any order; some runs may have stopped *)
Inductive later_v {E} (inner : cfg R vec -> orc vec -> st R vec -> E -> res (st R vec * E)) (c : cfg R vec) (d : nat) (p : st R vec * E) : st R vec * E -> Prop :=
| lv_start : later_v inner c d p p
| lv_step : forall s e o s' e', later_v inner c d p (s, e) -> s_active s <> [] -> perms_valid o s -> finite_draws d o ->
    vstep inner c o (s, e) = Ok (s', e') -> later_v inner c d p (s', e')
| lv_term : forall s e b s', later_v inner c d p (s, e) -> terminate c s = Ok (b, s') -> later_v inner c d p (s', e).

(** the dual points of run m are finite *)
Definition finite_dual (d : nat) (y : arr vec) (m : nat) : Prop := exists Y, nth_error y m = Some (map floats Y) /\ forall q, In q Y -> length q = d.
