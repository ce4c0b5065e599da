(** * Specification: time as a sum with rounding *)
From Coq Require Import Arith Reals.
From Verif Require Import Scalar State.
Open Scope R_scope.

(** arithmetic of reals with a rounding after each operation; negation, comparison and conversion are exact *)
Definition KOps_rounded (rnd : R -> R) : KOps R :=
  {| k0 := 0; k1 := 1; kadd := fun x y => rnd (x + y); ksub := fun x y => rnd (x - y); kmul := fun x y => rnd (x * y); kdiv := fun x y => rnd (x / y);
     kopp := Ropp; kltb := Rltb; kofnat := INR |}.
(** t after n additions of d *)
Fixpoint ticks {K} {O : KOps K} (t d : K) (n : nat) : K := match n with 0%nat => t | S n => kadd (ticks t d n) d end.
Definition leaves_dt {K V} (sched : st K V -> Np.res (st K V)) : Prop := forall s s', sched s = Np.Ok s' -> s_dt s' = s_dt s.
