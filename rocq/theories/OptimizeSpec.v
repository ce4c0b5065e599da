(** * Specification: alpha over whole runs *)
From Coq Require Import List Arith Bool Reals.
From Verif Require Import Scalar Np State Pdyn Exec TermSpec Optimize.
Import ListNotations.
Open Scope R_scope.

Section OptimizeSpec.
  Context {V : Type}.
  Notation st := (st R V).

  (** after [n] steps of the default schedule, never above 1e5 once the schedule has acted *)
  Definition scheduled (n : nat) (a : R) : R := match n with O => a | S _ => Rmin 100000 ((21 / 20) ^ n * a) end.
  Definition alphas (s : st) (l : list R) : Prop := concat (s_alpha s) = map Fin l.

  (** a documented schedule, or an object whose update only changes alpha, sigma, lamda and dt *)
  Definition standard (a : sched_arg V) : Prop := match a with SNone | SDefault | SEffective => True | SUpdate u _ => param_sched u | SOther => False end.
  (** one alpha of the run, at least [low] and at most 1e5 *)
  Definition ess_row (low : R) (r : list (fl R)) : Prop := exists a, r = [Fin a] /\ low <= a <= 100000.

  (** a user calling optimize (default schedule, any print_int) and reset in any order on one dynamic; [n]: steps altogether *)
  Inductive calls (c : cfg R V) : nat -> st -> st -> Prop :=
  | ca_none : forall s, calls c 0 s s
  | ca_opt : forall n s s1 pi os fuel bp s2, calls c n s s1 -> optimize c (step c) true pi SDefault os fuel s1 = Some (Ok (bp, s2)) -> calls c (n + (s_it s2 - s_it s1)) s s2
  | ca_reset : forall n s s1, calls c n s s1 -> calls c n s (reset s1).
End OptimizeSpec.
