(** * Specification: readings of the printed lines *)
From Coq Require Import List Arith Bool Reals.
From Verif Require Import Scalar Np State Pdyn Exec Optimize OptimizeSpec Printing.
Import ListNotations.
Open Scope nat_scope.
Open Scope list_scope.

(** the times printed, in order *)
Definition times (l : list line) : list (fl R) := flat_map (fun x => match x with LTime t _ => [t] | _ => [] end) l.
(** the energies printed for run [m] in the progress lines *)
Definition shown_energy (l : list line) (m : nat) (e : fl R) : Prop := exists t f, In (LTime t f) l /\ nth_error f m = Some e.
(** a schedule that leaves dt alone: the documented ones *)
Definition documented {V} (a : sched_arg V) : Prop := match a with SNone | SDefault | SEffective => True | _ => False end.
(** a is the least of the values *)
Definition least (a : fl R) (vals : fl R -> Prop) : Prop := vals a /\ forall v, vals v -> fleb a v = true.
