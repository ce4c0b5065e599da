(** * Specification: runs of the constrained variants *)
From Coq Require Import List Arith Bool Reals.
From Verif Require Import Scalar Np State Pdyn Exec RVec ConsSpec MatSqrt Constraints Cbo CboSpec MemSpec Variant.
Import ListNotations.
Open Scope R_scope.

(** [travels inner c d p j p']: j steps with finite draws while all runs are active; in between there may be termination checks *)
Inductive travels {E} (inner : cfg R vec -> orc vec -> st R vec -> E -> res (st R vec * E)) (c : cfg R vec) (d : nat) (p : st R vec * E) : nat -> st R vec * E -> Prop :=
| tr_start : travels inner c d p 0 p
| tr_step : forall j s e o s' e', travels inner c d p j (s, e) -> s_active s <> [] -> length (s_active s) = s_M s -> perms_valid o s -> finite_draws d o ->
    vstep inner c o (s, e) = Ok (s', e') -> travels inner c d p (S j) (s', e')
| tr_term : forall j s e b s', travels inner c d p j (s, e) -> terminate c s = Ok (b, s') -> travels inner c d p j (s', e).

(** on finite points of dimension d, g is the MultiConstraint of the constraints ks: its gradient, and its linear system unless numpy raises *)
Definition applies_constraints (d : nat) (solve : nat -> mat -> list R -> option (list R)) (ks : list constraint) (g : multi (K := R) (V := vec)) : Prop :=
  (forall x, length x = d -> g_grad g (floats x) = floats (multi_grad_sq ks x)) /\
  (forall fac x xt w, length x = d -> length xt = d -> g_solve g (Fin fac) (floats x) (floats xt) = Ok w -> exists y, multi_solve solve ks x xt fac = MVec (Some y) /\ w = floats y).

(** solver of the implicit step of one plane, one sphere *)
Definition applies_plane (d : nat) (a : list R) (b : R) (g : fl R -> vec -> vec -> res vec) : Prop :=
  forall fac x xt, length x = d -> length xt = d -> g (Fin fac) (floats x) (floats xt) = Ok (floats (solve_plane a b x xt fac)).
Definition applies_sphere (d : nat) (r : R) (g : fl R -> vec -> vec -> res vec) : Prop :=
  forall fac x xt, length x = d -> length xt = d -> g (Fin fac) (floats x) (floats xt) = Ok (solve_sphere r x xt fac).
