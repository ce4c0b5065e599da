(** * Specification: arithmetic with rounding errors *)
From Coq Require Import List Arith Reals ZArith.
From Flocq Require Import Core.
From Verif Require Import Np RVec.
Import ListNotations.
Open Scope R_scope.

(** [v] is the sum of [l] in some order and bracketing with a rounding after each addition (NumPy adds pairwise) *)
Inductive rounded_sum (rnd : R -> R) : list R -> R -> Prop :=
| rs_one : forall a, rounded_sum rnd [a] a
| rs_add : forall l k a b, rounded_sum rnd l a -> rounded_sum rnd k b -> rounded_sum rnd (l ++ k) (rnd (a + b))
| rs_swap : forall l k v, rounded_sum rnd (l ++ k) v -> rounded_sum rnd (k ++ l) v.

(** relative error u, underflow eta; the library functions have relative error v *)
Record arithmetic (u v eta : R) (rnd Exp Log : R -> R) (sum : list R -> R) : Prop := {
  ar_u : 0 <= u; ar_v : 0 <= v; ar_eta : 0 <= eta <= u;
  ar_rnd : forall x, Rabs (rnd x - x) <= u * Rabs x + eta;
  ar_exp : forall x, Rabs (Exp x - exp x) <= v * exp x + v;
  ar_exp0 : forall x, 0 <= Exp x;
  ar_log : forall x, / 2 <= x -> Rabs (Log x - ln x) <= v * Rabs (ln x) + v;
  ar_sum : forall l, l <> [] -> rounded_sum rnd l (sum l) }.

(** weights of the Gibbs distribution *)
Definition gibbs_w (a : R) (e : list R) : list R := map (fun x => exp (- a * x) / Rsum (map (fun y => exp (- a * y)) e)) e.
(** sum of the absolute differences *)
Definition dist1 (c g : list R) : R := Rsum (map2 (fun p q => Rabs (p - q)) c g).

(** IEEE double precision, round to nearest, ties to even *)
Definition b64 (x : R) : R := round radix2 (FLT_exp (-1074) 53) ZnearestE x.
Definition is_b64 (x : R) : Prop := generic_format radix2 (FLT_exp (-1074) 53) x.
