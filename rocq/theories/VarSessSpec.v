(** * Specification: the same sequence of calls on two objects of a variant of CBO *)
From Coq Require Import String List Arith Bool.
From Verif Require Import Scalar Np State Pdyn Exec SimSpec SessSpec Variant.
Import ListNotations.
Open Scope nat_scope.
Open Scope list_scope.

Section VarSessSpec.
  Context {K V E : Type} {O : KOps K}.
  Notation F := (fl K).
  Variables (inner : cfg K V -> orc V -> st K V -> E -> res (st K V * E)) (attr : st K V -> E).

  (** the calls of [SessSpec] on an object with the additional attributes [e] and the inner step [inner] *)
  Definition var_do (c : cfg K V) (a : call (K := K) (V := V)) (p : st K V * E) : res (st K V * E) :=
    match a with
    | CaStep o => match s_active (fst p) with [] => Ok p (* optimize has ended *) | _ :: _ => vstep inner c o p end
    | _ => s1 <- cbo_do c a (fst p) ;; Ok (s1, snd p)
    end.
  Fixpoint var_play (c : cfg K V) (l : list (call (K := K) (V := V))) (p : st K V * E) : res (st K V * E) :=
    match l with [] => Ok p | a :: l' => p1 <- var_do c a p ;; var_play c l' p1 end.

  (** a whole session: construction, then the calls *)
  Definition var_session (c : cfg K V) (x0 : arr V) (checked : bool) (alpha sigma lamda dt : F) (perm0 : nat -> list nat)
      (names : option (list string)) (extra : list trk) (save : option nat) (l : list (call (K := K) (V := V))) : res (st K V * E) :=
    s <- init c x0 checked alpha sigma lamda dt perm0 names extra save ;; var_play c l (s, attr s).
End VarSessSpec.
