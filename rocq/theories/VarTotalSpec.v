(** * Specification: calls a user may make *)
From Coq Require Import String List Arith Bool Permutation.
From Verif Require Import Scalar Np State Pdyn Exec SessSpec.
Import ListNotations.
Open Scope nat_scope.
Open Scope list_scope.

Section VarTotalSpec.
  Context {K V : Type} {O : KOps K}.

  (** an array of runs with the same positive number of particles, a possible batch size, permutations of the particles, save_int >= 1 *)
  Definition good_construction (c : cfg K V) (x0 : arr V) (perm0 : nat -> list nat) (save : option nat) : Prop :=
    is_array (length x0) (shape1 x0) x0 /\ 1 <= shape1 x0 /\ 1 <= c_bsize c <= shape1 x0 /\
    (forall m, m < length x0 -> Permutation (perm0 m) (seq 0 (shape1 x0))) /\ save <> Some 0.

  (** the random permutations are permutations of the N particles; every new dt satisfies T *)
  Fixpoint valid_calls (T : fl K -> Prop) (M N : nat) (l : list (call (K := K) (V := V))) : Prop :=
    match l with
    | [] => True
    | CaStep o :: l' => (forall m, m < M -> Permutation (o_perm o m) (seq 0 N)) /\ valid_calls T M N l'
    | CaParameters _ _ _ dt :: l' => T dt /\ valid_calls T M N l'
    | _ :: l' => valid_calls T M N l'
    end.
  (** no termination checks *)
  Fixpoint no_checks (l : list (call (K := K) (V := V))) : Prop :=
    match l with [] => True | CaTerminate :: _ => False | _ :: l' => no_checks l' end.
End VarTotalSpec.
