(** * Specification: runs of one ensemble with the stagnation criterion *)
From Coq Require Import List Arith Bool Reals.
From Verif Require Import Scalar Np State Pdyn Exec RVec Stagnation.
Import ListNotations.

(** mean and standard deviation of real numbers *)
Definition rmean (l : list R) : R := (Rsum l / INR (length l))%R.
Definition rstd (l : list R) : R := sqrt (Rsum (map (fun a => (a - rmean l) ^ 2) l) / INR (length l))%R.
(** the last p entries *)
Definition lastn {A} (p : nat) (l : list A) : list A := skipn (length l - p) l.

Section Spec.
  Context {V : Type}.
  (** the energy of the consensus point, if there is one *)
  Definition consensus_energy (c : cfg R V) (s : st R V) : list (fl R) :=
    match s_cons s with Some cp => map (c_f c) (concat cp) | None => [] end.

  (** [watched c p th n s b es]: one run after n rounds "check, not stagnated, step"; the criterion's memory is b
      and es are the consensus energies at the checks, oldest first.  Parameters may change between rounds. *)
  Inductive watched (c : cfg R V) (p : nat) (th : R) : nat -> st R V -> option buffer -> list (fl R) -> Prop :=
  | wa_start : forall s, constructed c s -> s_M s = 1 -> watched c p th 0 s None []
  | wa_round : forall n s b es s1 b1 o s2 s3, watched c p th n s b es -> stag_call p th c s b = Ok ([false], s1, b1) ->
      perms_valid o s1 -> step c o s1 = Ok s2 -> params_changed s2 s3 -> watched c p th (S n) s3 b1 (es ++ consensus_energy c s).
End Spec.
