(** * Specification: dynamics built from one track_args *)
From Coq Require Import String List Arith Bool.
From Verif Require Import Scalar Np State Pdyn Shared.
Import ListNotations.

Section Spec.
  Context {K V : Type} {O : KOps K}.

  (** k dynamics built with the same [names] and one list object that first held E; steps in between *)
  Inductive family (E : list trk) (names : list string) : nat -> list trk -> list (st K V) -> Prop :=
  | fa_start : family E names 0 E []
  | fa_build : forall k L D c x0 chk al sg la dt perm0 save w, family E names k L D ->
      build c x0 chk al sg la dt perm0 names save (L, D) = Ok w -> family E names (S k) (fst w) (snd w)
  | fa_step : forall k L D c o i w, family E names k L D -> use c o i (L, D) = Ok w -> family E names k (fst w) (snd w).

  (** the tracker of a name: which kind, whatever its on/off flag *)
  Definition same_kind (t u : trk) : Prop := match t, u with TDefault n _, TDefault m _ => n = m | _, _ => t = u end.
  (** tracked by a class of its own *)
  Definition own_key (n : string) : Prop := In n ["x"; "update_norm"; "energy"; "consensus"; "drift_mean"; "drift"]%string.
  (** how often n occurs *)
  Definition times (n : string) (names : list string) : nat := length (filter (String.eqb n) names).
End Spec.
