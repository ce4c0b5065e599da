(** * Independent noise of collapsed runs: specification *)
From Coq Require Import List Arith Bool.
From Verif Require Import Scalar Np State Pdyn KickNoise.
Import ListNotations.
Open Scope nat_scope.

Section KickSpec.
  Context {K V : Type} {O : KOps K}.

  (** the consensus point run [m] is compared with: its own, or the only one there is *)
  Definition point_of (cp : arr V) (m : nat) : option V :=
    match nth_error cp (if length cp =? 1 then 0 else m) with Some [q] => Some q | _ => None end.

  (** the mean squared distance of an ensemble to [q], per dimension *)
  Definition mean_sq (sq : V -> fl K) (sub : V -> V -> V) (dim : nat) (row : list V) (q : V) : fl K :=
    fdiv (fdiv (fold_right (fun v a => fadd (sq (sub v q)) a) (Fin k0) row) (Fin (kofnat (length row)))) (Fin (kofnat dim)).

  (** run [m] has collapsed onto its consensus point *)
  Definition collapsed (p : kpar K V) (c : cfg K V) (cp x : arr V) (m : nat) : Prop :=
    exists row q, nth_error x m = Some row /\ point_of cp m = Some q /\
      fltb (mean_sq (k_sq p) (c_vsub c) (k_dim p) row q) (k_eps p) = true.

  (** one consensus point per run, or one for all *)
  Definition cons_shape (M : nat) (cp : arr V) : Prop := (forall r, In r cp -> exists q, r = [q]) /\ (length cp = M \/ length cp = 1).

  (** repeated noise on one ensemble: every particle moves by increments of draws; [z i] are the draws of pass i, in each pass
      those of one slot j are used *)
  Inductive kicked (inc : V -> V) (add : V -> V -> V) (z : nat -> nat -> nat -> V) : nat -> list V -> list V -> Prop :=
  | kd_refl : forall i r, kicked inc add z i r r
  | kd_step : forall i r j r', kicked inc add z (S i) (mapi (fun n v => add v (inc (z i j n))) r) r' -> kicked inc add z i r r'.
End KickSpec.
