(** * Specification of mini-batching: the batches served to one run *)
From Coq Require Import String List Arith Bool Permutation.
From Verif Require Import Scalar Np State Pdyn Exec.
Import ListNotations.
Open Scope nat_scope.
Open Scope list_scope.

(** value stored for key [m] *)
Fixpoint lookup {A} (m : nat) (keys : list nat) (vals : list A) : option A :=
  match keys, vals with
  | k :: keys', v :: vals' => if k =? m then Some v else lookup m keys' vals'
  | _, _ => None
  end.

Section BatchSpec.
  Context {K V : Type} {O : KOps K}.
  Notation st := (st K V).
  Notation cfg := (cfg K V).

  (** the batch of run [m] in consensus_idx *)
  Definition batch_of (s : st) (m : nat) : option (list nat) :=
    match s_cidx s with IBatch rs bs => lookup m rs bs | _ => None end.

  (** [served c m s bs s']: starting in [s], steps (interleaved with termination checks,
      parameter changes and resets) lead to [s'] and served the batches [bs] to run [m]. *)
  Inductive served (c : cfg) (m : nat) (s : st) : list (list nat) -> st -> Prop :=
  | sv_nil : served c m s [] s
  | sv_step : forall bs s1 o s2 b, served c m s bs s1 -> perms_valid o s1 -> step c o s1 = Ok s2 ->
      batch_of s2 m = Some b -> served c m s (bs ++ [b]) s2
  | sv_term : forall bs s1 r s2, served c m s bs s1 -> terminate c s1 = Ok (r, s2) -> served c m s bs s2
  | sv_params : forall bs s1 s2, served c m s bs s1 -> params_changed s1 s2 -> served c m s bs s2
  | sv_reset : forall bs s1, served c m s bs s1 -> served c m s bs (reset s1).

  (** number of times particle [j] was used *)
  Definition uses (j : nat) (bs : list (list nat)) : nat := count_occ Nat.eq_dec (concat bs) j.
End BatchSpec.
