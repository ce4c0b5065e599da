(** * Sessions of MirrorCBO with the arrays in memory (specification) *)
From Coq Require Import String List Arith Bool.
From Verif Require Import Scalar Np State Pdyn Exec Variant WL2.
Import ListNotations.
Open Scope nat_scope.
Open Scope list_scope.

Section WL2Spec.
  Context {K V : Type} {O : KOps K}.
  Notation st := (st K V).
  Notation cfg := (cfg K V).

  (** [hexec g gr nn cl c n (s, h) log]: the state [s] with the memory [h] can be reached from a construction by any
      sequence of termination checks, parameter changes, resets and [n] steps *)
  Inductive hexec (g : option (V -> V)) (gr nn cl : V -> V) (c : cfg) : nat -> st * heap V -> list (nat * V) -> Prop :=
  | hx_init : forall s, constructed c s -> hexec g gr nn cl c 0 (s, heap0 gr s) []
  | hx_step : forall n s h log o s' h', hexec g gr nn cl c n (s, h) log -> perms_valid o s -> s_active s <> [] ->
      hstep g nn cl c o (s, h) = Ok (s', h') -> hexec g gr nn cl c (S n) (s', h') (log ++ evaluated s s')
  | hx_term : forall n s h log b s', hexec g gr nn cl c n (s, h) log -> terminate c s = Ok (b, s') ->
      hexec g gr nn cl c n (s', h) log
  | hx_params : forall n s h log s', hexec g gr nn cl c n (s, h) log -> params_changed s s' ->
      hexec g gr nn cl c n (s', h) log
  | hx_reset : forall n s h log, hexec g gr nn cl c n (s, h) log -> hexec g gr nn cl c n (reset s, h) log.
End WL2Spec.
