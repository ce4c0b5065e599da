(** * Executions of the variants of CBO (specification) *)
From Coq Require Import String List Arith Bool Permutation.
From Verif Require Import Scalar Np State Pdyn Exec Variant.
Import ListNotations.
Open Scope nat_scope.
Open Scope list_scope.

Section VarSpec.
  Context {K V : Type} {O : KOps K} {E : Type}.
  Notation F := (fl K).
  Notation st := (st K V).
  Notation cfg := (cfg K V).
  Notation orc := (orc V).

  (** [vexec inner attr c n (s, e) log]: the state [s] with the additional attributes [e] can be reached
      from a construction (which sets the attributes with [attr]) by any sequence of termination checks,
      parameter changes, resets and [n] steps (only while a run is active, as optimize does);
      [log] lists the points the steps evaluated, with their runs. *)
  Inductive vexec (inner : cfg -> orc -> st -> E -> res (st * E)) (attr : st -> E) (c : cfg)
      : nat -> st * E -> list (nat * V) -> Prop :=
  | vx_init : forall s, constructed c s -> vexec inner attr c 0 (s, attr s) []
  | vx_step : forall n s e log o s' e', vexec inner attr c n (s, e) log -> perms_valid o s -> s_active s <> [] ->
      vstep inner c o (s, e) = Ok (s', e') -> vexec inner attr c (S n) (s', e') (log ++ evaluated s s')
  | vx_term : forall n s e log b s', vexec inner attr c n (s, e) log -> terminate c s = Ok (b, s') ->
      vexec inner attr c n (s', e) log
  | vx_params : forall n s e log s', vexec inner attr c n (s, e) log -> params_changed s s' ->
      vexec inner attr c n (s', e) log
  | vx_reset : forall n s e log, vexec inner attr c n (s, e) log -> vexec inner attr c n (reset s, e) log.
End VarSpec.
