(** * Changing penalty weights: executions of RegCombinationCBO with a scheduler on the objective (specification) *)
From Coq Require Import String List Arith Bool Permutation.
From Verif Require Import Scalar Np State Pdyn Exec RegSched Variant.
Import ListNotations.
Open Scope nat_scope.
Open Scope list_scope.

Section PenSpec.
  Context {K V : Type} {O : KOps K}.
  Notation F := (fl K).
  Notation st := (st K V).
  Notation cfg := (cfg K V).
  Notation orc := (orc V).
  Variables (f reg : V -> F) (pow : F -> F).

  (** the penalty weight of the k-th run handed to the objective; NaN if there is none *)
  Definition weight (ob : regobj K) (k : nat) : F :=
    match o_lamda ob with
    | None => o_scalar ob
    | Some [[a]] => a
    | Some l => match nth_error l k with Some [a] => a | _ => NaN end
    end.

  (** the penalised objective of that run *)
  Definition penalty_value (ob : regobj K) (k : nat) (v : V) : F := fadd (f v) (fmul (weight ob k) (pow (reg v))).

  (** position of the run [m] among the active ones *)
  Fixpoint rank (m : nat) (act : list nat) : nat :=
    match act with [] => 0 | a :: l => if a =? m then 0 else S (rank m l) end.

  (** the points evaluated by a step, each with its run and its penalised value at that time *)
  Definition priced (ob : regobj K) (s s' : st) : list (nat * V * F) :=
    map (fun p => (fst p, snd p, penalty_value ob (rank (fst p) (s_active s)) (snd p))) (evaluated s s').

  (** Any change of the weights that keeps their shape, as made by regularization_paramter_scheduler.update,
      regularizers.py:123-131 (its numbers: [sched_update] in RegSched.v). *)
  Definition weights_changed (ob ob' : regobj K) : Prop :=
    o_scalar ob' = o_scalar ob /\ exists l l', o_lamda ob = Some l /\ o_lamda ob' = Some l' /\ length l' = length l /\
      forall k row, nth_error l' k = Some row -> length row = 1.

  (** Reachable states: as [vexec] (VarSpec.v), with changes of the weights between the steps.  The scheduler may
      evaluate the objective (weighted_param_rule_mean, regularizers.py:94-97), which changes only the counters. *)
  Inductive pexec (la : F) (solve : option (F -> V -> V -> res V)) (eps : F) (c : cfg)
      : st * regobj K -> list (nat * V * F) -> Prop :=
  | px_init : forall s, constructed c s -> pexec la solve eps c (s, mkregobj la None) []
  | px_step : forall s ob log o s' ob', pexec la solve eps c (s, ob) log -> perms_valid o s -> s_active s <> [] ->
      vstep (reg_inner (reg_call f reg pow) solve eps) c o (s, ob) = Ok (s', ob') ->
      pexec la solve eps c (s', ob') (log ++ priced ob s s')
  | px_term : forall s ob log b s', pexec la solve eps c (s, ob) log -> terminate c s = Ok (b, s') -> pexec la solve eps c (s', ob) log
  | px_params : forall s ob log s', pexec la solve eps c (s, ob) log -> params_changed s s' -> pexec la solve eps c (s', ob) log
  | px_reset : forall s ob log, pexec la solve eps c (s, ob) log -> pexec la solve eps c (reset s, ob) log
  | px_weights : forall s ob log ob' fc nf, pexec la solve eps c (s, ob) log -> weights_changed ob ob' -> length nf = length (s_nfe s) ->
      pexec la solve eps c (set_fcalls fc (set_nfe nf s), ob') log.
End PenSpec.
