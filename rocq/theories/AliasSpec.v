(** * Specification: executions with the memory *)
From Coq Require Import String List Arith Bool.
From Verif Require Import Scalar Np State Pdyn Exec Alias.
Import ListNotations.

Section Spec.
  Context {K V : Type} {O : KOps K}.
  Notation st := (st K V).
  Notation cfg := (cfg K V).
  Notation orc := (orc V).

  (** From construction with the array x0 and tracked names [names], steps interleaved with termination checks and parameter
      changes, without reset.  [log]: the positions after the update and after the whole step, per step. *)
  Inductive mrun (b : binding) (p : pproc V) (inner : cfg -> orc -> st -> res st) (c : cfg) (x0 : arr V) (names : list string)
    : list (arr V * arr V) -> st -> mem V -> Prop :=
  | mr_init : forall chk al sg la dt perm0 save s, init c x0 chk al sg la dt perm0 (Some names) [] save = Ok s ->
      mrun b p inner c x0 names [] s (mem_init x0 (s_tracks s))
  | mr_step : forall log s m o y s' m', mrun b p inner c x0 names log s m -> mem_step b p inner c o (s, m) = Ok (y, (s', m')) ->
      mrun b p inner c x0 names (log ++ [(y, s_x s')]) s' m'
  | mr_term : forall log s m r s', mrun b p inner c x0 names log s m -> terminate c s = Ok (r, s') -> mrun b p inner c x0 names log s' m
  | mr_params : forall log s m s', mrun b p inner c x0 names log s m -> params_changed s s' -> mrun b p inner c x0 names log s' m.

  (** any execution, with resets and extra tracks *)
  Inductive mexec (b : binding) (p : pproc V) (inner : cfg -> orc -> st -> res st) (c : cfg) (x0 : arr V) : st -> mem V -> Prop :=
  | me_init : forall chk al sg la dt perm0 names extra save s, init c x0 chk al sg la dt perm0 names extra save = Ok s ->
      mexec b p inner c x0 s (mem_init x0 (s_tracks s))
  | me_step : forall s m o y s' m', mexec b p inner c x0 s m -> mem_step b p inner c o (s, m) = Ok (y, (s', m')) -> mexec b p inner c x0 s' m'
  | me_term : forall s m r s', mexec b p inner c x0 s m -> terminate c s = Ok (r, s') -> mexec b p inner c x0 s' m
  | me_params : forall s m s', mexec b p inner c x0 s m -> params_changed s s' -> mexec b p inner c x0 s' m
  | me_reset : forall s m, mexec b p inner c x0 s m -> mexec b p inner c x0 (reset s) (mem_reset m).

  (** the inner step does not touch the bookkeeping of the history *)
  Definition inner_keeps (inner : cfg -> orc -> st -> res st) : Prop := forall c o s s', inner c o s = Ok s' ->
    s_it s' = s_it s /\ s_save s' = s_save s /\ s_tracks s' = s_tracks s /\ s_hist s' = s_hist s.
  (** the post-processing of the dynamic is p *)
  Definition pp_is (c : cfg) (p : pproc V) : Prop := forall v, c_pp c v = pp_fun p v.
End Spec.
