(** * Executions of a dynamic

    Specification-level definitions used in the statements of the properties:
    which sequences of calls are considered, and which points are evaluated. *)

From Coq Require Import String List Arith Bool Permutation.
From Verif Require Import Scalar Np State Pdyn.
Import ListNotations.
Open Scope nat_scope.
Open Scope list_scope.

Section Exec.
  Context {K V : Type} {O : KOps K}.
  Notation F := (fl K).
  Notation st := (st K V).
  Notation cfg := (cfg K V).
  Notation orc := (orc V).

  (** [X] is an array with [M] rows of [N] cells each. *)
  Definition is_array {A} (M N : nat) (X : arr A) : Prop :=
    length X = M /\ Forall (fun row => length row = N) X.

  (** The points handed to the objective by one step from [s] to [s'], with the run they
      belong to: x_old[consensus_idx], row by row of the active runs. *)
  Definition evaluated (s s' : st) : list (nat * V) :=
    match gather (s_cidx s') (s_x s) with
    | Ok xs => concat (map2 (fun m row => map (pair m) row) (s_active s) xs)
    | Err _ => []
    end.

  (** The permutations drawn in a step are permutations of 0..N-1. *)
  Definition perms_valid (o : orc) (s : st) : Prop :=
    forall m, m < s_M s -> Permutation (o_perm o m) (seq 0 (s_N s)).

  (** Parameter changes, as a scheduler (or the user) makes them between steps; alpha keeps
      its shape (M,1). *)
  Definition params_changed (s s' : st) : Prop :=
    exists al sg la d, (is_array (s_M s) 1 (s_alpha s) -> is_array (s_M s) 1 al) /\
      s' = set_alpha al (set_sigma sg (set_lamda la (set_dt d s))).

  (** Construction with sensible arguments: a proper (M,N) array with N >= 1 particles,
      batch size between 1 and N (init_batch_size gives at most N), save_int >= 1. *)
  Definition constructed (c : cfg) (s : st) : Prop :=
    exists x0 checked alpha sigma lamda dt perm0 names extra save,
      is_array (length x0) (shape1 x0) x0 /\ 1 <= shape1 x0 /\
      1 <= c_bsize c <= shape1 x0 /\
      (forall m, m < length x0 -> Permutation (perm0 m) (seq 0 (shape1 x0))) /\
      save <> Some 0 /\
      init c x0 checked alpha sigma lamda dt perm0 names extra save = Ok s.

  (** [exec c s log]: the state [s] can be reached from a construction by any sequence of
      steps, termination checks, parameter changes and resets; [log] lists the points
      the steps evaluated, with their runs. *)
  Inductive exec (c : cfg) : st -> list (nat * V) -> Prop :=
  | ex_init : forall s, constructed c s -> exec c s []
  | ex_step : forall s log o s', exec c s log -> perms_valid o s -> step c o s = Ok s' ->
      exec c s' (log ++ evaluated s s')
  | ex_term : forall s log b s', exec c s log -> terminate c s = Ok (b, s') -> exec c s' log
  | ex_params : forall s log s', exec c s log -> params_changed s s' -> exec c s' log
  | ex_reset : forall s log, exec c s log -> exec c (reset s) log.

  (** The objective never returns NaN. *)
  Definition no_nan (c : cfg) : Prop := forall v, is_nan (c_f c v) = false.

  (** The consensus of a run is one point (CBO, whatever the weights). *)
  Definition one_consensus_point (c : cfg) : Prop := forall e x a, length (c_ccrow c e x a) = 1.
  (** The consensus of a run is one point per particle of the batch (PolarCBO). *)
  Definition consensus_per_particle (c : cfg) : Prop := forall e x a, length (c_ccrow c e x a) = length x.

  (** CBO (or PolarCBO with partial or no batching) without correction, for N particles. *)
  Definition plain (c : cfg) (N : nat) : Prop :=
    (one_consensus_point c \/ (consensus_per_particle c /\ (c_partial c = true \/ c_bsize c = N))) /\
    c_corr c = NoCorr.

  (** The values of the points evaluated for run [m]. *)
  Definition values_of (c : cfg) (m : nat) (log : list (nat * V)) : list F :=
    map (fun p => c_f c (snd p)) (filter (fun p => fst p =? m) log).

  (** [b] is the minimum of the list [l] and +inf. *)
  Definition is_minimum (b : F) (l : list F) : Prop :=
    (b = PInf \/ In b l) /\ forall v, In v l -> fleb b v = true.
End Exec.
