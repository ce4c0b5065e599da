(** * Executions of CBOMemory and PSO (specification) *)

From Coq Require Import String List Arith Bool Permutation.
From Verif Require Import Scalar Np State Pdyn Exec Memory.
Import ListNotations.
Open Scope nat_scope.
Open Scope list_scope.

Section MemSpec.
  Context {K V : Type} {O : KOps K}.
  Notation F := (fl K).
  Notation st := (st K V).
  Notation cfg := (cfg K V).
  Notation orc := (orc V).
  Notation mst := (mst K V).
  Notation mpar := (mpar K).

  (** the array whose entry [m,n] is the pair (m,n) *)
  Definition grid (M N : nat) : arr (nat * nat) :=
    map (fun m => map (pair m) (seq 0 N)) (seq 0 M).

  (** The points evaluated by the last step, each with its run and particle: the ghost array
      of evaluated points next to the indices it was read from. *)
  Definition mem_evaluated (ms : mst) : list (nat * nat * V) :=
    match gather (s_pidx (m_s ms)) (grid (s_M (m_s ms)) (s_N (m_s ms))) with
    | Ok g => concat (map2 (map2 pair) g (m_ev ms))
    | Err _ => []
    end.

  (** Construction with the sensible arguments of [constructed] (Exec.v). *)
  Definition mem_constructed (c : cfg) (ms : mst) : Prop :=
    exists x0 checked alpha sigma lamda dt perm0 names extra save,
      is_array (length x0) (shape1 x0) x0 /\ 1 <= shape1 x0 /\
      1 <= c_bsize c <= shape1 x0 /\
      (forall m, m < length x0 -> Permutation (perm0 m) (seq 0 (shape1 x0))) /\
      save <> Some 0 /\
      mem_init c x0 checked alpha sigma lamda dt perm0 names extra save = Ok ms.

  (** Executions: construction, steps (only while a run is active, as optimize does),
      termination checks, parameter changes, resets.  [log] lists the evaluated
      points with run and particle, the constructor's included. *)
  Inductive mem_exec (k : mkind) (c : cfg) : mst -> list (nat * nat * V) -> Prop :=
  | mx_init : forall ms, mem_constructed c ms -> mem_exec k c ms (mem_evaluated ms)
  | mx_step : forall ms log p o z2 ms', mem_exec k c ms log -> perms_valid o (m_s ms) ->
      s_active (m_s ms) <> [] -> mem_step k c p o z2 ms = Ok ms' ->
      mem_exec k c ms' (log ++ mem_evaluated ms')
  | mx_term : forall ms log b s', mem_exec k c ms log -> terminate c (m_s ms) = Ok (b, s') ->
      mem_exec k c (mkmst s' (m_y ms) (m_v ms) (m_ev ms)) log
  | mx_params : forall ms log s', mem_exec k c ms log -> params_changed (m_s ms) s' ->
      mem_exec k c (mkmst s' (m_y ms) (m_v ms) (m_ev ms)) log
  | mx_reset : forall ms log, mem_exec k c ms log ->
      mem_exec k c (mkmst (reset (m_s ms)) (m_y ms) (m_v ms) (m_ev ms)) log.

  (** entry [m,n] of an array *)
  Definition cell {A} (a : arr A) (m n : nat) : option A :=
    match nth_error a m with Some row => nth_error row n | None => None end.

  (** exact arithmetic on the points of one particle: adding the full difference to [y] gives
      [x], adding zero times the difference gives [y] *)
  Definition exact_move (c : cfg) (x y : V) : Prop :=
    c_vadd c y (c_vscale c (Fin k1) (c_vsub c x y)) = x /\
    c_vadd c y (c_vscale c (Fin k0) (c_vsub c x y)) = y.
  Definition exact_log (c : cfg) (log : list (nat * nat * V)) : Prop :=
    forall m n x y, In (m, n, x) log -> In (m, n, y) log -> exact_move c x y.
End MemSpec.
