(** * AdamCBO: executions with the drifts each particle has received (specification) *)
From Coq Require Import List Arith Bool Reals.
From Verif Require Import Scalar Np State Pdyn Exec Variant MemSpec RVec Cbo.
Import ListNotations.
Open Scope nat_scope.
Open Scope list_scope.

Section AdamSpec.
  Context {K V : Type} {O : KOps K}.
  Notation st := (st K V).
  Notation cfg := (cfg K V).
  Notation orc := (orc V).

  (** position of a run in the list of active runs *)
  Fixpoint index_of (m : nat) (l : list nat) : option nat :=
    match l with [] => None | a :: r => if a =? m then Some 0 else option_map S (index_of m r) end.

  (** position of particle [n] in the batch that particle_idx holds for row [k] (the last one, should the batch list it twice) *)
  Definition batch_pos (s' : st) (k n : nat) : option nat :=
    match s_pidx s' with IBatch _ bs => last_index n (nth k bs []) | _ => Some n end.

  (** the drift a step from [s] to [s'] recorded for particle [n] of run [m], if the particle was in the batch
      (row = position of the run among the active ones) *)
  Definition drift_at (s s' : st) (m n : nat) : list V :=
    match index_of m (s_active s), s_drift s' with
    | Some k, Some d => match batch_pos s' k n with
                        | Some j => match cell d k j with Some v => [v] | None => [] end
                        | None => [] end
    | _, _ => []
    end.

  (** [adam_exec … (s, mv) D]: an execution as in [vexec]; [D m n] are the drifts of particle [n] of run [m], oldest first *)
  Inductive adam_exec (inner : cfg -> orc -> st -> arr V * arr V -> res (st * (arr V * arr V))) (attr : st -> arr V * arr V) (c : cfg)
      : st * (arr V * arr V) -> (nat -> nat -> list V) -> Prop :=
  | ax_init : forall s, constructed c s -> adam_exec inner attr c (s, attr s) (fun _ _ => [])
  | ax_step : forall s e D o s' e', adam_exec inner attr c (s, e) D -> perms_valid o s -> s_active s <> [] ->
      vstep inner c o (s, e) = Ok (s', e') -> adam_exec inner attr c (s', e') (fun m n => D m n ++ drift_at s s' m n)
  | ax_term : forall s e D b s', adam_exec inner attr c (s, e) D -> terminate c s = Ok (b, s') ->
      adam_exec inner attr c (s', e) D
  | ax_params : forall s e D s', adam_exec inner attr c (s, e) D -> params_changed s s' ->
      adam_exec inner attr c (s', e) D
  | ax_reset : forall s e D, adam_exec inner attr c (s, e) D -> adam_exec inner attr c (reset s, e) D.

  (** no reset, and run [r] active in every step *)
  Inductive adam_uninterrupted (inner : cfg -> orc -> st -> arr V * arr V -> res (st * (arr V * arr V))) (attr : st -> arr V * arr V)
      (c : cfg) (r : nat) : st * (arr V * arr V) -> (nat -> nat -> list V) -> Prop :=
  | au_init : forall s, constructed c s -> adam_uninterrupted inner attr c r (s, attr s) (fun _ _ => [])
  | au_step : forall s e D o s' e', adam_uninterrupted inner attr c r (s, e) D -> perms_valid o s -> In r (s_active s) ->
      vstep inner c o (s, e) = Ok (s', e') -> adam_uninterrupted inner attr c r (s', e') (fun m n => D m n ++ drift_at s s' m n)
  | au_term : forall s e D b s', adam_uninterrupted inner attr c r (s, e) D -> terminate c s = Ok (b, s') ->
      adam_uninterrupted inner attr c r (s', e) D
  | au_params : forall s e D s', adam_uninterrupted inner attr c r (s, e) D -> params_changed s s' ->
      adam_uninterrupted inner attr c r (s', e) D.
End AdamSpec.

(** the exponentially weighted sum of a sequence of numbers, oldest first: sum over i of (1-b) b^(k-1-i) a_i *)
Definition exp_weighted (b : R) (l : list R) : R :=
  Rsum (map (fun i => ((1 - b) * b ^ (length l - 1 - i) * nth i l 0)%R) (seq 0 (length l))).

(** numpy's [drift**2] and [m/(v**0.5+eps)] on one particle, adamcbo.py:48-57 *)
Definition np_sq (v : vec) : vec := map (fun a => fmul a a) v.
Definition np_quot (eps : fl R) (m v : vec) : vec := map2 (fun a b => fdiv a (fadd (fsqrt b) eps)) m v.
