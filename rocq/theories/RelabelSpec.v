(** * Specification: the same run with the particles listed in another order *)
From Coq Require Import String List Arith Bool Permutation.
From Verif Require Import Scalar Np State Pdyn Exec TermSpec.
Import ListNotations.
Open Scope nat_scope.
Open Scope list_scope.

(** p and r are inverse bijections of 0, ..., N - 1 *)
Definition bijection (N : nat) (p r : nat -> nat) : Prop :=
  forall i, i < N -> p i < N /\ r i < N /\ p (r i) = i /\ r (p i) = i.

(** the entry i of the list l' is the entry (p i) of the list l *)
Definition reordered {A} (N : nat) (p : nat -> nat) (l l' : list A) : Prop :=
  length l = N /\ length l' = N /\ forall i, i < N -> nth_error l' i = nth_error l (p i).

(** row by row: the run m is reordered by (p m) *)
Definition rows_reordered {A} (M N : nat) (p : nat -> nat -> nat) (X X' : list (list A)) : Prop :=
  length X = M /\ length X' = M /\
  forall m, m < M -> exists row row', nth_error X m = Some row /\ nth_error X' m = Some row' /\ reordered N (p m) row row'.

Section RelabelSpec.
  Context {K V : Type} {O : KOps K}.
  Notation st := (st K V).
  Notation cfg := (cfg K V).
  Notation orc := (orc V).
  Variables (p r : nat -> nat -> nat).

  (** [s'] is [s] with the particles of every run listed in another order.  Nothing that does not
      belong to one particle differs: consensus points, best energies, smallest energies of the
      last evaluations, update norms, counters, active runs, parameters, time.  The pending
      indices of the batches name the same particles. *)
  Record relabelled (s s' : st) : Prop := {
    rl_M : s_M s' = s_M s;
    rl_N : s_N s' = s_N s;
    rl_x : rows_reordered (s_M s) (s_N s) p (s_x s) (s_x s');
    rl_energy : rows_reordered (s_M s) (s_N s) p (s_energy s) (s_energy s');
    rl_be : s_be s' = s_be s;
    rl_fmin : s_fmin s' = s_fmin s;
    rl_udiff : s_udiff s' = s_udiff s;
    rl_nfe : s_nfe s' = s_nfe s;
    rl_cons : s_cons s' = s_cons s;
    rl_ind : forall m, m < s_M s -> nth_error (s_ind s') m = option_map (map (r m)) (nth_error (s_ind s) m);
    rl_active : s_active s' = s_active s;
    rl_alpha : s_alpha s' = s_alpha s;
    rl_par : s_sigma s' = s_sigma s /\ s_lamda s' = s_lamda s /\ s_dt s' = s_dt s;
    rl_time : s_t s' = s_t s /\ s_it s' = s_it s }.

  (** the draws of a step for the relabelled run: a permutation of the particles names the same
      particles; the noise goes to the same particle.  With partial updates the noise is drawn
      per place in the batch, otherwise per particle. *)
  Definition relabelled_draws (c : cfg) (s : st) (o o' : orc) : Prop :=
    (forall m, m < s_M s -> o_perm o' m = map (r m) (o_perm o m)) /\
    (forall k m n, nth_error (s_active s) k = Some m -> n < s_N s ->
       o_z o' k n = o_z o k (if negb (c_bsize c =? s_N s) && c_partial c then n else p m n)).

  (** [relabelled_runs c Q QO s s']: s and s' are reached by the same calls, construction from
      reordered ensembles, steps with draws for the same particles, termination checks, the same
      parameter changes, resets.  [Q] is required of the state after construction and after
      parameter changes, [QO] of the draws. *)
  Inductive relabelled_runs (c : cfg) (Q : st -> Prop) (QO : orc -> Prop) : st -> st -> Prop :=
  | rr_init : forall x0 x0' checked alpha sigma lamda dt perm0 perm0' names extra save s s',
      is_array (length x0) (shape1 x0) x0 -> 1 <= shape1 x0 -> 1 <= c_bsize c <= shape1 x0 ->
      rows_reordered (length x0) (shape1 x0) p x0 x0' ->
      (forall m, m < length x0 -> Permutation (perm0 m) (seq 0 (shape1 x0))) ->
      (forall m, m < length x0 -> perm0' m = map (r m) (perm0 m)) -> save <> Some 0 ->
      init c x0 checked alpha sigma lamda dt perm0 names extra save = Ok s ->
      init c x0' checked alpha sigma lamda dt perm0' names extra save = Ok s' ->
      Q s -> (forall m, m < s_M s -> bijection (s_N s) (p m) (r m)) -> relabelled_runs c Q QO s s'
  | rr_step : forall s s' o o' s1 s1', relabelled_runs c Q QO s s' -> perms_valid o s -> QO o -> relabelled_draws c s o o' ->
      step c o s = Ok s1 -> step c o' s' = Ok s1' -> relabelled_runs c Q QO s1 s1'
  | rr_term : forall s s' b b' s1 s1', relabelled_runs c Q QO s s' -> terminate c s = Ok (b, s1) -> terminate c s' = Ok (b', s1') ->
      relabelled_runs c Q QO s1 s1'
  | rr_params : forall s s' al sg la d, relabelled_runs c Q QO s s' -> is_array (s_M s) 1 al ->
      Q (set_alpha al (set_sigma sg (set_lamda la (set_dt d s)))) ->
      relabelled_runs c Q QO (set_alpha al (set_sigma sg (set_lamda la (set_dt d s)))) (set_alpha al (set_sigma sg (set_lamda la (set_dt d s'))))
  | rr_reset : forall s s', relabelled_runs c Q QO s s' -> relabelled_runs c Q QO (reset s) (reset s').
End RelabelSpec.
