(** * Specification: reproducible dynamics *)
From Coq Require Import String List Arith Bool Permutation.
From Verif Require Import Scalar Np State Pdyn Exec Seed.
Import ListNotations.
Open Scope nat_scope.
Open Scope list_scope.

Section SeedSpec.
  Context {K V G : Type} {O : KOps K}.
  Notation st := (st K V).
  Notation cmd := (cmd K V G).
  Notation args := (args K V).

  (** the commands concerning dynamic [k] *)
  Definition about (k : nat) (x : cmd) : bool :=
    match x with CNew j _ | CStep j | COpt j _ _ | CReset j => j =? k | CWorld _ => false end.
  (** ... addressed to dynamic [j] instead *)
  Definition redirect (j : nat) (x : cmd) : cmd :=
    match x with CNew _ a => CNew j a | CStep _ => CStep j | COpt _ f n => COpt j f n | CReset _ => CReset j | CWorld f => CWorld f end.
  (** ensemble and seed are given, the sampler is the own one *)
  Definition reproducible_args (a : args) : Prop := a_x a <> None /\ a_seed a <> None /\ a_global a = false.
  Definition reproducible (k : nat) (l : list cmd) : Prop := forall a, In (CNew k a) l -> reproducible_args a.

  (** contract of numpy: permuted rows of arange(n) are permutations of it; uniform arrays have the asked shape *)
  Definition numpy_ok (R : numpy G V) : Prop :=
    (forall g r n m, m < r -> Permutation (fst (np_permuted R g r n) m) (seq 0 n)) /\ (forall g r n, is_array r n (fst (np_uniform R g r n))).
  (** sensible arguments *)
  Definition args_ok (a : args) : Prop :=
    match a_x a with
    | Some x => is_array (length x) (shape1 x) x /\ 1 <= shape1 x /\ 1 <= c_bsize (a_c a) <= shape1 x
    | None => 1 <= a_M a /\ 1 <= a_N a /\ 1 <= c_bsize (a_c a) <= a_N a
    end /\ a_save a <> Some 0.
  (** a scheduler changes parameters only *)
  Definition sched_ok (f : st -> res st) : Prop := forall s s', f s = Ok s' -> params_changed s s'.
  Definition script_ok (l : list cmd) : Prop := (forall k a, In (CNew k a) l -> args_ok a) /\ (forall k f n, In (COpt k f n) l -> sched_ok f).

  (** the lives of a dynamic, with the number of steps taken: steps, termination checks, parameter changes, resets in any order, whatever happens outside *)
  Inductive life (R : numpy G V) (a : args) : nat -> dyn K V G -> Prop :=
  | li_new : forall w w' d, construct R a w = (Ok d, w') -> life R a 0 d
  | li_step : forall n d w w' d', life R a n d -> seeded_step R a w d = (Ok d', w') -> life R a (S n) d'
  | li_term : forall n d b s', life R a n d -> terminate (a_c a) (d_s d) = Ok (b, s') -> life R a n (mkdyn s' (d_rng d) (d_batch d))
  | li_params : forall n d s', life R a n d -> params_changed (d_s d) s' -> life R a n (mkdyn s' (d_rng d) (d_batch d))
  | li_reset : forall n d, life R a n d -> life R a n (mkdyn (reset (d_s d)) (d_rng d) (d_batch d)).
  (** numbers of runs and particles *)
  Definition runs_of (a : args) : nat := match a_x a with Some x => length x | None => a_M a end.
  Definition particles_of (a : args) : nat := match a_x a with Some x => shape1 x | None => a_N a end.
  (** equally sized ensembles and batches, same seed of the batches; everything else may differ *)
  Definition same_batching (a a' : args) : Prop :=
    runs_of a = runs_of a' /\ particles_of a = particles_of a' /\ c_bsize (a_c a) = c_bsize (a_c a') /\ c_concat (a_c a) = c_concat (a_c a') /\ a_bseed a = a_bseed a'.
  (** the batch of run [m] in the last step of a state *)
  Definition batch_of (s : st) (m : nat) (b : list nat) : Prop := exists act bs, s_cidx s = IBatch act bs /\ In (m, b) (combine act bs).
  (** the same arguments with check_f_dims=False *)
  Definition unchecked (a : args) : args := mkargs (a_c a) (a_x a) (a_M a) (a_N a) (a_seed a) (a_bseed a) false (a_global a) (a_alpha a) (a_sigma a) (a_lamda a) (a_dt a) (a_names a) (a_extra a) (a_save a).
End SeedSpec.
