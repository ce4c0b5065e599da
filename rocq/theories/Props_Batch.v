(** * C13, C14: mini-batches *)
From Coq Require Import List Arith Permutation ZArith.
From Verif Require Import Scalar Np State Pdyn Exec BatchSpec BatchFacts ExZ ExBatch.
Import ListNotations.

(** C13. The batch size is min(size, N); batching is off exactly if no size or a size >= N
    was given. *)
Theorem C13_batch_size : forall size N, 1 <= N -> (forall b, size = Some b -> 1 <= b) ->
  1 <= init_batch_size size N <= N /\
  (init_batch_size size N = N <-> (size = None \/ exists b, size = Some b /\ N <= b)).
Proof. exact init_batch_size_range. Qed.
Print Assumptions C13_batch_size.

(** C13. In every execution, a step uses either all particles of all active runs, or one
    batch per active run, of exactly c_bsize indices, all below N, without duplicates in
    'resample' mode. *)
Theorem C13_batches_valid :
  forall (K V : Type) (O : KOps K) (c : cfg K V) s log (o : orc V) s',
  exec c s log -> perms_valid o s -> step c o s = Ok s' ->
  (c_bsize c = s_N s /\ s_cidx s' = (if length (s_active s) =? s_M s then IAll else IRuns (s_active s))) \/
  (c_bsize c < s_N s /\ exists bs, s_cidx s' = IBatch (s_active s) bs /\ length bs = length (s_active s) /\
     s_pidx s' = (if c_partial c then s_cidx s' else IRuns (s_active s)) /\
     forall b, In b bs -> length b = c_bsize c /\ (forall j, In j b -> j < s_N s) /\ (c_concat c = false -> NoDup b)).
Proof. exact @batches_valid. Qed.
Print Assumptions C13_batches_valid.

(** C14. 'concat': after k batches every particle of the run was used floor(k b / N) or
    ceil(k b / N) times. *)
Theorem C14_concat_fair :
  forall (K V : Type) (O : KOps K) (c : cfg K V) m s bs s' j,
  constructed c s -> c_concat c = true -> c_bsize c <> s_N s -> m < s_M s ->
  served c m s bs s' -> j < s_N s ->
  length bs * c_bsize c / s_N s <= uses j bs <= (length bs * c_bsize c + s_N s - 1) / s_N s.
Proof. exact @concat_fair. Qed.
Print Assumptions C14_concat_fair.

(** C14. 'resample': the batches of one epoch (floor(N / b) consecutive batches) are disjoint
    and, if b divides N, a complete epoch uses every particle exactly once. *)
Theorem C14_resample_epochs :
  forall (K V : Type) (O : KOps K) (c : cfg K V) m s bs s' i,
  constructed c s -> c_concat c = false -> c_bsize c <> s_N s -> m < s_M s ->
  served c m s bs s' ->
  NoDup (concat (firstn (s_N s / c_bsize c) (skipn (i * (s_N s / c_bsize c)) bs))) /\
  ((i + 1) * (s_N s / c_bsize c) <= length bs -> (c_bsize c * (s_N s / c_bsize c) = s_N s) ->
     Permutation (concat (firstn (s_N s / c_bsize c) (skipn (i * (s_N s / c_bsize c)) bs))) (seq 0 (s_N s))).
Proof. exact @resample_epochs. Qed.
Print Assumptions C14_resample_epochs.

Example C14_concat_example : exists s s', constructed (zcb true) s /\ s_N s = 3 /\ s_M s = 2 /\
  served (zcb true) 1 s [[2; 0]; [1; 1]; [2; 0]] s'.
Proof. exact concat_example. Qed.

(** C13. In 'concat' mode a batch can hold the same particle twice. *)
Theorem C13_concat_duplicates_refuted : exists s s' bs b, constructed (zcb true) s /\ served (zcb true) 1 s bs s' /\
  In b bs /\ ~ NoDup b.
Proof.
  destruct concat_example as (s & s' & A & _ & _ & B). exists s, s', [[2; 0]; [1; 1]; [2; 0]], [1; 1].
  split; [exact A|]. split; [exact B|]. split; [cbn; auto|]. intros H. inversion H. apply H2. cbn; auto.
Qed.
Print Assumptions C13_concat_duplicates_refuted.

Example C13_C14_resample_example : exists s s', constructed (zcb false) s /\ s_N s = 4 /\ s_M s = 2 /\
  served (zcb false) 1 s [[2; 0]; [3; 1]; [1; 2]] s'.
Proof. exact resample_example. Qed.
