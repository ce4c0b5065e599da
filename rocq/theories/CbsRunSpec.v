(** * Specification: runs with covariance noise *)
From Coq Require Import List Arith Bool Reals.
From Verif Require Import Scalar Np RVec ConsSpec Nd Cbo MatSqrt MatSpec CovNoise CovCbo.
Import ListNotations.
Open Scope R_scope.

(** the particles of run m are the points X *)
Definition run_is (x : nd (fl R)) (m N d : nat) (X : list (list R)) : Prop :=
  ensemble N d X /\ forall n i, (n < N)%nat -> (i < d)%nat -> get x [m; n; i] = Fin (coord i (nth n X [])).
(** what one step takes: lamda, dt, sigma, the alpha of the runs and the draws *)
Record inputs := { i_la : R; i_dt : R; i_sg : R; i_alpha : nd (fl R); i_z : list nat -> fl R }.
Definition valid_inputs (M : nat) (i : inputs) : Prop :=
  0 <= i_dt i /\ shape (i_alpha i) = [M; 1%nat] /\ (forall m, (m < M)%nat -> exists a, get (i_alpha i) [m; 0%nat] = Fin a /\ - 1 < a) /\
  forall j, exists v, i_z i j = Fin v.
Definition one_step (f : vec -> fl R) eigh (sampling : bool) (pp : fl R -> fl R) (i : inputs) (x : nd (fl R)) : res (nd (fl R)) :=
  cov_cbo_step f (compute_mat_sqrt eigh) sampling (Fin (i_la i)) (Fin (i_dt i)) (Fin (i_sg i)) (i_alpha i) pp x (i_z i).
(** the contract of numpy's eigh in dimension d *)
Definition eigh_ok (d : nat) (eigh : nat -> mat -> (nat -> R) * mat) : Prop := forall C, msym d C -> eigen d C (fst (eigh d C)) (snd (eigh d C)).

(** every coordinate of run m is strictly between - T and T, so that clipping at T has done nothing *)
Definition within (T : R) (x : nd (fl R)) (m N d : nat) : Prop :=
  forall n i, (n < N)%nat -> (i < d)%nat -> exists v, get x [m; n; i] = Fin v /\ - T < v < T.
Definition only_clips (T : R) (pp : fl R -> fl R) : Prop := forall v w, pp (Fin v) = Fin w -> - T < w < T -> w = v.
(** any number of steps during which run m stays below the threshold *)
Inductive unclipped (f : vec -> fl R) eigh (sampling : bool) (pp : fl R -> fl R) (T : R) (M N d m : nat) (x : nd (fl R)) : nd (fl R) -> Prop :=
| un_start : unclipped f eigh sampling pp T M N d m x x
| un_step : forall y i y', unclipped f eigh sampling pp T M N d m x y -> valid_inputs M i ->
    one_step f eigh sampling pp i y = Ok y' -> within T y' m N d -> unclipped f eigh sampling pp T M N d m x y'.
(** all points are in the hyperplane u . p = b *)
Definition on_plane (d : nat) (u : nat -> R) (b : R) (X : list (list R)) : Prop := forall p, In p X -> msum d (fun i => u i * coord i p) = b.

(** p is an affine combination of the points X *)
Definition in_hull (d : nat) (X : list (list R)) (p : list R) : Prop :=
  exists t : nat -> R, msum (length X) t = 1 /\ forall k, (k < d)%nat -> coord k p = msum (length X) (fun j => t j * coord k (nth j X [])).
(** steps with the given inputs, one after the other *)
Fixpoint steps_with (f : vec -> fl R) eigh (sampling : bool) (pp : fl R -> fl R) (l : list inputs) (x : nd (fl R)) : res (nd (fl R)) :=
  match l with [] => Ok x | i :: l => y <- one_step f eigh sampling pp i x ;; steps_with f eigh sampling pp l y end.

(** A C A^T; orthogonal matrices *)
Definition conj (d : nat) (A C : mat) : mat := fun i k => msum d (fun p => msum d (fun q => A i p * C p q * A k q)).
Definition orthogonal (d : nat) (A : mat) : Prop := meq d (mmul d (mtr A) A) mid.
(** p -> A p + b *)
Definition affine (d : nat) (A : mat) (b : nat -> R) (p : list R) : list R := map (fun i => msum d (fun k => A i k * coord k p) + b i) (seq 0 d).
(** the inputs of the moved run: the same with the draws of run m turned by A *)
Definition turned (d m : nat) (A : mat) (i i' : inputs) : Prop :=
  i_la i' = i_la i /\ i_dt i' = i_dt i /\ i_sg i' = i_sg i /\ get (i_alpha i') [m; 0%nat] = get (i_alpha i) [m; 0%nat] /\
  forall n q w v, (q < d)%nat -> (forall k, (k < d)%nat -> i_z i [m; n; k] = Fin (w k)) -> i_z i' [m; n; q] = Fin v -> v = msum d (fun k => A q k * w k).
Inductive moved_together (f f' : vec -> fl R) eigh eigh' (sampling : bool) (M M' d m : nat) (A : mat) (x x' : nd (fl R)) : nd (fl R) -> nd (fl R) -> Prop :=
| mt_start : moved_together f f' eigh eigh' sampling M M' d m A x x' x x'
| mt_step : forall y y' i i' z z', moved_together f f' eigh eigh' sampling M M' d m A x x' y y' ->
    valid_inputs M i -> valid_inputs M' i' -> turned d m A i i' ->
    one_step f eigh sampling (fun u => u) i y = Ok z -> one_step f' eigh' sampling (fun u => u) i' y' = Ok z' ->
    moved_together f f' eigh eigh' sampling M M' d m A x x' z z'.
