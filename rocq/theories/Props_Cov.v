(** * C39, C36 (covariance noise) *)
From Coq Require Import List Arith Reals Lra Lia.
From Verif Require Import Scalar Np RVec Consensus ConsSpec Nd Cbo CovNoise MatSqrt MatSpec MatFacts CovCbo CovCboSpec CovCboFacts.
Import ListNotations.
Open Scope R_scope.

(** C39. For a matrix of finite entries it is the real computation, and one infinite or NaN entry makes every entry of the result NaN. *)
Theorem C39_floats : forall eigh d A,
  ((forall i j, (i < d)%nat -> (j < d)%nat -> exists a, A i j = Fin a) ->
   exists a, (forall i j, (i < d)%nat -> (j < d)%nat -> A i j = Fin (a i j)) /\ forall i j, compute_mat_sqrt eigh d A i j = Fin (mat_sqrt d (fst (eigh d a)) (snd (eigh d a)) i j)) /\
  (forall i j, (i < d)%nat -> (j < d)%nat -> (forall a, A i j <> Fin a) -> forall k l, compute_mat_sqrt eigh d A k l = NaN).
Proof. exact compute_mat_sqrt_spec. Qed.
Print Assumptions C39_floats.

(** C39. For every orthogonal eigendecomposition the result is symmetric positive semidefinite... *)
Theorem C39_psd : forall d A B V, eigen d A B V -> mpsd d (mat_sqrt d B V).
Proof. exact mat_sqrt_psd. Qed.
Print Assumptions C39_psd.

(** ... its square is A if A is positive semidefinite (in particular if B >= 0) ... *)
Theorem C39_root : forall d A B V, eigen d A B V -> mpsd d A -> meq d (mmul d (mat_sqrt d B V) (mat_sqrt d B V)) A.
Proof. exact mat_sqrt_root. Qed.
Print Assumptions C39_root.

Theorem C39_root_eigenvalues : forall d A B V, eigen d A B V -> (forall k, (k < d)%nat -> 0 <= B k) ->
  mpsd d A /\ meq d (mmul d (mat_sqrt d B V) (mat_sqrt d B V)) A.
Proof. exact mat_sqrt_root_eigenvalues. Qed.
Print Assumptions C39_root_eigenvalues.

(** ... and in general the positive part P of A: P and P - A are positive semidefinite, P (P - A) = 0. *)
Theorem C39_positive_part : forall d A B V, eigen d A B V -> exists P, P = mmul d (mat_sqrt d B V) (mat_sqrt d B V) /\
  mpsd d P /\ mpsd d (fun i j => P i j - A i j) /\ meq d (mmul d P (fun i j => P i j - A i j)) (fun _ _ => 0).
Proof. exact mat_sqrt_square. Qed.
Print Assumptions C39_positive_part.

(** C39. The covariance update_covariance passes to it is symmetric positive semidefinite. *)
Theorem C39_covariance : forall alpha energy drift M N d m a,
  shape alpha = [M; 1%nat] -> shape energy = [M; N] -> shape drift = [M; N; d] -> (m < M)%nat -> get alpha [m; 0%nat] = Fin a ->
  (forall j, (j < N)%nat -> (exists y, get energy [m; j] = Fin y) \/ (get energy [m; j] = PInf /\ 0 < a)) ->
  (exists j y, (j < N)%nat /\ get energy [m; j] = Fin y) ->
  (forall j i, (j < N)%nat -> (i < d)%nat -> exists v, get drift [m; j; i] = Fin v) ->
  exists D C, (co <- cbo_coeffs alpha energy ;; cov_of co drift) = Ok D /\ mpsd d C /\
    forall i k, (i < d)%nat -> (k < d)%nat -> get D [m; i; k] = Fin (C i k).
Proof. exact cov_psd. Qed.
Print Assumptions C39_covariance.

(** C36. With covariance noise (unbatched, all runs active; otherwise see C71) coinciding particles stay
    where they are for any number of steps, draws, parameters and alpha >= 0.  Of eigh only the contract
    for the zero matrix is used. *)
Theorem C36_covariance_noise : forall f eigh smp pp M N p y0, (1 <= N)%nat -> f (floats p) = Fin y0 ->
  (forall i, (i < length p)%nat -> pp (Fin (coord i p)) = Fin (coord i p)) ->
  (forall A : mat, (forall i j, (i < length p)%nat -> (j < length p)%nat -> A i j = 0) ->
     eigen (length p) A (fst (eigh (length p) A)) (snd (eigh (length p) A))) ->
  forall x m y, shape x = [M; N; length p] -> (m < M)%nat -> run_at x m N p -> cov_steps f eigh smp pp M x y ->
  shape y = [M; N; length p] /\ run_at y m N p.
Proof. exact cov_absorbing. Qed.
Print Assumptions C36_covariance_noise.

(** the steps never raise *)
Theorem C36_covariance_step_ok : forall f eigh smp pp M N p y0, (1 <= N)%nat -> f (floats p) = Fin y0 ->
  (forall i, (i < length p)%nat -> pp (Fin (coord i p)) = Fin (coord i p)) ->
  (forall A : mat, (forall i j, (i < length p)%nat -> (j < length p)%nat -> A i j = 0) ->
     eigen (length p) A (fst (eigh (length p) A)) (snd (eigh (length p) A))) ->
  forall lamda dt sigma alpha x z m, 0 <= dt -> alpha_array M alpha -> (forall i, exists v, z i = Fin v) ->
  shape x = [M; N; length p] -> (m < M)%nat -> run_at x m N p ->
  exists y, cov_cbo_step f (compute_mat_sqrt eigh) smp (Fin lamda) (Fin dt) (Fin sigma) alpha pp x z = Ok y /\
    shape y = [M; N; length p] /\ run_at y m N p.
Proof. exact cov_step_absorbs. Qed.
Print Assumptions C36_covariance_step_ok.

(** ** Examples *)
Definition ex_V : mat := fun i j => match i, j with 1%nat, 1%nat => - / sqrt 2 | _, _ => / sqrt 2 end.
Definition ex_A (s t : R) : mat := fun i j => if Nat.eqb i j then s else t.
Definition ex_B (s t : R) (i : nat) : R := match i with 0%nat => s + t | _ => s - t end.

(** eigenvalues s+t and s-t: (2,1) is positive definite, (0,1) is indefinite *)
Example C39_hypotheses : forall s t, eigen 2 (ex_A s t) (ex_B s t) ex_V.
Proof.
  intros s t. assert (Q : / sqrt 2 * / sqrt 2 = / 2).
  { rewrite <- Rinv_mult by (apply Rgt_not_eq, sqrt_lt_R0; lra). rewrite sqrt_sqrt by lra. auto. }
  assert (L : forall i, (i < 2)%nat -> i = 0%nat \/ i = 1%nat) by lia.
  split; [|split]; intros i j Hi Hj; destruct (L i Hi) as [->| ->], (L j Hj) as [->| ->]; cbn; set (r := / sqrt 2) in *;
    assert (Q1 : s * (r * r) = s * / 2) by (rewrite Q; auto); assert (Q2 : t * (r * r) = t * / 2) by (rewrite Q; auto); nra.
Qed.
Example C39_example_psd : mpsd 2 (ex_A 2 1).
Proof. apply (proj1 (C39_root_eigenvalues 2 _ _ _ (C39_hypotheses 2 1) ltac:(intros [|k] _; cbn; lra))). Qed.

Example C39_covariance_hypotheses : exists alpha energy drift : nd (fl R),
  shape alpha = [1; 1]%nat /\ shape energy = [1; 2]%nat /\ shape drift = [1; 2; 2]%nat /\ get alpha [0; 0]%nat = Fin 1 /\
  (forall j, (j < 2)%nat -> (exists y, get energy [0%nat; j] = Fin y) \/ (get energy [0%nat; j] = PInf /\ 0 < 1)) /\
  (exists j y, (j < 2)%nat /\ get energy [0%nat; j] = Fin y) /\
  (forall j i, (j < 2)%nat -> (i < 2)%nat -> exists v, get drift [0%nat; j; i] = Fin v).
Proof.
  exists (mknd [1; 1]%nat (fun _ => Fin 1)), (mknd [1; 2]%nat (fun i => match i with [_; 0%nat] => Fin 3 | _ => PInf end)),
    (mknd [1; 2; 2]%nat (fun i => Fin (INR (nth 1 i 0%nat) - INR (nth 2 i 0%nat)))).
  repeat split; cbn.
  - intros [|[|j]] Hj; [left; eauto|right; split; [auto|lra]|lia].
  - exists 0%nat, 3. split; [lia|auto].
  - intros. eauto.
Qed.

Definition ex_eigh (d : nat) (A : mat) : (nat -> R) * mat := (fun i => A i i, mid).
Definition ex_x : nd (fl R) := mknd [2; 2; 1]%nat (fun i => match i with [m; n; _] => if Nat.eqb m 0 then Fin 3 else Fin (INR n) | _ => NaN end).
Example C36_covariance_hypotheses : exists alpha,
  (forall A : mat, (forall i j, (i < 1)%nat -> (j < 1)%nat -> A i j = 0) -> eigen 1 A (fst (ex_eigh 1 A)) (snd (ex_eigh 1 A))) /\
  alpha_array 2 alpha /\ shape ex_x = [2; 2; 1]%nat /\ run_at ex_x 0 2 [3] /\ ~ run_at ex_x 1 2 [3].
Proof.
  exists (mknd [2; 1]%nat (fun _ => Fin 30)). split; [|split; [|split; [reflexivity|split]]].
  - intros A H. specialize (H 0%nat 0%nat ltac:(lia) ltac:(lia)). split; [|split]; intros i j Hi Hj; assert (i = 0%nat) by lia; assert (j = 0%nat) by lia; subst; cbn; rewrite ?H; ring.
  - split; [reflexivity|]. intros m Hm. exists 30. split; [reflexivity|lra].
  - intros n i Hn Hi. assert (i = 0%nat) by (cbn in Hi; lia). subst. reflexivity.
  - intros H. specialize (H 0%nat 0%nat ltac:(lia) ltac:(cbn; lia)). cbn in H. injection H as H. unfold coord in H. cbn in H. lra.
Qed.
