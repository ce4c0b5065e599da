(** * C33, C34, C71: polarised consensus and covariance noise *)
From Coq Require Import List Arith Reals Lra Lia.
From Verif Require Import Scalar Np RVec Consensus ConsSpec ExCons Polar PolarSpec PolarFacts Nd CovNoise CovFacts TazFacts.
Import ListNotations.
Open Scope R_scope.

(** C33. The consensus of particle i is the weighted mean with normalised weights
    kernel(x_j,x_i)^kf * exp(-a E_j). *)
Theorem C33_weighted_mean : forall k kappa a kf E d X i, kappa_ok kappa -> 0 < kf ->
  (forall e, In e E -> (exists y, e = Fin y) \/ (e = PInf /\ 0 < a)) -> ensemble (length E) d X ->
  (exists y, nth_error E i = Some (Fin y)) ->
  exists row ws, nth_error (nl_eval (kneg_log k kappa) X) i = Some row /\
    nth_error (cc_polar E (map floats X) (nl_eval (kneg_log k kappa) X) (Fin a) (Fin kf)) i = Some (floats (combination ws d X)) /\
    ws = polar_ws a kf row E /\ length ws = length E /\ convex ws.
Proof. exact cc_polar_point. Qed.
Print Assumptions C33_weighted_mean.

(** C33. It lies in the convex hull: every linear inequality satisfied by all particles. *)
Theorem C33_hull : forall k kappa a kf E d X i c v b, kappa_ok kappa -> 0 < kf ->
  (forall e, In e E -> (exists y, e = Fin y) \/ (e = PInf /\ 0 < a)) -> ensemble (length E) d X ->
  (exists y, nth_error E i = Some (Fin y)) -> length v = d ->
  nth_error (cc_polar E (map floats X) (nl_eval (kneg_log k kappa) X) (Fin a) (Fin kf)) i = Some c ->
  (forall p, In p X -> dot v p <= b) -> exists c', c = floats c' /\ length c' = d /\ dot v c' <= b.
Proof. exact polar_hull. Qed.
Print Assumptions C33_hull.

(** C33. With kappa = +inf every particle gets the ordinary consensus. *)
Theorem C33_constant_kernel : forall k a kf E d X, admissible a E -> ensemble (length E) d X ->
  cc_polar E (map floats X) (nl_eval (kneg_log k PInf) X) (Fin a) (Fin kf) =
  map (fun _ => hd [] (cc_default E (map floats X) (Fin a))) X.
Proof. exact polar_constant. Qed.
Print Assumptions C33_constant_kernel.

(** C33. Kernel values lie in [0,1] and neg_log is -log of the kernel (so that the kernel is
    exp(-neg_log)), for all shipped kernels but Taz. *)
Theorem C33_kernels : forall k kappa x y, kappa_ok kappa ->
  exists v, kcall k kappa x y = Fin v /\ 0 <= v <= 1 /\ kneg_log k kappa x y = fopp (flog (Fin v)) /\
    ((exists n, kneg_log k kappa x y = Fin n /\ 0 <= n /\ v = exp (- n)) \/ (kneg_log k kappa x y = PInf /\ v = 0)).
Proof. exact kernel_spec. Qed.
Print Assumptions C33_kernels.

(** C33. Symmetry, and value one for equal points. *)
Theorem C33_symmetric : forall k kappa x y, length x = length y ->
  kcall k kappa x y = kcall k kappa y x /\ kneg_log k kappa x y = kneg_log k kappa y x.
Proof. exact kernel_sym. Qed.
Print Assumptions C33_symmetric.

Theorem C33_self : forall k kappa x, kappa_ok kappa -> kcall k kappa x x = Fin 1 /\ kneg_log k kappa x x = Fin 0.
Proof. exact kernel_self. Qed.
Print Assumptions C33_self.

(** C33 fails for the Taz kernel: NaN as soon as all particles of all runs coincide, and the
    value for two points of one run depends on the other runs. *)
Theorem C33_taz_refuted :
  (forall kappa p Xs m i j row rr v, kappa_ok kappa -> (forall X q, In X Xs -> In q X -> q = p) ->
     nth_error (taz_eval kappa Xs) m = Some row -> nth_error row i = Some rr -> nth_error rr j = Some v -> v = NaN) /\
  nth_error (taz_eval (Fin 1) [[[0]; [1]]; [[0]; [1]]]) 0 <> nth_error (taz_eval (Fin 1) [[[0]; [1]]; [[0]; [2]]]) 0.
Proof. exact (conj taz_eval_collapsed taz_eval_depends). Qed.
Print Assumptions C33_taz_refuted.

(** Otherwise its value for particles i and j of run m is (|x_j - x_i| / (kappa D))^2, D the largest distance
    of two particles of one run, over all runs. *)
Theorem C33_taz_value : forall kappa D Xs, 0 < kappa -> 0 < D ->
  (forall X x y, In X Xs -> In x X -> In y X -> dist x y <= D) ->
  (exists X x y, In X Xs /\ In x X /\ In y X /\ dist x y = D) ->
  length (taz_eval (Fin kappa) Xs) = length Xs /\
  forall m X i j xi xj, nth_error Xs m = Some X -> nth_error X i = Some xi -> nth_error X j = Some xj ->
    exists row rr, nth_error (taz_eval (Fin kappa) Xs) m = Some row /\ nth_error row i = Some rr /\
      nth_error rr j = Some (Fin ((dist xj xi / (kappa * D)) ^ 2)).
Proof. exact taz_eval_value. Qed.
Print Assumptions C33_taz_value.

Example C33_taz_value_case : let Xs := [[[0]; [1]]; [[0]; [2]]] in
  (forall X x y, In X Xs -> In x X -> In y X -> dist x y <= 2) /\
  (exists X x y, In X Xs /\ In x X /\ In y X /\ dist x y = 2) /\
  dist [1] [0] = 1.
Proof. exact taz_case. Qed.

Example C33_example : kappa_ok (Fin 2) /\ (forall e, In e exE -> (exists y, e = Fin y) \/ (e = PInf /\ 0 < 1)) /\
  ensemble (length exE) 2 exX /\ (exists y, nth_error exE 0 = Some (Fin y)).
Proof. split; [exact Rlt_0_2|split; [exact (proj1 (exE_adm 1 Rlt_0_1))|split; [exact exX_ens|exists 3; reflexivity]]]. Qed.

(** C34. A PolarCBO step with covariance noise (all runs active, unbatched) works exactly for
    M = 1 or M = N. *)
Theorem C34_works_iff_refuted : forall ms smp const lamda dt sigma alpha energy nl xp drift z M N d act,
  shape alpha = [M; 1]%nat -> shape energy = [M; N] -> shape nl = [M; N; N] -> shape drift = [M; N; d] -> shape xp = [M; N; d] ->
  length act = M -> (1 <= M)%nat -> (1 <= N)%nat ->
  works (polar_cov_step ms smp const lamda dt sigma act alpha energy nl xp drift z) <-> M = 1%nat \/ M = N.
Proof. exact polar_step_works. Qed.
Print Assumptions C34_works_iff_refuted.

(** C34. The covariance it uses for particle i of run m is built from the drifts, energies and
    alpha of run [used_run M m i], which is run i for M = N > 1. *)
Theorem C34_value : forall const alpha energy nl drift M N d act,
  shape alpha = [M; 1]%nat -> shape energy = [M; N] -> shape nl = [M; N; N] -> shape drift = [M; N; d] ->
  length act = M -> (1 <= N)%nat -> M = 1%nat \/ M = N ->
  exists D, (co <- polar_cov_coeffs (kernel_factor const alpha act) nl alpha energy ;; cov_of co drift) = Ok D /\
    shape D = [M; N; d; d] /\
    forall m i a b r kf w, (m < M)%nat -> (i < N)%nat -> (a < d)%nat -> (b < d)%nat ->
      r = used_run M m i ->
      kf = (if const then Fin 1 else get alpha [nth m act 0; 0]%nat) ->
      w = softmax (map (fun j => fsub (fmul (fopp kf) (get nl [m; i; j])) (fmul (get alpha [r; 0]%nat) (get energy [r; j]))) (seq 0 N)) ->
      get D [m; i; a; b] = fsum (map (fun j => fmul (fmul (get drift [r; j; a]) (get drift [r; j; b])) (nth j w NaN)) (seq 0 N)).
Proof. exact polar_cov_value. Qed.
Print Assumptions C34_value.

(** C34. For every M = N >= 2 there is an ensemble whose run 0 has no drift at all but gets
    the covariance of run 1. *)
Theorem C34_mixes_refuted : forall n, (2 <= n)%nat -> exists D,
  (co <- polar_cov_coeffs (kernel_factor true (mixA n) (seq 0 n)) (mixL n) (mixA n) (mixE n) ;; cov_of co (mixD n)) = Ok D /\
  (forall j a, get (mixD n) [0; j; a]%nat = Fin 0) /\ get D [0; 1; 0; 0]%nat = Fin 1.
Proof.
  exact (fun n Hn => match polar_mixes n Hn with ex_intro _ D (conj H1 H2) => ex_intro _ D (conj H1 (conj (fun j a => eq_refl) H2)) end).
Qed.
Print Assumptions C34_mixes_refuted.

Example C34_example : shape (mixA 3) = [3; 1]%nat /\ shape (mixE 3) = [3; 3]%nat /\ shape (mixL 3) = [3; 3; 3]%nat /\
  shape (mixD 3) = [3; 3; 1]%nat /\ length (seq 0 3) = 3%nat.
Proof. repeat split. Qed.

(** C71. CBO / CBS with covariance noise: A of M runs active, b of N particles in the drift.
    The step works exactly if all runs are active and the drift covers all particles (or one). *)
Theorem C71_covariance_works_iff_refuted : forall ms smp lamda dt sigma alpha energy xp drift z M N d A b,
  shape alpha = [M; 1]%nat -> shape energy = [M; N] -> shape drift = [A; b; d] -> shape xp = [A; b; d] ->
  (1 <= A <= M)%nat -> (1 <= b <= N)%nat ->
  works (cov_step ms smp lamda dt sigma alpha energy xp drift z) <-> A = M /\ (b = N \/ b = 1%nat).
Proof. exact cov_step_works. Qed.
Print Assumptions C71_covariance_works_iff_refuted.

Example C71_example : let z := fun _ : list nat => Fin 0 in
  ~ works (cov_step (fun _ A => A) true (Fin 1) (Fin 1) (Fin 1) (mknd [2; 1]%nat z) (mknd [2; 3]%nat z) (mknd [1; 3; 1]%nat z) (mknd [1; 3; 1]%nat z) z) /\
  works (cov_step (fun _ A => A) true (Fin 1) (Fin 1) (Fin 1) (mknd [2; 1]%nat z) (mknd [2; 3]%nat z) (mknd [2; 3; 1]%nat z) (mknd [2; 3; 1]%nat z) z).
Proof.
  intros z. split.
  - intros W. apply (cov_step_works _ _ _ _ _ _ _ _ _ _ 2 3 1 1 3) in W; try reflexivity; lia.
  - apply (cov_step_works _ _ _ _ _ _ _ _ _ _ 2 3 1 2 3); try reflexivity; lia.
Qed.
