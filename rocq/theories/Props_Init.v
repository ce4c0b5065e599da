(** * C96: initial particles; the torch post-processing *)
From Coq Require Import List String Arith Bool Reals ZArith Lra.
From Verif Require Import Scalar Np Nd RVec MatSqrt MatSpec MomentSpec PostProc Objective ParticleInit ParticleInitSpec ParticleInitFacts ExMoment ExInit.
Import ListNotations.
Open Scope R_scope.
Open Scope string_scope.
Open Scope list_scope.

(** C96. "uniform" never raises, gives exactly the requested shape (any number of axes) and values between x_min and x_max, also when they are swapped. *)
Theorem C96_uniform : forall svd U Z shp lo hi delta, exists x, init_particles svd U Z shp lo hi delta "uniform" = Ok x /\ shape x = shp /\
  (in_unit U -> forall i, (lo < hi -> lo <= get x i < hi) /\ (lo = hi -> get x i = lo) /\ (hi < lo -> hi < get x i <= lo)).
Proof. exact uniform_arr. Qed.
Print Assumptions C96_uniform.
Theorem C96_uniform_moments : forall Om (A : average Om) svd U Z shp lo hi delta x, flat A U -> (forall w, init_particles svd (U w) (Z w) shp lo hi delta "uniform" = Ok (x w)) ->
  forall i, mean_is A (fun w => get (x w) i) ((lo + hi) / 2) /\ mean_is A (fun w => (get (x w) i - (lo + hi) / 2) ^ 2) ((hi - lo) ^ 2 / 12).
Proof. exact uniform_moments. Qed.
Print Assumptions C96_uniform_moments.
Example C96_flat : flat fair two_values /\ forall w, in_unit (two_values w).
Proof. exact two_flat. Qed.

(** "normal" takes shapes (M,N,d) and (N,d) - the latter gets a run axis, which "uniform" does not add - and raises for all others; each particle is the vector of
    draws, turned by an orthogonal matrix and scaled by |delta|. *)
Theorem C96_normal : forall svd U Z shp lo hi delta, svd_ok svd delta ->
  match shp with
  | [_; _; _] | [_; _] => exists x M N d, init_particles svd U Z shp lo hi delta "normal" = Ok x /\ shape x = [M; N; d] /\ (shp = [M; N; d] \/ M = 1%nat /\ shp = [N; d]) /\
      exists v : mat, meq d (mmul d v (mtr v)) mid /\ meq d (mmul d (mtr v) v) mid /\
      forall m n j, (m < M)%nat -> (n < N)%nat -> (j < d)%nat -> get x [m; n; j] = Rabs delta * msum d (fun k => Z [m; n; k] * v k j)
  | _ => init_particles svd U Z shp lo hi delta "normal" = Err RuntimeErr
  end.
Proof. exact normal_arr. Qed.
Print Assumptions C96_normal.
(** Its entries have mean 0 and variance delta^2 and are uncorrelated, across coordinates, particles and runs. *)
Theorem C96_normal_moments : forall Om (A : average Om) svd U Z shp lo hi delta x M N d, svd_ok svd delta -> standard A [M; N; d] Z ->
  (forall w, init_particles svd (U w) (Z w) shp lo hi delta "normal" = Ok (x w)) -> (shp = [M; N; d] \/ M = 1%nat /\ shp = [N; d]) ->
  forall m n m' n' i j, (m < M)%nat -> (n < N)%nat -> (m' < M)%nat -> (n' < N)%nat -> (i < d)%nat -> (j < d)%nat ->
  mean_is A (fun w => get (x w) [m; n; i]) 0 /\
  mean_is A (fun w => get (x w) [m; n; i] * get (x w) [m'; n'; j]) (if list_eq_dec Nat.eq_dec [m; n; i] [m'; n'; j] then delta ^ 2 else 0).
Proof. exact normal_moments. Qed.
Print Assumptions C96_normal_moments.
Example C96_svd : forall delta, svd_ok id_svd delta.
Proof. exact id_svd_ok. Qed.
Example C96_standard : standard sign_avg [1; 1; 2]%nat sign_draws.
Proof. exact signs_standard. Qed.

Theorem C96_unknown : forall svd U Z shp lo hi delta meth, meth <> "uniform" -> meth <> "normal" -> init_particles svd U Z shp lo hi delta meth = Err RuntimeErr.
Proof. exact unknown_method. Qed.
Print Assumptions C96_unknown.

(** A dynamic started from either method has M runs of N particles in dimension d (one run for a shape (N,d)). *)
Theorem C96_ensemble : forall svd U Z shp lo hi delta meth x M N d M0 N0 d0 gen, init_particles svd U Z shp lo hi delta meth = Ok x ->
  (shp = [M; N; d] \/ M = 1%nat /\ shp = [N; d]) -> exists X, init_x (Some x) M0 N0 d0 gen = Ok (X, M, N, [d]) /\ shape X = [M; N; d].
Proof. exact init_ensemble. Qed.
Print Assumptions C96_ensemble.
Theorem C96_own : forall U M N d, shape (own_particles U M N d) = [M; N; d] /\ (in_unit U -> forall i, -1 <= get (own_particles U M N d) i < 1).
Proof. exact own_arr. Qed.
Print Assumptions C96_own.
