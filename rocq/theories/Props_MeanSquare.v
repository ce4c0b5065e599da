(** * C89: mean-square consensus over whole runs *)
From Coq Require Import List Arith Bool Reals Lra Lia.
From Verif Require Import Scalar Np State Pdyn Exec RVec ConsSpec PostProc Cbo CboSpec MomentSpec ExCbo MsSpec MsFacts ExMs.
Import ListNotations.
Open Scope R_scope.

(** C89. Unbatched CBO with isotropic or anisotropic noise from any reachable state.  If the draws have mean 0, variance v and are uncorrelated, the mean of the
    sum of all squared distances of the particles of a run after n steps is at most q^n times its value now,
    q = (1-lamda*dt)^2 + 2(N-1)*sigma^2*dt*v*D, D = d for isotropic and 1 for anisotropic noise; for every objective finite on finite points, for all changes of alpha
    between the steps and every post-processing that does not increase distances. *)
Theorem C89_decay : forall f k pp b partial cat ks save,
  let c := cbo_cfg f k pp NoCorr b partial cat ks save in
  forall Om (A : average Om) m d v la dt sg, finite_obj d f -> k <> NConst -> nonexpansive d pp -> 0 <= v ->
  forall n s log X, exec c s log -> finite_alpha s -> parameters la dt sg s -> b = s_N s -> ensemble_at s m d X ->
  mean_after A c m d v pair_spread n s (((1 - la * dt) ^ 2 + 2 * (INR (s_N s) - 1) * sg ^ 2 * dt * v * noise_dim k d) ^ n * pair_spread X).
Proof. exact spread_decay. Qed.
Print Assumptions C89_decay.

(** C89. So the probability that the spread is still e or more is at most q^n * spread / e. *)
Theorem C89_tail : forall f k pp b partial cat ks save,
  let c := cbo_cfg f k pp NoCorr b partial cat ks save in
  forall Om (A : average Om) m d v la dt sg e, finite_obj d f -> k <> NConst -> nonexpansive d pp -> 0 <= v -> 0 < e ->
  forall n s log X, exec c s log -> finite_alpha s -> parameters la dt sg s -> b = s_N s -> ensemble_at s m d X ->
  mean_after A c m d v (spread_at_least e) n s (((1 - la * dt) ^ 2 + 2 * (INR (s_N s) - 1) * sg ^ 2 * dt * v * noise_dim k d) ^ n * pair_spread X / e).
Proof. exact spread_tail. Qed.
Print Assumptions C89_tail.

(** C89. q < 1 exactly if 2(N-1)*D*sigma^2*v < 2*lamda - lamda^2*dt. *)
Theorem C89_factor : forall k d N la dt sg v, 0 < dt ->
  ((1 - la * dt) ^ 2 + 2 * (INR N - 1) * sg ^ 2 * dt * v * noise_dim k d < 1 <-> 2 * (INR N - 1) * noise_dim k d * sg ^ 2 * v < 2 * la - la ^ 2 * dt).
Proof. exact decay_factor. Qed.
Print Assumptions C89_factor.

Example C89_example : exists s, exec msc s [] /\ finite_obj 2 sqf /\ NIso <> NConst /\ nonexpansive 2 (fun p => p) /\ finite_alpha s /\ parameters 1 (1 / 10) (1 / 3) s /\ 3%nat = s_N s /\
  ensemble_at s 0 2 cX /\ In 0%nat (s_active s) /\ white_input walsh 0 2 1 s worc /\ between msc s s /\
  2 * (INR (s_N s) - 1) * noise_dim NIso 2 * (1 / 3) ^ 2 * 1 < 2 * 1 - 1 ^ 2 * (1 / 10).
Proof. exact ms_case. Qed.

(** C89. The default post-processing does not increase distances. *)
Theorem C89_default_post : forall d t, 0 <= t <= float_max -> nonexpansive d (pp_point t false).
Proof. exact clip_nonexpansive. Qed.
Print Assumptions C89_default_post.
