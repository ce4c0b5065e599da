(** * C91: convexity and noise-free CBO *)
From Coq Require Import List Arith Bool Reals Lra Lia.
From Verif Require Import Scalar Np State Pdyn Exec RVec Consensus ConsSpec Cbo CboSpec ExCbo ProxSpec ConvSpec ConvFacts ExConv.
Import ListNotations.
Open Scope R_scope.

(** C91. A convex set that holds the particles of finite energy holds the consensus point; particles of energy +inf may lie outside. *)
Theorem C91_consensus_in : forall a E d X C, admissible a E -> ensemble (length E) d X -> convex_set d C ->
  (forall n e p, nth_error E n = Some (Fin e) -> nth_error X n = Some p -> C p) ->
  exists p, length p = d /\ cc_default E (map floats X) (Fin a) = [floats p] /\ C p.
Proof. exact consensus_in. Qed.
Print Assumptions C91_consensus_in.

(** Noise-free CBO with 0 <= lamda*dt <= 1: a convex set that the post-processing does not leave is never left by the particles of a run, with mini-batches, partial updates,
    inactive runs, termination checks, resets and changes of the parameters. *)
Theorem C91_invariant : forall f k pp b partial cat ks save (C : list R -> Prop) d, convex_set d C -> keeps_in C d pp -> finite_obj d f ->
  let c := cbo_cfg f k pp NoCorr b partial cat ks save in
  forall s log s' m, exec c s log -> finite_alpha s -> quiet s -> run_in C s m d -> quietly c d s s' -> run_in C s' m d.
Proof. exact convex_invariant. Qed.
Print Assumptions C91_invariant.

(** If the objective is quasi-convex then the largest energy of a run never grows. *)
Theorem C91_worst_energy : forall f k pp b partial cat ks save g d,
  let c := cbo_cfg f k pp NoCorr b partial cat ks save in
  quasiconvex d g -> objective_is d f g -> (forall q, length q = d -> exists p, pp (floats q) = floats p /\ length p = d /\ g p <= g q) ->
  forall s log s' m X r, exec c s log -> finite_alpha s -> quiet s -> ensemble_at s m d X -> (forall p, In p X -> g p <= r) -> quietly c d s s' ->
  exists Y, ensemble_at s' m d Y /\ forall p, In p Y -> g p <= r.
Proof. exact worst_energy. Qed.
Print Assumptions C91_worst_energy.
Example C91_worst_energy_example : quasiconvex 2 sqnorm /\ objective_is 2 sqf sqnorm /\ (forall p, In p cX -> sqnorm p <= 5) /\
  exists s s', exec qc s [] /\ finite_alpha s /\ quiet s /\ ensemble_at s 0 2 cX /\ run_in (fun p => sqnorm p <= 5) s 0 2 /\ step qc corc s = Ok s' /\ quietly qc 2 s s'.
Proof. split; [apply convex_quasi, sqnorm_convex|]. split; [apply sqf_objective|]. split; [exact cX_energy|exact conv_case]. Qed.

(** If the objective is convex then its value at the consensus is at most the Gibbs mean of the energies, ... *)
Theorem C91_jensen : forall d f g X a, objective_is d f g -> convex_fun d g -> X <> [] -> (forall p, In p X -> length p = d) ->
  exists p, length p = d /\ cc_default (map f (map floats X)) (map floats X) (Fin a) = [floats p] /\ g p <= gibbs_energy a (map g X).
Proof. exact consensus_jensen. Qed.
Print Assumptions C91_jensen.
(** ... which does not grow with alpha, ... *)
Theorem C91_gibbs_energy : forall a b E, E <> [] -> a <= b -> gibbs_energy b E <= gibbs_energy a E.
Proof. exact gibbs_energy_mono. Qed.
Print Assumptions C91_gibbs_energy.
(** ... hence for alpha >= 0 at most the average of the energies. *)
Theorem C91_average : forall d f g X a, objective_is d f g -> convex_fun d g -> X <> [] -> (forall p, In p X -> length p = d) -> 0 <= a ->
  exists p, length p = d /\ cc_default (map f (map floats X)) (map floats X) (Fin a) = [floats p] /\ g p <= Rsum (map g X) / INR (length X).
Proof. exact consensus_average. Qed.
Print Assumptions C91_average.
Example C91_average_example : objective_is 2 sqf sqnorm /\ convex_fun 2 sqnorm /\ cX <> [] /\ forall p, In p cX -> length p = 2%nat.
Proof. split; [apply sqf_objective|]. split; [apply sqnorm_convex|]. split; [discriminate|]. intros p [<-|[<-|[<-|[]]]]; auto. Qed.
(** Without convexity this fails: the value at the consensus may exceed every energy. *)
Theorem C91_convexity_needed : exists (f : vec -> fl R) g X a, objective_is 1 f g /\ 0 <= a /\ (forall p, In p X -> length p = 1%nat) /\
  exists p, cc_default (map f (map floats X)) (map floats X) (Fin a) = [floats p] /\ forall x, In x X -> g x < g p.
Proof. exact consensus_above. Qed.
Print Assumptions C91_convexity_needed.
(** For a quasi-convex objective the value at the consensus is at most the largest energy. *)
Theorem C91_quasi : forall d f g X a r, objective_is d f g -> quasiconvex d g -> X <> [] -> (forall p, In p X -> length p = d /\ g p <= r) ->
  exists p, length p = d /\ cc_default (map f (map floats X)) (map floats X) (Fin a) = [floats p] /\ g p <= r.
Proof. exact consensus_quasi. Qed.
Print Assumptions C91_quasi.
Example C91_quasi_example : quasiconvex 1 (fun p => Rmin 1 (Rabs (coord 0 p))).
Proof. exact steep_quasi. Qed.
