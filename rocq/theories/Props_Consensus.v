(** * C29-C32: the weighted mean *)
From Coq Require Import List Arith Reals Permutation.
From Verif Require Import Scalar Np RVec Consensus ConsSpec ConsFacts ExCons.
Import ListNotations.
Open Scope R_scope.

(** C29. compute_consensus_default returns the Gibbs mean. *)
Theorem C29_gibbs_mean : forall a E d X, admissible a E -> ensemble (length E) d X ->
  cc_default E (map floats X) (Fin a) = [floats (gibbs_point a E d X)].
Proof. exact consensus_gibbs. Qed.
Print Assumptions C29_gibbs_mean.

(** C29. The weights sum to one, are positive for finite energies and zero for +inf, and are
    ordered against the energies. *)
Theorem C29_weights : forall a E, admissible a E -> exists ws,
  coeffs E (Fin a) = map Fin ws /\ length ws = length E /\ Rsum ws = 1 /\
  (forall n e w, nth_error E n = Some e -> nth_error ws n = Some w ->
     match e with Fin _ => 0 < w | _ => w = 0 end) /\
  (forall n k e1 e2 w1 w2, 0 < a -> nth_error E n = Some (Fin e1) -> nth_error E k = Some (Fin e2) ->
     nth_error ws n = Some w1 -> nth_error ws k = Some w2 -> e1 < e2 -> w2 < w1).
Proof. exact weights_spec. Qed.
Print Assumptions C29_weights.

(** C29. The optional coefficient check never raises. *)
Theorem C29_check_never_raises : forall a E, admissible a E -> check_raises (coeffs E (Fin a)) = false.
Proof. exact check_never_raises. Qed.
Print Assumptions C29_check_never_raises.

(** C29. If all energies are +inf every coordinate of the consensus is NaN (the hypothesis that
    one energy is finite is needed). *)
Theorem C29_all_infinite : forall a E x c, 0 < a -> (forall e, In e E -> e = PInf) ->
  length x = length E -> (1 <= length E)%nat -> In c (cc_default E x (Fin a)) -> forall v, In v c -> v = NaN.
Proof. exact consensus_all_infinite. Qed.
Print Assumptions C29_all_infinite.

Example C29_example : admissible 2 exE /\ ensemble (length exE) 2 exX /\ nth_error exE 2 = Some PInf.
Proof. split; [apply exE_adm, Rlt_0_2|split; [exact exX_ens|reflexivity]]. Qed.

(** C30. Every linear inequality satisfied by the particles of finite energy holds for the
    consensus. *)
Theorem C30_hull : forall a E d X v b, admissible a E -> ensemble (length E) d X -> length v = d ->
  (forall n e p, nth_error E n = Some (Fin e) -> nth_error X n = Some p -> dot v p <= b) ->
  exists c, cc_default E (map floats X) (Fin a) = [floats c] /\ length c = d /\ dot v c <= b.
Proof.
  exact (fun a E d X v b HA HX Hv H => ex_intro _ (gibbs_point a E d X)
    (conj (consensus_gibbs a E d X HA HX) (conj (gibbs_point_length a E d X) (hull a E d X v b HA HX Hv H)))).
Qed.
Print Assumptions C30_hull.

(** C30. Coordinate-wise bounds. *)
Theorem C30_box : forall a E d X i lo hi, admissible a E -> ensemble (length E) d X -> (i < d)%nat ->
  (forall p, In p X -> lo <= coord i p <= hi) ->
  exists c, cc_default E (map floats X) (Fin a) = [floats c] /\ length c = d /\ lo <= coord i c <= hi.
Proof.
  exact (fun a E d X i lo hi HA HX Hi H => ex_intro _ (gibbs_point a E d X)
    (conj (consensus_gibbs a E d X HA HX) (conj (gibbs_point_length a E d X) (hull_coord a E d X i lo hi HA HX Hi H)))).
Qed.
Print Assumptions C30_box.

(** C30. Coinciding particles. *)
Theorem C30_single : forall a E d X p, admissible a E -> ensemble (length E) d X -> length p = d ->
  (forall q, In q X -> q = p) -> cc_default E (map floats X) (Fin a) = [floats p].
Proof.
  exact (fun a E d X p HA HX Hp H => eq_trans (consensus_gibbs a E d X HA HX)
    (f_equal (fun c => [floats c]) (hull_single a E d X p HA HX Hp H))).
Qed.
Print Assumptions C30_single.

Example C30_example : (forall p, In p exX -> 0 <= coord 0 p <= 100) /\ admissible 2 exE /\
  (forall q, In q [[1; 2]; [1; 2]] -> q = [1; 2]).
Proof.
  split; [|split; [apply exE_adm, Rlt_0_2|]].
  - intros p [<-|[<-|[<-|[<-|[]]]]]; unfold coord; cbn; Lra.lra.
  - intros q [<-|[<-|[]]]; reflexivity.
Qed.

(** C31. Adding a constant to all energies. *)
Theorem C31_shift : forall a E k d X, admissible a E -> ensemble (length E) d X ->
  cc_default (map (fun e => fadd e (Fin k)) E) (map floats X) (Fin a) = cc_default E (map floats X) (Fin a).
Proof. exact shift_invariant. Qed.
Print Assumptions C31_shift.

(** C31. Permuting the particles together with their energies. *)
Theorem C31_permutation : forall a E E' d X X', admissible a E -> ensemble (length E) d X -> ensemble (length E') d X' ->
  Permutation (combine E X) (combine E' X') ->
  cc_default E' (map floats X') (Fin a) = cc_default E (map floats X) (Fin a).
Proof. exact perm_invariant. Qed.
Print Assumptions C31_permutation.

(** C31. Affine maps of the particles (translations: A the identity; linear maps: t = 0). *)
Theorem C31_affine : forall a E d X A t, admissible a E -> ensemble (length E) d X ->
  (forall r, In r A -> length r = d) -> length t = length A ->
  exists c, cc_default E (map floats X) (Fin a) = [floats c] /\
    cc_default E (map floats (map (affine A t) X)) (Fin a) = [floats (affine A t c)].
Proof.
  exact (fun a E d X A t HA HX Hr Ht => ex_intro _ (gibbs_point a E d X)
    (conj (consensus_gibbs a E d X HA HX) (affine_equivariant a E d X A t HA HX Hr Ht))).
Qed.
Print Assumptions C31_affine.

(** C31. alpha = 0 gives the arithmetic mean. *)
Theorem C31_alpha_zero : forall E d X, admissible 0 E -> ensemble (length E) d X ->
  cc_default E (map floats X) (Fin 0) =
  [floats (map (fun i => Rsum (map (coord i) X) / INR (length X)) (seq 0 d))].
Proof.
  exact (fun E d X HA HX => eq_trans (consensus_gibbs 0 E d X HA HX) (f_equal (fun c => [floats c]) (alpha_zero E d X HA HX))).
Qed.
Print Assumptions C31_alpha_zero.

(** C31. compute_consensus_rescale gives the same point. *)
Theorem C31_rescale : forall a E d X, admissible a E -> ensemble (length E) d X ->
  cc_rescale E (map floats X) (Fin a) = cc_default E (map floats X) (Fin a).
Proof. exact rescale_same. Qed.
Print Assumptions C31_rescale.

Example C31_example : admissible 2 exE /\ ensemble (length exE) 2 exX /\ admissible 0 [Fin 3; Fin 1; Fin 2; Fin 2] /\
  Permutation (combine [Fin 1; PInf] [[5]; [6]]) (combine [PInf; Fin 1] [[6]; [5]]).
Proof. split; [apply exE_adm, Rlt_0_2|split; [exact exX_ens|split; [exact exE0_adm|apply perm_swap]]]. Qed.

(** C32. The weight of a particle decays exponentially in its energy excess. *)
Theorem C32_weight_bound : forall a E n e es w, 0 <= a -> admissible a E ->
  In (Fin es) E -> nth_error E n = Some (Fin e) ->
  nth_error (coeffs E (Fin a)) n = Some (Fin w) -> w <= exp (- a * (e - es)).
Proof. exact weight_bound. Qed.
Print Assumptions C32_weight_bound.

(** C32. Distance of the consensus from the best particle [k], all others having an energy at
    least [g] larger. *)
Theorem C32_distance : forall a E d X k es ps i g D, 0 <= a -> admissible a E -> ensemble (length E) d X -> (i < d)%nat ->
  nth_error E k = Some (Fin es) -> nth_error X k = Some ps -> 0 <= D ->
  (forall n e, n <> k -> nth_error E n = Some (Fin e) -> es + g <= e) ->
  (forall p, In p X -> Rabs (coord i p - coord i ps) <= D) ->
  exists c, cc_default E (map floats X) (Fin a) = [floats c] /\
    Rabs (coord i c - coord i ps) <= D * (INR (length E) - 1) * exp (- a * g).
Proof.
  exact (fun a E d X k es ps i g D Ha HA HX Hi HE HP HD Hg Hd => ex_intro _ (gibbs_point a E d X)
    (conj (consensus_gibbs a E d X HA HX) (laplace_bound a E d X k es ps i g D Ha HA HX Hi HE HP HD Hg Hd))).
Qed.
Print Assumptions C32_distance.

(** C32. Convergence to the unique best particle as alpha grows. *)
Theorem C32_limit : forall E d X k es ps i, (forall e, In e E -> (exists x, e = Fin x) \/ e = PInf) ->
  ensemble (length E) d X -> (i < d)%nat ->
  nth_error E k = Some (Fin es) -> nth_error X k = Some ps ->
  (forall n e, n <> k -> nth_error E n = Some (Fin e) -> es < e) ->
  forall eps, 0 < eps -> exists A, forall a, A <= a -> exists c,
    cc_default E (map floats X) (Fin a) = [floats c] /\ Rabs (coord i c - coord i ps) < eps.
Proof. exact laplace_limit_cc. Qed.
Print Assumptions C32_limit.

Example C32_example : admissible 2 exE /\ nth_error exE 1 = Some (Fin 1) /\ nth_error exX 1 = Some [2; 5] /\
  (forall n e, n <> 1%nat -> nth_error exE n = Some (Fin e) -> 1 + 1 <= e) /\
  (forall p, In p exX -> Rabs (coord 0 p - coord 0 [2; 5]) <= 98).
Proof. split; [apply exE_adm, Rlt_0_2|split; [reflexivity|split; [reflexivity|split; [exact exE_unique|exact exX_diam]]]]. Qed.
