(** * C119: the kernels of PolarCBO, their documentation, and which kernel is in use *)
From Coq Require Import String List Arith Bool Reals.
From Verif Require Import Scalar Np RVec Consensus Polar PolarObj PolarDocSpec PolarDocFacts.
Import ListNotations.
Open Scope R_scope.
Open Scope list_scope.

(** C119. The Gaussian and the Laplace kernel are the documented functions of the distance. *)
Theorem C119_gaussian : forall kappa x y, 0 < kappa -> kcall KGauss (Fin kappa) x y = Fin (doc_gaussian kappa (dist x y)).
Proof. exact gauss_doc. Qed.
Print Assumptions C119_gaussian.
Theorem C119_laplace : forall kappa x y, 0 < kappa -> kcall KLaplace (Fin kappa) x y = Fin (doc_laplace kappa (dist x y)).
Proof. exact laplace_doc. Qed.
Print Assumptions C119_laplace.

(** C119. The constant kernel is 1 within the distance kappa, exp(-1) at the distance kappa and 0 beyond. *)
Theorem C119_constant : forall kappa x y, 0 < kappa ->
  (dist x y < kappa -> kcall KConst (Fin kappa) x y = Fin doc_constant_inside) /\
  (dist x y = kappa -> kcall KConst (Fin kappa) x y = Fin (exp (- (1)))) /\
  (kappa < dist x y -> kcall KConst (Fin kappa) x y = Fin 0).
Proof. exact const_doc. Qed.
Print Assumptions C119_constant.
(** C119, refuted: the documented value 1 for all distances up to and including kappa. *)
Theorem C119_constant_refuted : exists kappa x y, 0 < kappa /\ dist x y <= kappa /\ kcall KConst (Fin kappa) x y <> Fin doc_constant_inside.
Proof. exact const_boundary. Qed.
Print Assumptions C119_constant_refuted.

(** C119. The inverse quadratic kernel is 1/(1+(r/kappa)^2); this is the documented function only for kappa = 1 or r = 0. *)
Theorem C119_inverse_quadratic : forall kappa x y, 0 < kappa ->
  kcall KInvQuad (Fin kappa) x y = Fin (1 / (1 + (dist x y / kappa) ^ 2)) /\
  (kcall KInvQuad (Fin kappa) x y = Fin (doc_inverse_quadratic kappa (dist x y)) <-> kappa = 1 \/ dist x y = 0).
Proof. exact inv_doc. Qed.
Print Assumptions C119_inverse_quadratic.
Theorem C119_inverse_quadratic_refuted : exists kappa x y, 0 < kappa /\
  kcall KInvQuad (Fin kappa) x y <> Fin (doc_inverse_quadratic kappa (dist x y)).
Proof. exact inv_wrong. Qed.
Print Assumptions C119_inverse_quadratic_refuted.

(** C119. For every kernel, -log of the kernel does not decrease with the distance and does not increase with kappa. *)
Theorem C119_monotone : forall k k1 k2 x y u v, 0 < k1 -> k1 <= k2 -> dist x y <= dist u v ->
  at_most (kneg_log k (Fin k2) x y) (kneg_log k (Fin k1) u v).
Proof. exact nl_monotone. Qed.
Print Assumptions C119_monotone.

(** C119. In the consensus of particle i, of two particles the one that is at least as near and at least as good weighs at
    least as much. *)
Theorem C119_weights : forall k kappa a kf E X xi row i j l xj xl ej el wj wl, 0 < kappa -> 0 <= a -> 0 < kf -> length X = length E ->
  (forall e, In e E -> (exists y, e = Fin y) \/ (e = PInf /\ 0 < a)) ->
  nth_error X i = Some xi -> (exists y, nth_error E i = Some (Fin y)) -> row = map (fun x => kneg_log k (Fin kappa) x xi) X ->
  nth_error X j = Some xj -> nth_error X l = Some xl -> nth_error E j = Some (Fin ej) -> nth_error E l = Some (Fin el) ->
  nth_error (polar_coeffs E row (Fin a) (Fin kf)) j = Some wj -> nth_error (polar_coeffs E row (Fin a) (Fin kf)) l = Some wl ->
  ej <= el -> dist xj xi <= dist xl xi -> at_most wl wj.
Proof. exact weight_order. Qed.
Print Assumptions C119_weights.
Example C119_weights_case : exists xi xj xl : list R, let X := [xi; xj; xl] in let E := map Fin [0; 1; 2] in
  dist xj xi <= dist xl xi /\ length X = length E /\ (forall e, In e E -> (exists y, e = Fin y) \/ (e = PInf /\ 0 < 1)) /\ dist xl xi = 2.
Proof. exact ex_weights. Qed.

(** C119. kappa = 0 is accepted and makes every weight of every particle NaN, for every kernel, energy and parameter. *)
Theorem C119_kappa_zero : forall k a kf E X i xi row w, length X = length E -> nth_error X i = Some xi ->
  row = map (fun x => kneg_log k (Fin 0) x xi) X -> In w (polar_coeffs E row a kf) -> w = NaN.
Proof. exact zero_weights. Qed.
Print Assumptions C119_kappa_zero.

(** C119. A kernel chosen by name keeps the kappa that the object had when set_kernel was called, whatever else happens to
    kappa and to the mode afterwards; dyn.kappa is the value assigned last. *)
Theorem C119_kernel_in_use : forall o pre s c post, lookup s kernel_dict = Some c -> forallb (fun p => negb (replaces p)) post = true ->
  po_kernel (prun o (pre ++ PKernel (AName s) :: post)) = KShipped c (last_kappa (po_kappa o) pre) /\
  po_kappa (prun o (pre ++ PKernel (AName s) :: post)) = last_kappa (last_kappa (po_kappa o) pre) post.
Proof. exact kernel_in_use. Qed.
Print Assumptions C119_kernel_in_use.
Theorem C119_constructed_kernel : forall s c kappa mode l o, lookup s kernel_dict = Some c -> construct (AName s) kappa mode = Ok o ->
  forallb (fun p => negb (replaces p)) l = true ->
  po_kernel (prun o l) = KShipped c kappa /\ po_kappa (prun o l) = last_kappa kappa l.
Proof. exact constructed_kernel. Qed.
Print Assumptions C119_constructed_kernel.
(** C119, refuted: assigning dyn.kappa changes the kernel. *)
Theorem C119_kappa_refuted : exists o, construct (AName "Gaussian") (Fin 1) "alpha" = Ok o /\
  po_kappa (prun o [PKappa (Fin 2)]) = Fin 2 /\ po_kernel (prun o [PKappa (Fin 2)]) = KShipped Gaussian (Fin 1).
Proof. exact kappa_has_no_effect. Qed.
Print Assumptions C119_kappa_refuted.

(** C119. The names Gaussian, Laplace, Constant, InverseQuadratic and Taz, and no others, are accepted, and each gives the kernel of its name. *)
Theorem C119_names : forall s kappa mode k, (exists o, construct (AName s) kappa mode = Ok o /\ po_kernel o = k) <->
  (s = "Gaussian" /\ k = KShipped Gaussian kappa) \/ (s = "Laplace" /\ k = KShipped Laplace kappa) \/ (s = "Constant" /\ k = KShipped Constant kappa) \/
  (s = "InverseQuadratic" /\ k = KShipped InverseQuadratic kappa) \/ (s = "Taz" /\ k = KShipped Taz kappa).
Proof. exact kernel_names. Qed.
Print Assumptions C119_names.

(** C119. Unknown names raise ValueError and leave the object as it was; an unknown mode is accepted by the constructor and
    raises in every consensus. *)
Theorem C119_unknown_name : forall s, (forall c, ~ In (s, c) kernel_dict) ->
  (forall kappa mode, construct (AName s) kappa mode = Err ValueError) /\
  (forall o, set_kernel (AName s) o = Err ValueError /\ papply o (PKernel (AName s)) = o).
Proof. exact unknown_name. Qed.
Print Assumptions C119_unknown_name.
Theorem C119_modes : forall a kappa m k, kernel_for kappa a = Ok k -> exists o, construct a kappa m = Ok o /\ forall alpha,
  (m = "const"%string -> kernel_factor_of o alpha = Ok (Fin 1)) /\ (m = "alpha"%string -> kernel_factor_of o alpha = Ok alpha) /\
  (m <> "const"%string -> m <> "alpha"%string -> kernel_factor_of o alpha = Err NotImplemented).
Proof. exact modes. Qed.
Print Assumptions C119_modes.
(** C119, refuted: in the mode 'alpha' the factor is not the documented kappa. *)
Theorem C119_alpha_mode_refuted : exists o alpha, construct (AName "Gaussian") (Fin 1) "alpha" = Ok o /\
  kernel_factor_of o alpha = Ok (Fin 10) /\ po_kappa o = Fin 1.
Proof. exact alpha_mode_wrong. Qed.
Print Assumptions C119_alpha_mode_refuted.
