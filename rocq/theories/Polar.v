(** * Kernels and polarised consensus (cbx/dynamics/polarcbo.py) *)
From Coq Require Import List Arith Bool Reals.
From Verif Require Import Scalar Np RVec Consensus.
Import ListNotations.
Open Scope R_scope.

(** The kernel parameter kappa is a float, possibly +inf. *)

(** [np.true_divide(1, kappa)] *)
Definition finv (k : fl R) : fl R := fdiv (Fin 1) k.

(** [((x-y)**2).sum(...)] and [np.linalg.norm(x-y, axis=-1)] for two points with real
    coordinates *)
Definition sqdist (x y : list R) : R := sqnorm (vsub x y).
Definition dist (x y : list R) : R := vnorm (vsub x y).

(** [t ** np.inf] for t >= 0 (IEEE pow) *)
Definition pow_inf (t : fl R) : fl R :=
  match t with
  | Fin u => if Rltb u 1 then Fin 0 else if Rltb 1 u then PInf else Fin 1
  | PInf => PInf | NInf => PInf | NaN => NaN end.

(** Gaussian_kernel, polarcbo.py:50-83 *)
Definition gauss_neg_log (kappa : fl R) (x y : list R) : fl R :=
  fmul (finv (fmul (Fin 2) (fmul kappa kappa))) (Fin (sqdist x y)).
Definition gauss_call (kappa : fl R) (x y : list R) : fl R :=
  fexp (fmul (fopp (finv (fmul (Fin 2) (fmul kappa kappa)))) (Fin (sqdist x y))).

(** Laplace_kernel, polarcbo.py:85-102 *)
Definition laplace_neg_log (kappa : fl R) (x y : list R) : fl R := fmul (finv kappa) (Fin (dist x y)).
Definition laplace_call (kappa : fl R) (x y : list R) : fl R := fexp (fmul (fopp (finv kappa)) (Fin (dist x y))).

(** Constant_kernel, polarcbo.py:104-118 *)
Definition const_neg_log (kappa : fl R) (x y : list R) : fl R := pow_inf (fdiv (Fin (dist x y)) kappa).
Definition const_call (kappa : fl R) (x y : list R) : fl R := fexp (fopp (pow_inf (fdiv (Fin (dist x y)) kappa))).

(** InverseQuadratic_kernel, polarcbo.py:120-130 *)
Definition invquad_call (kappa : fl R) (x y : list R) : fl R :=
  let d := fmul (finv kappa) (Fin (dist x y)) in fdiv (Fin 1) (fadd (Fin 1) (fmul d d)).
Definition invquad_neg_log (kappa : fl R) (x y : list R) : fl R := fopp (flog (invquad_call kappa x y)).

Inductive kname : Type := KGauss | KLaplace | KConst | KInvQuad.
Definition kcall (k : kname) := match k with KGauss => gauss_call | KLaplace => laplace_call | KConst => const_call | KInvQuad => invquad_call end.
Definition kneg_log (k : kname) := match k with KGauss => gauss_neg_log | KLaplace => laplace_neg_log | KConst => const_neg_log | KInvQuad => invquad_neg_log end.

(** compute_polar_consensus for one run, polarcbo.py:145-150.  [nl] holds one row of
    neg_log_eval per particle; [kf] is kernel_factor() of the run. *)
Definition polar_coeffs (e : list (fl R)) (nlrow : list (fl R)) (a kf : fl R) : list (fl R) :=
  softmax (map2 (fun n ej => fsub (fmul (fopp kf) n) (fmul a ej)) nlrow e).
Definition cc_polar (e : list (fl R)) (x : list (list (fl R))) (nl : list (list (fl R))) (a kf : fl R) : list (list (fl R)) :=
  map (fun nlrow => wmean (polar_coeffs e nlrow a kf) x) nl.

(** [neg_log(x[:,None,...], x[:,:,None,...])] of one run, polarcbo.py:241: entry (i,j) is
    neg_log(x_j, x_i). *)
Definition nl_eval (neg_log : list R -> list R -> fl R) (X : list (list R)) : list (list (fl R)) :=
  map (fun xi => map (fun xj => neg_log xj xi) X) X.

(** Taz_kernel.neg_log, polarcbo.py:132-142: distances are divided by the largest distance in
    the whole array, i.e. over all runs.  [Xs] are the ensembles of the runs. *)
Definition taz_max (Xs : list (list (list R))) : R :=
  fold_right Rmax 0 (flat_map (fun X => flat_map (fun xi => map (fun xj => dist xj xi) X) X) Xs).
Definition taz_neg_log (kappa : fl R) (Xs : list (list (list R))) (x y : list R) : fl R :=
  let d := fdiv (fmul (finv kappa) (Fin (dist x y))) (Fin (taz_max Xs)) in fmul d d.
Definition taz_eval (kappa : fl R) (Xs : list (list (list R))) : list (list (list (fl R))) :=
  map (nl_eval (taz_neg_log kappa Xs)) Xs.
