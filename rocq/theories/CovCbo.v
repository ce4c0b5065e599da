(** * CBO with covariance noise on whole arrays, unbatched, all runs active

    cbx/dynamics/cbo.py:40-50 with cbx/dynamics/pdyn.py:582-587, 936-968 and covariance noise
    (CovNoise.v).  Points are vectors (x.ndim = 3). *)
From Coq Require Import List Arith Bool Reals.
From Verif Require Import Scalar Np RVec Consensus Nd Cbo CovNoise.
Import ListNotations.
Open Scope nat_scope.

(** eval_f on all particles, pdyn.py:936-938: the objective on the last axis *)
Definition energies (f : vec -> fl R) (x : nd (fl R)) : nd (fl R) :=
  mknd (removelast (shape x)) (fun i => f (map (fun j => get x (i ++ [j])) (seq 0 (last (shape x) 0)))).

(** [.sum(axis=1, keepdims=True)] for three axes *)
Definition sum_axis1 (x : nd (fl R)) : res (nd (fl R)) :=
  match shape x with
  | [k; n; d] => Ok (mknd [k; 1; d] (fun i => match i with [a; _; c] => fsum (map (fun j => get x [a; j; c]) (seq 0 n)) | _ => NaN end))
  | _ => Err ShapeError
  end.
(** compute_consensus_default.__call__, pdyn.py:582-587 *)
Definition nd_consensus (alpha energy x : nd (fl R)) : res (nd (fl R)) :=
  co <- cbo_coeffs alpha energy ;; P <- lift2 fmul x (newaxis_last co) ;; sum_axis1 P.

(** step, pdyn.py:294-311, with inner_step = cbo_step; [pp] is the post-processing of one coordinate *)
Definition cov_cbo_step (f : vec -> fl R) ms (sampling : bool) (lamda dt sigma : fl R) (alpha : nd (fl R)) (pp : fl R -> fl R)
    (x : nd (fl R)) (z : list nat -> fl R) : res (nd (fl R)) :=
  c <- nd_consensus alpha (energies f x) x ;;
  dr <- lift2 fsub x c ;;
  x' <- cov_step ms sampling lamda dt sigma alpha (energies f x) x dr z ;;
  Ok (lift1 pp x').
