(** * The functions and Hessians of the mirror maps (cbx/dynamics/mirrorcbo.py)

    On one particle, with the maps of [MirrorMaps.v]. *)
From Coq Require Import List Arith Bool Reals.
From Verif Require Import Scalar Np Consensus ConsSpec PostProc RVec Cbo MatSqrt MirrorMaps.
Import ListNotations.
Open Scope R_scope.

(** the summand of NonsmoothBarrier, 189 *)
Definition nb_term (t : fl R) : fl R := fdiv (fabs t) (fsub (Fin 1) (fabs t)).

(** __call__: ProjectionBall 62-67 (thresh 1e-5, the centre is not used), LogBarrierBox 121-122, L2 149-150, NonsmoothBarrier 188-189 (for
    a single particle, see [nb_array]), ElasticNet 214-215, Entropy 228-229 (scale is not used).  None: NotImplementedError, 33-34. *)
Definition mm_call (m : mirror_map) (x : vec) : option (fl R) :=
  match m with
  | ElasticNet delta lamda => Some (fadd (fmul (fdiv (Fin 1) (fmul (Fin 2) (Fin delta))) (fsum (map (fun t => fmul t t) x))) (fmul (Fin lamda) (fsum (map fabs x))))
  | L2 lamda => Some (fmul (fmul (Fin lamda) (Fin (1 / 2))) (fsum (map (fun t => fmul t t) x)))
  | ProjectionBall radius center =>
      let n := fnorm x in
      Some (if fltb (Fin (radius + / 10 ^ 5)) n then PInf else fmul (Fin (1 / 2)) (fmul n n))
  | LogBarrierBox => Some (fsum (map (fun t => fadd (flog (fdiv (Fin 1) (fsub (Fin 1) t))) (flog (fdiv (Fin 1) (fadd (Fin 1) t)))) x))
  | NonsmoothBarrier => Some (fsum (map nb_term x))
  | Entropy => Some (fsum (map (fun t => fmul t (flog (fdiv (Fin 1) t))) x))
  | _ => None
  end.

(** NonsmoothBarrier.__call__ of an array of particles, 188-189: np.sum without axis, one number for all of them *)
Definition nb_array (xs : list vec) : fl R := fsum (map nb_term (concat xs)).

(** Bregman_distance, 12-13 and 45-46 *)
Definition slope (m : mirror_map) (p q : vec) : fl R := fsum (map2 fmul (mm_grad m q) (map2 fsub p q)).
Definition bregman (m : mirror_map) (p q : vec) : option (fl R) :=
  match mm_call m p, mm_call m q with
  | Some a, Some b => Some (fsub (fsub a b) (slope m p q))
  | _, _ => None
  end.
(** the same of NonsmoothBarrier on arrays of particles: one value per particle *)
Definition nb_bregman (ps qs : list vec) : list (fl R) :=
  map2 (fun p q => fsub (fsub (nb_array ps) (nb_array qs)) (slope NonsmoothBarrier p q)) ps qs.

(** hessian of one row of a 2-D array: LogBarrierBox 130-132, L2 158-160, NonsmoothBarrier 197-204 (the denominator is written with powers).
    None: NotImplementedError.  For the (M,N,d) arrays of the dynamics, which never call it, [n,m = theta.shape] raises ValueError. *)
Definition diag (l : vec) (i j : nat) : fl R := fmul (nth j l NaN) (Fin (if Nat.eqb i j then 1 else 0)).
Definition mm_hess (m : mirror_map) (x : vec) : option (nat -> nat -> fl R) :=
  match m with
  | L2 lamda => Some (diag (map (fun _ => Fin 1) x))
  | LogBarrierBox => Some (diag (map (fun t => let a := fdiv (Fin 1) (fsub (Fin 1) t) in let b := fdiv (Fin 1) (fadd (Fin 1) t) in fadd (fmul a a) (fmul b b)) x))
  | NonsmoothBarrier =>
      Some (diag (map (fun t => let a := fabs t in let a2 := fmul a a in
        fdiv (fadd (fmul (Fin (-2)) a) (Fin 2))
             (fadd (fadd (fadd (fsub (fmul (Fin (-4)) a) (fmul (Fin 4) (fmul a2 a))) (fmul a2 a2)) (fmul (Fin 6) a2)) (Fin 1))) x))
  | _ => None
  end.

(** weighted_L2 (164-183) of one row of a 2-D array, finite coordinates; [A] is d x d: __call__ 171-172 (a single point), grad 174-175,
    grad_conj 177-179, hessian 182-183 *)
Definition wl2_call (A : mat) (x : list R) : R :=
  let d := length x in 1 / 2 * msum d (fun j => msum d (fun i => coord i x * A i j) * coord j x).
Definition wl2_grad (A : mat) (x : list R) : list R :=
  let d := length x in map (fun i => msum d (fun j => 1 / 2 * (A i j + A j i) * coord j x)) (seq 0 d).
Definition wl2_conj (A : mat) (y : list R) : list R := y.
Definition wl2_hess (A : mat) : mat := fun i j => 1 / 2 * (A j i + A i j).
