(** * The mirror maps (cbx/dynamics/mirrorcbo.py:49-237)

    NumPy applies the maps to the whole (M,N,d) array, the last axis holding the coordinates of a particle;
    here they act on one particle.  The parameters are finite numbers; a parameter delta, lamda or radius
    equal to 0 makes Python raise ZeroDivisionError and is not modelled. *)
From Coq Require Import List Arith Reals.
From Verif Require Import Scalar Np Consensus PostProc RVec Cbo MatSqrt.
Import ListNotations.
Open Scope R_scope.

(** [np.sign] *)
Definition fsign (a : fl R) : fl R :=
  match a with
  | Fin x => if Rltb 0 x then Fin 1 else if Rltb x 0 then Fin (-1) else Fin 0
  | PInf => Fin 1 | NInf => Fin (-1) | NaN => NaN end.

(** A parameter array broadcast along the coordinates: one entry stands for all of them (a scalar centre, the
    default normal [np.ones((1,1,1))]). *)
Definition along (d : nat) (a : list R) : list R := match a with [v] => repeat v d | _ => a end.

(** [np.argmax]: the first maximum (the first NaN if there is one) *)
Definition argmax (l : list (fl R)) : nat := match argmin (map fopp l) with Ok (i, _) => i | Err _ => 0%nat end.
(** [a[i] = v] *)
Definition assign (i : nat) (v : fl R) (l : vec) : vec := mapi (fun j a => if Nat.eqb j i then v else a) l.

Inductive mirror_map : Type :=
| ElasticNet (delta lamda : R)
| L2 (lamda : R)
| ProjectionBall (radius : R) (center : list R)
| ProjectionHyperplane (a : list R) (b : R)
| ProjectionSphere (r : R)
| ProjectionSquare (r : R)
(** np.linalg.svd(full_matrices=False) is external: [svd y] is (U, Vh) for the matrix y *)
| ProjectionStiefel (n k : nat) (svd : vec -> mat * mat)
| LogBarrierBox
| NonsmoothBarrier
| Entropy
| EntropySimplex.

(** np.finfo(np.float32).eps and 1e-32 *)
Definition float32_eps : R := / 2 ^ 23.
Definition simplex_floor : R := / 10 ^ 32.

(** MirrorMap.grad: ProjectionMirrorMap 50-51, LogBarrierBox 124-125, NegativeLogEntropySimplex 137-139, L2
    153-154, NonsmoothBarrier 192-193, ElasticNet 217-218, Entropy 231-233 *)
Definition mm_grad (m : mirror_map) (x : vec) : vec :=
  match m with
  | ElasticNet delta lamda => map (fun t => fadd (fmul (fdiv (Fin 1) (Fin delta)) t) (fmul (Fin lamda) (fsign t))) x
  | L2 lamda => map (fmul (Fin lamda)) x
  | LogBarrierBox => map (fun t => fsub (fdiv (Fin 1) (fsub (Fin 1) t)) (fdiv (Fin 1) (fadd (Fin 1) t))) x
  | NonsmoothBarrier =>
      map (fun t => fdiv (fsign t) (fsub (fadd (Fin 1) (fmul (fabs t) (fabs t))) (fmul (Fin 2) (fabs t)))) x
  | Entropy => map (fun t => fsub (flog (fdiv (Fin 1) (fadd t (Fin float32_eps)))) (Fin 1)) x
  | EntropySimplex => map (fun t => fadd (flog (fmax t (Fin simplex_floor))) (Fin 1)) x
  | _ => x
  end.

(** MirrorMap.grad_conj: ProjectionBall 70-72, ProjectionHyperplane 83-84, ProjectionSphere 91-92,
    ProjectionSquare 98-104, ProjectionStiefel 112-116, LogBarrierBox 127-128, NegativeLogEntropySimplex 141-142,
    L2 156-157, NonsmoothBarrier 195-196, ElasticNet 220-221, Entropy 235-236 *)
Definition mm_conj (m : mirror_map) (y : vec) : vec :=
  match m with
  | ElasticNet delta lamda => map (fun t => fmul (fmul (Fin delta) (fsign t)) (fmax (fsub (fabs t) (Fin lamda)) (Fin 0))) y
  | L2 lamda => map (fmul (fdiv (Fin 1) (Fin lamda))) y
  | ProjectionBall radius center =>
      let c := map Fin (along (length y) center) in
      let u := map2 fsub y c in
      let q := fmax (Fin 1) (fdiv (fnorm u) (Fin radius)) in
      map2 fadd c (map (fun a => fdiv a q) u)
  | ProjectionHyperplane a b =>
      let w := map Fin (along (length y) a) in
      let t := fdiv (fsub (fsum (map2 fmul w y)) (Fin b)) (Fin (sqnorm a)) in
      map2 fsub y (map (fmul t) w)
  | ProjectionSphere r => map (fun a => fdiv (fmul (Fin r) a) (fnorm y)) y
  | ProjectionSquare r =>
      let z := map (np_clip (Fin (- r)) (Fin r)) y in
      let i := argmax (map fabs z) in
      assign i (fsign (nth i z NaN)) z
  | ProjectionStiefel n k svd =>
      let '(U, Vh) := svd y in
      map (fun i => Fin (mmul (Nat.min n k) U Vh (i / k)%nat (i mod k)%nat)) (seq 0 (n * k))
  | LogBarrierBox => map (fun t => fadd (fdiv (Fin (-1)) t) (fmul (fdiv (Fin 1) t) (fsqrt (fadd (Fin 1) (fmul t t))))) y
  | NonsmoothBarrier => map (fun t => fmul (fsign t) (fmax (fsub (Fin 1) (fsqrt (fdiv (Fin 1) (fabs t)))) (Fin 0))) y
  | Entropy => map (fun t => fexp (fopp (fadd t (Fin 1)))) y
  | EntropySimplex => let s := fsum (map fexp y) in map (fun t => fdiv (fexp t) s) y
  end.
