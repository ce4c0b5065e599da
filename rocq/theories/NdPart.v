(** * Particles of any shape: ensembles of shape (M, N, d1, ..., dq)

    The default consensus, the noise models and the CBO update, the update norm, the mean drift, the kernels of
    PolarCBO and the promotion of objectives, on n-dimensional arrays with NumPy's broadcasting.  Full batches, all
    runs active. *)
From Coq Require Import List Arith Bool Reals.
From Verif Require Import Scalar Np RVec Consensus Nd Cbo Polar.
Import ListNotations.
Open Scope nat_scope.

(** all index tuples of a shape, last index fastest (C order) *)
Fixpoint indices (dims : list nat) : list (list nat) :=
  match dims with [] => [[]] | n :: r => flat_map (fun i => map (cons i) (indices r)) (seq 0 n) end.

(** [x[..., None, ..., None]] with [k] new axes: coeff_expan, pdyn.py:584 and polarcbo.py:148 *)
Definition expand_last {A} (k : nat) (x : nd A) : nd A :=
  mknd (shape x ++ repeat 1 k) (fun i => get x (firstn (length (shape x)) i)).

(** [x.sum(axis=1, keepdims=True)] *)
Definition sum_axis1 (x : nd (fl R)) : nd (fl R) :=
  match shape x with
  | M :: N :: r => mknd (M :: 1 :: r)
      (fun i => match i with m :: _ :: ix => fsum (map (fun n => get x (m :: n :: ix)) (seq 0 N)) | _ => NaN end)
  | _ => x
  end.

(** compute_consensus_default.__call__, pdyn.py:582-587, without the optional check; [alpha] has shape (M,1) *)
Definition nd_consensus (energy x alpha : nd (fl R)) : res (nd (fl R)) :=
  w <- lift2 fmul (lift1 fopp alpha) energy ;;
  p <- lift2 fmul x (expand_last (length (shape x) - 2) (softmax_last w)) ;;
  Ok (sum_axis1 p).

(** the norm of each particle, flattened, reshaped to (M, N, 1, ..., 1), noise.py:117 *)
Definition nd_norms (x : nd (fl R)) : nd (fl R) :=
  match shape x with
  | M :: N :: r => mknd (M :: N :: repeat 1 (length r))
      (fun i => match i with m :: n :: _ => fnorm (map (fun ix => get x (m :: n :: ix)) (indices r)) | _ => NaN end)
  | _ => x
  end.

(** constant_noise, isotropic_noise, anisotropic_noise, noise.py:58-62, 91-117, 146-170; [z] is the sampled array *)
Definition nd_noise (k : noise_model) (dt : fl R) (drift z : nd (fl R)) : res (nd (fl R)) :=
  s <- match k with
       | NConst => Ok z
       | NIso => lift2 fmul z (nd_norms drift)
       | NAniso => lift2 fmul z drift
       end ;;
  Ok (lift1 (fmul (fsqrt dt)) s).

(** cbo_step after the consensus, cbo.py:3-4 and 43-49, without correction: drift, cbo_update and [x += ...] *)
Definition nd_move (k : noise_model) (lamda dt sigma : fl R) (x c z : nd (fl R)) : res (nd (fl R)) :=
  drift <- lift2 fsub x c ;;
  n <- nd_noise k dt drift z ;;
  u <- lift2 fadd (lift1 (fmul (fmul (fopp lamda) dt)) drift) (lift1 (fmul sigma) n) ;;
  iadd fadd x u.
Definition nd_step (k : noise_model) (lamda dt sigma : fl R) (energy x alpha z : nd (fl R)) : res (nd (fl R)) :=
  c <- nd_consensus energy x alpha ;; nd_move k lamda dt sigma x c z.

(** [np.linalg.norm(x, axis=(-2,-1))] and [np.mean(x, axis=(-2,-1))]; arrays with fewer than two axes raise AxisError *)
Definition over_last2 (f : list (fl R) -> fl R) (x : nd (fl R)) : res (nd (fl R)) :=
  match rev (shape x) with
  | b :: a :: r => Ok (mknd (rev r) (fun i => f (map (fun ix => get x (i ++ ix)) (indices [a; b]))))
  | _ => Err IndexError
  end.

(** update_diff, pdyn.py:922 *)
Definition nd_update_diff (N : nat) (x x_old : nd (fl R)) : res (nd (fl R)) :=
  d <- lift2 fsub x x_old ;; n <- over_last2 fnorm d ;; Ok (lift1 (fun u => fdiv u (Fin (INR N))) n).
(** track_drift_mean, history.py:154 *)
Definition fmean (l : list (fl R)) : fl R := fdiv (fsum l) (Fin (INR (length l))).
Definition nd_drift_mean (drift : nd (fl R)) : res (nd (fl R)) := over_last2 fmean (lift1 fabs drift).

(** [loc_term[:, i] = v], pdyn.py:449: NumPy drops leading axes of length one while there are more axes than in
    the target, then broadcasts to (M,) *)
Fixpoint strip_ones (s : list nat) : list nat :=
  match s with 1 :: ((_ :: _) as r) => strip_ones r | _ => s end.
Definition assign_runs (M : nat) (v : nd bool) : res (list bool) :=
  let s := strip_ones (shape v) in
  match s with
  | [] => Ok (map (fun _ => get v (repeat 0 (length (shape v)))) (seq 0 M))
  | [k] => if (k =? M) || (k =? 1) then
             Ok (map (fun m => get v (repeat 0 (length (shape v) - 1) ++ [if k =? 1 then 0 else m])) (seq 0 M))
           else Err ShapeError
  | _ => Err ShapeError
  end.
(** diff_tol_term, termination.py:34-35, as used by select_active_runs, pdyn.py:447-449 *)
Definition nd_diff_tol (M : nat) (tol : fl R) (update_diff : nd (fl R)) : res (list bool) :=
  assign_runs M (lift1 (fun u => fltb u tol) update_diff).

(** cbx_objective.__call__, objective_handling.py:36: evaluations counted for one call (at least two axes) *)
Definition nd_num_eval (s : list nat) : nat := fold_right Nat.mul 1 (removelast s).
(** Shape of the result of cbx_objective_f1D.apply and cbx_objective_f2D.apply, objective_handling.py:76-77 and 100-101:
    one number per row of [x.reshape(-1, x.shape[-1])], reshaped to (-1, x.shape[-2]); all dimensions at least one *)
Definition promoted_shape (s : list nat) : list nat :=
  let rows := fold_right Nat.mul 1 (removelast s) in
  let e := last (removelast s) 0 in [rows / e; e].
(** check_f_dims, pdyn.py:233-236: is the shape accepted? *)
Definition dims_accepted (s out : list nat) : bool :=
  if list_eq_dec Nat.eq_dec out (firstn 2 s) then true else false.

(** ** PolarCBO *)

(** [x[:,None,...]] and [x[:,:,None,...]] *)
Definition newaxis1 {A} (x : nd A) : nd A :=
  match shape x with M :: r => mknd (M :: 1 :: r) (fun i => match i with m :: _ :: ix => get x (m :: ix) | _ => get x i end) | [] => x end.
Definition newaxis2 {A} (x : nd A) : nd A :=
  match shape x with M :: N :: r => mknd (M :: N :: 1 :: r) (fun i => match i with m :: n :: _ :: ix => get x (m :: n :: ix) | _ => get x i end) | _ => x end.

(** [.sum(tuple(i for i in range(3, x.ndim)))], polarcbo.py:78 and 83 *)
Definition sum_from3 (x : nd (fl R)) : nd (fl R) :=
  mknd (firstn 3 (shape x)) (fun i => fsum (map (fun ix => get x (i ++ ix)) (indices (skipn 3 (shape x))))).
(** [np.linalg.norm(x, axis=-1)] *)
Definition norm_last (x : nd (fl R)) : nd (fl R) :=
  mknd (removelast (shape x)) (fun i => fnorm (map (fun a => get x (i ++ [a])) (seq 0 (last (shape x) 0)))).

(** neg_log of the kernels, polarcbo.py:82-83, 99-102, 114-118, 128-130; [x] and [y] are the expanded ensembles *)
Definition nd_neg_log (k : kname) (kappa : fl R) (x y : nd (fl R)) : res (nd (fl R)) :=
  d <- lift2 fsub x y ;;
  Ok match k with
     | KGauss => lift1 (fun q => fmul (finv (fmul (Fin 2%R) (fmul kappa kappa))) q) (sum_from3 (lift1 (fun a => fmul a a) d))
     | KLaplace => lift1 (fun q => fmul (finv kappa) q) (norm_last d)
     | KConst => lift1 (fun q => pow_inf (fdiv q kappa)) (norm_last d)
     | KInvQuad => lift1 (fun q => let t := fmul (finv kappa) q in fopp (flog (fdiv (Fin 1%R) (fadd (Fin 1%R) (fmul t t))))) (norm_last d)
     end.

(** [x.sum(axis=2)], polarcbo.py:149 *)
Definition sum_axis2 (x : nd (fl R)) : nd (fl R) :=
  match shape x with
  | M :: N :: K :: r => mknd (M :: N :: r)
      (fun i => match i with m :: n :: ix => fsum (map (fun j => get x (m :: n :: j :: ix)) (seq 0 K)) | _ => NaN end)
  | _ => x
  end.

(** PolarCBO.compute_consensus with compute_polar_consensus, polarcbo.py:145-150 and 240-253; [alpha] and [kf] have shape
    (M,1,1) ([kf] may also be the number 1) *)
Definition nd_polar_consensus (k : kname) (kappa : fl R) (energy x alpha kf : nd (fl R)) : res (nd (fl R)) :=
  nl <- nd_neg_log k kappa (newaxis1 x) (newaxis2 x) ;;
  a <- lift2 fmul (lift1 fopp kf) nl ;;
  b <- lift2 fmul alpha (newaxis1 energy) ;;
  w <- lift2 fsub a b ;;
  p <- lift2 fmul (newaxis1 x) (expand_last (length (shape x) - 2) (softmax_last w)) ;;
  Ok (sum_axis2 p).
Definition nd_polar_step (k : noise_model) (kn : kname) (kappa lamda dt sigma : fl R) (energy x alpha kf z : nd (fl R)) : res (nd (fl R)) :=
  c <- nd_polar_consensus kn kappa energy x alpha kf ;; nd_move k lamda dt sigma x c z.
