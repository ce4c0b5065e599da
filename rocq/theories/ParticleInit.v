(** * init_particles (cbx/utils/particle_init.py) and the defaults of the torch backend (cbx/utils/torch_utils.py) *)
From Coq Require Import List String Arith Bool Reals.
From Verif Require Import Scalar Np Nd RVec MatSqrt PostProc.
Import ListNotations.
Open Scope R_scope.
Open Scope string_scope.
Open Scope list_scope.

(** np.linalg.svd of a d x d matrix: u, s, v with A = u diag(s) v; used by NumPy's multivariate_normal *)
Definition svd_fun := nat -> mat -> mat * (nat -> R) * mat.

(** np.eye *)
Definition eye : mat := fun i j => if (i =? j)%nat then 1 else 0.

(** init_particles, particle_init.py:3-42.  [U] is the array of draws from [0,1) of np.random.uniform (lo + (hi - lo) u), line 28; [Z] the standard
    normal draws of multivariate_normal, line 38, which multiplies them by sqrt(s) v for the svd of the covariance delta^2 eye(d) and adds the mean 0.
    Simplifications: real arithmetic; shape entries are naturals (a negative size raises in NumPy). *)
Definition init_particles (svd : svd_fun) (U Z : list nat -> R) (shape : list nat) (x_min x_max delta : R) (method : string) : res (nd R) :=
  if String.eqb method "uniform" then Ok (mknd shape (fun i => x_min + (x_max - x_min) * U i))
  else if String.eqb method "normal" then
    p <- match shape with [M; N; d] => Ok (M, N, d) | [N; d] => Ok (1%nat, N, d) | _ => Err RuntimeErr end ;;
    let '(M, N, d) := p in
    let '(_, s, v) := svd d (fun i j => delta ^ 2 * eye i j) in
    Ok (mknd [M; N; d] (fun i => match i with
      | [m; n; j] => 0 + msum d (fun k => Z [m; n; k] * (sqrt (s k) * v k j))
      | _ => 0 end))
  else Err RuntimeErr.

(** ParticleDynamic.init_particles, pdyn.py:210-211, and its torch counterpart, torch_utils.py:92-93, for the shape of line 196 *)
Definition own_particles (U : list nat -> R) (M N d : nat) : nd R := mknd [M; N; d] (fun i => -1 + (1 - -1) * U i).

(** post_process_default_torch.__call__, torch_utils.py:74-76, on one coordinate; [dmax] is the largest number of the tensor's dtype, by which
    torch.nan_to_num replaces the infinities; torch.clamp propagates NaN as np.clip does. *)
Definition pp_torch (dmax thresh : R) (a : fl R) : fl R :=
  np_clip (Fin (- thresh)) (Fin thresh) (match a with NaN => Fin thresh | PInf => Fin dmax | NInf => Fin (- dmax) | Fin x => Fin x end).
