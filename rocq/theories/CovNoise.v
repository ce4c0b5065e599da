(** * Covariance noise on whole arrays (shapes and values)

    cbx/dynamics/pdyn.py update_covariance, cbx/dynamics/polarcbo.py update_covariance,
    cbx/noise.py covariance_noise, cbx/dynamics/cbo.py cbo_step from the drift on.
    Points are vectors (x.ndim = 3). *)
From Coq Require Import List Arith Bool Reals.
From Verif Require Import Scalar Np RVec Consensus Nd Cbo.
Import ListNotations.
Open Scope nat_scope.

(** CBXDynamic.update_covariance, the weights, pdyn.py:902-903 *)
Definition cbo_coeffs (alpha energy : nd (fl R)) : res (nd (fl R)) :=
  w <- lift2 fmul (lift1 fopp alpha) energy ;; Ok (softmax_last w).

(** PolarCBO.update_covariance, the weights, polarcbo.py:264-265; [kf] is kernel_factor() *)
Definition polar_cov_coeffs (kf nl alpha energy : nd (fl R)) : res (nd (fl R)) :=
  a <- lift2 fmul (lift1 fopp kf) nl ;;
  b <- lift2 fmul alpha energy ;;
  w <- lift2 fsub a b ;; Ok (softmax_last w).

(** the covariance, pdyn.py:905-906 and polarcbo.py:267-268 *)
Definition cov_of (coeffs drift : nd (fl R)) : res (nd (fl R)) :=
  D <- lift2 fmul (newaxis_last drift) (newaxis_before_last drift) ;;
  P <- lift2 fmul D (newaxis_last (newaxis_last coeffs)) ;;
  sum_axis3 P.

(** compute_mat_sqrt acts on the last two axes; [ms d A] is the root of the d x d matrix A *)
Definition cov_sqrt (ms : nat -> (nat -> nat -> fl R) -> nat -> nat -> fl R) (D : nd (fl R)) : nd (fl R) :=
  mknd (shape D)
       (fun i => match rev i with
                 | ib :: ia :: q => ms (last (shape D) 0) (fun a b => get D (rev q ++ [a; b])) ia ib
                 | _ => NaN
                 end).

(** apply_cov_sqrt, noise.py:229-247; einsum broadcasts axes of length one *)
Definition apply_cov_sqrt (C z : nd (fl R)) : res (nd (fl R)) :=
  if length (shape C) =? length (shape z) then
    match shape C, shape z with
    | [k; i; j], [k'; l; j'] =>
        match bdim k k', bdim j j' with
        | Some k2, Some j2 =>
            Ok (mknd [k2; l; i] (fun idx => match idx with
                | [a; b; c] => fsum (map (fun q => fmul (bget C [a; c; q]) (bget z [a; b; q])) (seq 0 j2))
                | _ => NaN end))
        | _, _ => Err ValueError
        end
    | _, _ => Err ValueError
    end
  else if length (shape C) =? S (length (shape z)) then
    match shape C, shape z with
    | [k; l; i; j], [k'; l'; j'] =>
        match bdim k k', bdim l l', bdim j j' with
        | Some k2, Some l2, Some j2 =>
            Ok (mknd [k2; l2; i] (fun idx => match idx with
                | [a; b; c] => fsum (map (fun q => fmul (bget C [a; b; c; q]) (bget z [a; b; q])) (seq 0 j2))
                | _ => NaN end))
        | _, _, _ => Err ValueError
        end
    | _, _ => Err ValueError
    end
  else Err RuntimeErr.

(** covariance_noise.__call__ after update_covariance, noise.py:192-203: factor
    sqrt(2 dt / lamda), lamda = 1/(1+alpha) in mode 'sampling' and 1 otherwise, with one axis
    appended *)
Definition cov_factor (sampling : bool) (dt : fl R) (alpha : nd (fl R)) : nd (fl R) :=
  newaxis_last
    (if sampling
     then lift1 (fun a => fsqrt (fdiv (fmul (Fin 2%R) dt) (fdiv (Fin 1%R) (fadd (Fin 1%R) a)))) alpha
     else scalar (fsqrt (fdiv (fmul (Fin 2%R) dt) (Fin 1%R)))).
Definition cov_noise ms (sampling : bool) (dt : fl R) (alpha D z : nd (fl R)) : res (nd (fl R)) :=
  s <- apply_cov_sqrt (cov_sqrt ms D) z ;; lift2 fmul (cov_factor sampling dt alpha) s.

(** [self.x[particle_idx] += cbo_update(drift, lamda, dt, sigma, noise)], cbo.py:3-4, 46-49;
    [xp] is x[particle_idx] *)
Definition move (lamda dt sigma : fl R) (xp drift noise : nd (fl R)) : res (nd (fl R)) :=
  u <- lift2 fadd (lift1 (fmul (fmul (fopp lamda) dt)) drift) (lift1 (fmul sigma) noise) ;;
  iadd fadd xp u.

(** cbo_step from the drift on, with covariance noise; [z] has the shape of the drift *)
Definition cov_step ms (sampling : bool) (lamda dt sigma : fl R) (alpha energy xp drift : nd (fl R)) (z : list nat -> fl R) : res (nd (fl R)) :=
  co <- cbo_coeffs alpha energy ;;
  D <- cov_of co drift ;;
  n <- cov_noise ms sampling dt alpha D (mknd (shape drift) z) ;;
  move lamda dt sigma xp drift n.

(** kernel_factor, polarcbo.py:227-233: 1 or [alpha[active, :, None]] *)
Definition kernel_factor (const : bool) (alpha : nd (fl R)) (act : list nat) : nd (fl R) :=
  if const then scalar (Fin 1%R)
  else mknd [length act; 1; 1] (fun i => match i with [a; _; _] => get alpha [nth a act 0; 0] | _ => NaN end).

(** the same for PolarCBO *)
Definition polar_cov_step ms (sampling const : bool) (lamda dt sigma : fl R) (act : list nat) (alpha energy nl xp drift : nd (fl R)) (z : list nat -> fl R) : res (nd (fl R)) :=
  co <- polar_cov_coeffs (kernel_factor const alpha act) nl alpha energy ;;
  D <- cov_of co drift ;;
  n <- cov_noise ms sampling dt alpha D (mknd (shape drift) z) ;;
  move lamda dt sigma xp drift n.
