(** * The exponential samplers (cbx/noise.py, cbx/utils/torch_utils.py) and the schedulers of the torch backend *)
From Coq Require Import List Arith Reals.
From Verif Require Import Scalar Np State Sched.
Import ListNotations.
Open Scope R_scope.

(** exponential_sampler, noise.py:249-256, on one particle: [e] are draws of exponential(1), [s] draws of choice([-1, 1]) *)
Definition exponential_draw (e s : list R) : list R := map2 Rmult e s.
(** exponential_torch, torch_utils.py:48-56, on one particle: [e] are draws of Exponential(1.0), [b] draws of randint(0, 2) *)
Definition exponential_torch_draw (e : list R) (b : list nat) : list R := map2 Rmult e (map (fun k => INR k * 2 - 1) b).

(** effective_sample_size.update of the torch backend, torch_utils.py:177-185; devices and the conversion of val to the dtype of x are left out *)
Definition ess_update_torch {V} (eta maximum minimum : R) (max_it : nat) (s : st R V) : res (st R V) :=
  let val := b_x (bisection_solve (ess_gaps eta (s_energy s)) (repeat minimum (s_M s)) (repeat maximum (s_M s)) max_it (/ 100)) in
  Ok (set_alpha (map (fun v => [Fin v]) val) s).
