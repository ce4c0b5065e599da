(** * Specification for integer ensembles *)
From Coq Require Import String List Arith Bool Reals ZArith.
From Verif Require Import Scalar Np State Pdyn Exec RVec ConsSpec Cbo Memory MemSpec Dtype.
Import ListNotations.
Open Scope R_scope.

(** every coordinate is an integer *)
Definition integral (v : vec) : Prop := forall a, In a v -> exists z, a = Fin (IZR z).
Definition all_integral (X : arr vec) : Prop := forall row v, In row X -> In v row -> integral v.
(** all cells are vectors of d numbers, resp. of d numbers with modulus below one *)
Definition all_points (d : nat) (X : arr vec) : Prop := forall row v, In row X -> In v row -> length v = d /\ forall a, In a v -> exists r, a = Fin r.
Definition all_below_one (d : nat) (X : arr vec) : Prop :=
  forall row v, In row X -> In v row -> length v = d /\ forall a, In a v -> exists r, a = Fin r /\ Rabs r < 1.
(** particles are vectors of coordinates (objective, consensus, noise, correction, post-processing, batches, criteria are arbitrary) *)
Definition vector_ops (c : cfg R vec) : Prop := c_vadd c = map2 fadd /\ c_vsub c = map2 fsub /\ c_vscale c = fun a => map (fmul a).

(** the arithmetic mean of the ensemble *)
Definition plain_mean (d : nat) (X : list (list R)) : list R := map (fun i => Rsum (map (coord i) X) / INR (length X)) (seq 0 d).

(** PSO runs from an ensemble of element type [d]: any number of steps, termination checks and parameter changes *)
Inductive pso_exec_t (ppd : dtype -> dtype) (c : cfg R vec) (d : dtype) : tst -> Prop :=
| pt_init : forall x0 checked alpha sigma lamda dt perm0 names extra save t,
    is_array (length x0) (shape1 x0) x0 -> (d = DInt -> all_integral x0) -> pso_init_t d c x0 checked alpha sigma lamda dt perm0 names extra save = Ok t -> pso_exec_t ppd c d t
| pt_step : forall p o z2 t t', pso_exec_t ppd c d t -> pso_step_t ppd c p o z2 t = Ok t' -> pso_exec_t ppd c d t'
| pt_term : forall t b s', pso_exec_t ppd c d t -> terminate c (m_s (t_ms t)) = Ok (b, s') ->
    pso_exec_t ppd c d (mktst (t_d t) (t_x t) (mkmst s' (m_y (t_ms t)) (m_v (t_ms t)) (m_ev (t_ms t))))
| pt_params : forall t s', pso_exec_t ppd c d t -> params_changed (m_s (t_ms t)) s' ->
    pso_exec_t ppd c d (mktst (t_d t) (t_x t) (mkmst s' (m_y (t_ms t)) (m_v (t_ms t)) (m_ev (t_ms t)))).
