(** * CBO over the reals: noise models, corrections and the default configuration

    cbx/noise.py (pointwise models; covariance noise is in CovNoise.v), cbx/correction.py,
    and the defaults of cbx/dynamics/cbo.py and pdyn.py.  A particle is a list of floats. *)
From Coq Require Import List Arith Bool Reals.
From Verif Require Import Scalar Np State Pdyn RVec Consensus PostProc.
Import ListNotations.
Open Scope R_scope.

Definition vec := list (fl R).

(** np.sqrt *)
Definition fsqrt (x : fl R) : fl R :=
  match x with Fin u => if Rltb u 0 then NaN else Fin (sqrt u) | PInf => PInf | _ => NaN end.

(** np.linalg.norm of a flat array *)
Definition fnorm (v : vec) : fl R := fsqrt (fsum (map (fun a => fmul a a) v)).

Inductive noise_model : Type := NConst | NIso | NAniso.

(** constant_noise, noise.py:58-62; isotropic_noise, noise.py:91-117; anisotropic_noise,
    noise.py:146-170; on one particle.  [z] is the output of the sampler. *)
Definition noise_of (k : noise_model) (dt : fl R) (drift z : vec) : vec :=
  map (fmul (fsqrt dt))
    match k with
    | NConst => z
    | NIso => map (fun a => fmul a (fnorm drift)) z
    | NAniso => map2 fmul z drift
    end.

(** np.tanh *)
Definition ftanh (a : fl R) : fl R :=
  match a with Fin x => Fin (tanh x) | PInf => Fin 1 | NInf => Fin (-1) | NaN => NaN end.

(** heavi_side_reg_correction.correct, correction.py:91-94: the factor *)
Definition heavi_reg_fac (eps : R) (z : fl R) : fl R :=
  fadd (Fin (/ 2)) (fmul (Fin (/ 2)) (ftanh (fdiv z (Fin eps)))).

(** CBO with compute_consensus_default, a pointwise noise model and post-processing [pp];
    [self.norm(x - x_old, axis=(-2,-1))/self.N], pdyn.py:922, is the Frobenius norm over N;
    drift_mean is np.mean(np.abs(drift)), history.py:154. *)
Definition cbo_cfg (f : vec -> fl R) (k : noise_model) (pp : vec -> vec) (co : corr R) (b : nat) (partial cat : bool)
    (ks : list (crit R vec)) (save : bool) : cfg R vec :=
  {| c_f := f; c_vadd := map2 fadd; c_vsub := map2 fsub; c_vscale := fun a => map (fmul a);
     c_norm := fun l => fdiv (fnorm (concat l)) (Fin (INR (length l)));
     c_dmean := fun l => fdiv (fsum (map fabs (concat l))) (Fin (INR (length (concat l))));
     c_ccrow := cc_default; c_noise := noise_of k; c_pp := pp;
     c_corr := co; c_bsize := b; c_partial := partial; c_concat := cat; c_crit := ks; c_savepts := save |}.
