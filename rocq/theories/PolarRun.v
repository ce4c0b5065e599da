(** * PolarCBO as a dynamic: kernels on points with float coordinates and the configuration *)
From Coq Require Import List Arith Bool Reals.
From Verif Require Import Scalar Np State Pdyn RVec Consensus Polar Cbo.
Import ListNotations.
Open Scope R_scope.

(** [((x-y)**2).sum(axis=-1)], polarcbo.py:83, and [np.linalg.norm(x-y, axis=-1)], polarcbo.py:100 *)
Definition fsqdist (x y : vec) : fl R := fsum (map (fun a => fmul a a) (map2 fsub x y)).
Definition fdist (x y : vec) : fl R := fnorm (map2 fsub x y).

(** neg_log of the kernels: Gaussian_kernel, polarcbo.py:50-83; Laplace_kernel, polarcbo.py:85-102;
    Constant_kernel, polarcbo.py:104-118; InverseQuadratic_kernel, polarcbo.py:120-130; the Taz
    kernel, polarcbo.py:132-142, is not modelled here because it uses all runs at once
    (see [taz_neg_log]). *)
Definition fneg_log (k : kname) (kappa : fl R) (x y : vec) : fl R :=
  match k with
  | KGauss => fmul (finv (fmul (Fin 2) (fmul kappa kappa))) (fsqdist x y)
  | KLaplace => fmul (finv kappa) (fdist x y)
  | KConst => pow_inf (fdiv (fdist x y) kappa)
  | KInvQuad => let d := fmul (finv kappa) (fdist x y) in fopp (flog (fdiv (Fin 1) (fadd (Fin 1) (fmul d d))))
  end.

(** kernel_factor_mode, polarcbo.py:231-237; an unknown mode raises and is not modelled. *)
Inductive kmode : Type := MConst | MAlpha.
Definition kfactor (md : kmode) (a : fl R) : fl R := match md with MConst => Fin 1 | MAlpha => a end.

(** PolarCBO.compute_consensus for one run, polarcbo.py:239-251: entry (i,j) of neg_log_eval is
    neg_log(x_j, x_i). *)
Definition polar_row (k : kname) (kappa : fl R) (md : kmode) (e : list (fl R)) (x : list vec) (a : fl R) : list vec :=
  cc_polar e x (map (fun xi => map (fun xj => fneg_log k kappa xj xi) x) x) a (kfactor md a).

(** PolarCBO.__init__, polarcbo.py:186-196: CBO with the polarised consensus. *)
Definition polar_cfg (kn : kname) (kappa : fl R) (md : kmode) (f : vec -> fl R) (k : noise_model) (pp : vec -> vec) (b : nat)
    (partial cat : bool) (ks : list (crit R vec)) (save : bool) : cfg R vec :=
  let c := cbo_cfg f k pp NoCorr b partial cat ks save in
  {| c_f := c_f c; c_vadd := c_vadd c; c_vsub := c_vsub c; c_vscale := c_vscale c; c_norm := c_norm c; c_dmean := c_dmean c;
     c_ccrow := polar_row kn kappa md; c_noise := c_noise c; c_pp := c_pp c; c_corr := NoCorr; c_bsize := b; c_partial := partial;
     c_concat := cat; c_crit := ks; c_savepts := save |}.
