(** * The configuration of HyperSurfaceCBO (cbx/dynamics/hypersurfacecbo.py:76-120) *)
From Coq Require Import List Arith Bool Reals.
From Verif Require Import Scalar Np State Pdyn Consensus Cbo HyperMaps Variant.
Import ListNotations.
Open Scope R_scope.

(** HyperSurfaceCBO.__init__, hypersurfacecbo.py:109-115: CBO with compute_consensus_rescale; everything else is handed on. *)
Definition hyper_cfg (f : vec -> fl R) (k : noise_model) (pp : vec -> vec) (b : nat) (partial cat : bool) (ks : list (crit R vec)) (save : bool) : cfg R vec :=
  {| c_f := f; c_vadd := map2 fadd; c_vsub := map2 fsub; c_vscale := fun a => map (fmul a);
     c_norm := fun l => fdiv (fnorm (concat l)) (Fin (INR (length l)));
     c_dmean := fun l => fdiv (fsum (map fabs (concat l))) (Fin (INR (length (concat l))));
     c_ccrow := cc_rescale; c_noise := noise_of k; c_pp := pp;
     c_corr := NoCorr; c_bsize := b; c_partial := partial; c_concat := cat; c_crit := ks; c_savepts := save |}.

(** x_tilde of one particle v with consensus cp and draw z, hypersurfacecbo.py:131-139 *)
Definition x_tilde (sd : sdf) (k : noise_model) (dt sg : fl R) (v cp z : vec) : vec :=
  map2 fsub (map2 fadd v (sdf_tan sd v (map2 fadd (map (fmul dt) cp) (map (fmul sg) (noise_of k dt (map2 fsub v cp) z)))))
    (h_nc (surface_of sd k) dt sg v (map2 fsub v cp)).
