(** * CBO with rounding after every operation (cbx/dynamics/cbo.py:3-4, 40-50, pdyn.py:576-590, noise.py)

    The state machine of Pdyn.v over the scalars of [KOps_rounded rnd].  Overflow is not modelled: finite results stay finite. *)
From Coq Require Import List Arith Bool Reals.
From Verif Require Import Scalar Np State Pdyn RVec Consensus PostProc Cbo Rounding ClockSpec.
Import ListNotations.
Open Scope R_scope.

Section Model.
  Variables (rnd Exp Log : R -> R) (sum : list R -> R).
  Notation O := (KOps_rounded rnd).
  (** the number a finite float stands for; non-finite ones do not occur *)
  Definition number (a : fl R) : R := match a with Fin x => x | _ => 0 end.
  (** np.sqrt, correctly rounded *)
  Definition sqrt_r (a : fl R) : fl R := match fsqrt a with Fin x => Fin (rnd x) | y => y end.
  (** np.linalg.norm *)
  Definition norm_r (v : vec) : fl R := sqrt_r (Fin (sum (map (fun a => rnd (number a * number a)) v))).
  (** the noise models on one particle, noise.py:58-62, 91-117, 146-170 *)
  Definition noise_r (k : noise_model) (dt : fl R) (drift z : vec) : vec :=
    map (@fmul R O (sqrt_r dt))
      match k with
      | NConst => z
      | NIso => map (fun a => @fmul R O a (norm_r drift)) z
      | NAniso => map2 (@fmul R O) z drift
      end.
  (** compute_consensus_default of one run, pdyn.py:582-588: coefficients and weighted mean of Rounding.v, coordinate by coordinate *)
  Definition cc_r (es : list (fl R)) (xs : list vec) (a : fl R) : list vec :=
    let cs := coeffs_r rnd Exp Log sum (number a) (map number es) in
    [map (fun j => Fin (mean_r rnd sum cs (map (fun x => number (nth j x (Fin 0))) xs))) (seq 0 (length (hd [] xs)))].
  (** CBO with rounding: as [cbo_cfg] *)
  Definition cbo_cfg_r (f : vec -> fl R) (k : noise_model) (pp : vec -> vec) (b : nat) (partial cat : bool)
      (ks : list (crit R vec)) (save : bool) : cfg R vec :=
    {| c_f := f; c_vadd := map2 (@fadd R O); c_vsub := map2 (@fsub R O); c_vscale := fun a => map (@fmul R O a);
       c_norm := fun l => @fdiv R O (norm_r (concat l)) (Fin (INR (length l)));
       c_dmean := fun l => @fdiv R O (Fin (sum (map (fun a => Rabs (number a)) (concat l)))) (Fin (INR (length (concat l))));
       c_ccrow := cc_r; c_noise := noise_r k; c_pp := pp;
       c_corr := NoCorr; c_bsize := b; c_partial := partial; c_concat := cat; c_crit := ks; c_savepts := save |}.
End Model.
