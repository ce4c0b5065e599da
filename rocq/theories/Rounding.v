(** * The weighted mean with rounding (cbx/dynamics/pdyn.py:582-587, hypersurfacecbo.py:77-83)

    One run; energies and particles are finite.  Each operation of NumPy is the real operation followed by a rounding [rnd]; [Exp] and [Log] are
    the library's exponential and logarithm, [sum] its summation.  Overflow is not modelled. *)
From Coq Require Import List Arith Bool Reals.
From Verif Require Import Np RVec.
Import ListNotations.
Open Scope R_scope.

Section Rounded.
  Variables (rnd Exp Log : R -> R) (sum : list R -> R).

  (** np.max of a non-empty row *)
  Definition row_max (l : list R) : R := fold_right Rmax (hd 0 l) l.
  Definition row_min (l : list R) : R := fold_right Rmin (hd 0 l) l.
  (** scipy.special.logsumexp of a row: the maximum is subtracted before and added after *)
  Definition lse_r (w : list R) : R := rnd (Log (sum (map (fun wi => Exp (rnd (wi - row_max w))) w)) + row_max w).
  (** coefficients, pdyn.py:585, hypersurfacecbo.py:80 *)
  Definition softmax_r (w : list R) : list R := map (fun wi => Exp (rnd (wi - lse_r w))) w.
  (** compute_consensus_default, pdyn.py:583-585; the sign change is exact *)
  Definition coeffs_r (a : R) (e : list R) : list R := softmax_r (map (fun ei => rnd (- a * ei)) e).
  (** compute_consensus_rescale, hypersurfacecbo.py:77-80 *)
  Definition coeffs_rescale_r (a : R) (e : list R) : list R := softmax_r (map (fun ei => rnd (- a * rnd (ei - row_min e))) e).
  (** one coordinate of [(x * coeffs).sum(axis=1)], pdyn.py:587; [x] is this coordinate of all particles *)
  Definition mean_r (cs x : list R) : R := sum (map2 (fun xi c => rnd (xi * c)) x cs).
End Rounded.
