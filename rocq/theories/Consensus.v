(** * The weighted mean (cbx/dynamics/pdyn.py:575-595, hypersurfacecbo.py:77-83)

    One run at a time: [e] is the row of energies, [x] the row of particles (coordinate
    lists), [a] the run's alpha.  NumPy works on all runs at once, row by row. *)
From Coq Require Import List Arith Bool Reals.
From Verif Require Import Scalar Np.
Import ListNotations.
Open Scope R_scope.

(** [np.exp] *)
Definition fexp (a : fl R) : fl R :=
  match a with Fin x => Fin (exp x) | PInf => PInf | NInf => Fin 0 | NaN => NaN end.
(** [np.log] *)
Definition flog (a : fl R) : fl R :=
  match a with
  | Fin x => if Rltb 0 x then Fin (ln x) else if Rltb x 0 then NaN else NInf
  | PInf => PInf | _ => NaN end.
(** [np.abs] *)
Definition fabs (a : fl R) : fl R :=
  match a with Fin x => Fin (Rabs x) | PInf | NInf => PInf | NaN => NaN end.
(** [.sum(axis)] *)
Definition fsum (l : list (fl R)) : fl R := fold_right fadd (Fin 0) l.

(** scipy.special.logsumexp along one axis: the logarithm of the sum of exponentials (scipy
    subtracts the maximum first, which changes nothing in exact arithmetic). *)
Definition logsumexp (l : list (fl R)) : fl R := flog (fsum (map fexp l)).

(** softmax of the weights, pdyn.py:585 *)
Definition softmax (w : list (fl R)) : list (fl R) :=
  let L := logsumexp w in map (fun wi => fexp (fsub wi L)) w.

(** pdyn.py:583-585 *)
Definition coeffs (e : list (fl R)) (a : fl R) : list (fl R) :=
  softmax (map (fun ei => fmul (fopp a) ei) e).

(** coordinate [i] of all particles of the row, and the number of coordinates *)
Definition dim (x : list (list (fl R))) : nat := length (hd [] x).
Definition column (i : nat) (x : list (list (fl R))) : list (fl R) := map (fun p => nth i p NaN) x.

(** [(x * coeffs).sum(axis=1, keepdims=True)], pdyn.py:587 *)
Definition wmean (cs : list (fl R)) (x : list (list (fl R))) : list (fl R) :=
  map (fun i => fsum (map2 fmul (column i x) cs)) (seq 0 (dim x)).

(** compute_consensus_default.__call__, pdyn.py:582-587, without the optional check: one
    consensus point per run. *)
Definition cc_default (e : list (fl R)) (x : list (list (fl R))) (a : fl R) : list (list (fl R)) :=
  [wmean (coeffs e a) x].

(** _check_coeffs, pdyn.py:589-592: does the check raise for this run? *)
Definition check_raises (cs : list (fl R)) : bool := fltb (Fin (1 / 10)) (fabs (fsub (fsum cs) (Fin 1))).

(** [np.min(energy, axis=-1)]: NaN if one entry is NaN *)
Definition fminimum (l : list (fl R)) : fl R := fold_right fmin PInf l.

(** compute_consensus_rescale, hypersurfacecbo.py:77-83 *)
Definition cc_rescale (e : list (fl R)) (x : list (list (fl R))) (a : fl R) : list (list (fl R)) :=
  [wmean (softmax (map (fun ei => fmul (fopp a) (fsub ei (fminimum e))) e)) x].
