(** * post_process_default (cbx/dynamics/pdyn.py:24-43) *)
From Coq Require Import List Reals.
From Verif Require Import Scalar.
Import ListNotations.
Open Scope R_scope.

(** largest finite float, used by np.nan_to_num for the infinities *)
Definition float_max : R := IZR ((2 ^ 53 - 1) * 2 ^ 971)%Z.

(** [np.nan_to_num(x, nan=thresh)] on one coordinate, pdyn.py:42 *)
Definition nan_to_num (thresh : R) (a : fl R) : fl R :=
  match a with NaN => Fin thresh | PInf => Fin float_max | NInf => Fin (- float_max) | Fin x => Fin x end.

(** [np.clip(x, lo, hi)] on one coordinate, pdyn.py:43 *)
Definition np_clip (lo hi : fl R) (a : fl R) : fl R := fmin (fmax a lo) hi.

(** post_process_default.__call__, pdyn.py:41-43, on one coordinate.  With copy=True
    nan_to_num returns a new array, which is dropped. *)
Definition pp_default (thresh : R) (copy : bool) (a : fl R) : fl R :=
  np_clip (Fin (- thresh)) (Fin thresh) (if copy then a else nan_to_num thresh a).

(** the whole particle *)
Definition pp_point (thresh : R) (copy : bool) (v : list (fl R)) : list (fl R) := map (pp_default thresh copy) v.
