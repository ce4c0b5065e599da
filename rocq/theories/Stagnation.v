(** * energy_stagnation_term (cbx/utils/termination.py:104-129)

    A criterion with memory: the buffer [losses] of shape (patience, M).  [std_thresh] is a finite number. *)
From Coq Require Import List Arith Bool Reals.
From Verif Require Import Scalar Np State Pdyn Consensus Cbo.
Import ListNotations.
Open Scope nat_scope.

Definition buffer := list (list (fl R)).

(** np.mean and np.std (population standard deviation) of a column *)
Definition fmean (l : list (fl R)) : fl R := fdiv (fsum l) (Fin (INR (length l))).
Definition fstd (l : list (fl R)) : fl R := let m := fmean l in fsqrt (fmean (map (fun a => fmul (fsub a m) (fsub a m)) l)).

Section Stag.
  Context {V : Type}.

  (** numpy assigns an array of shape (A,P) to a selection of shape (A,): the leading axis must have length one *)
  Definition column (E : arr (fl R)) : res (list (fl R)) :=
    match E with [[e]] => Ok [e] | _ => Err ShapeError end.

  (** [losses[slot, active] = vals] *)
  Definition store (slot : nat) (active : list nat) (vals : list (fl R)) (L : buffer) : buffer :=
    mapi (fun j row => if Nat.eqb j slot then mapi (fun m old => match last_index m active with Some k => nth k vals old | None => old end) row else row) L.

  (** __call__, 119-129.  Returns the verdict per run, the dynamic (evaluations are counted) and the buffer. *)
  Definition stag_call (patience : nat) (thresh : R) (c : cfg R V) (s : st R V) (b : option buffer) : res (list bool * st R V * option buffer) :=
    let L := match b with None => repeat (repeat PInf (s_M s)) patience | Some L => L end in
    match s_cons s with
    | None => Ok (repeat false (s_M s), s, Some L)
    | Some cp =>
        pts <- takeM cp (s_active s) ;;
        let s1 := set_nfe (add_at (s_active s) 1 (s_nfe s)) (set_fcalls (s_fcalls s + npoints pts) s) in
        match patience with
        | 0 => Err ZeroDivision
        | _ =>
            vals <- column (map (map (c_f c)) pts) ;;
            let L' := store (s_it s mod patience) (s_active s) vals L in
            Ok (map (fun m => fltb (fstd (map (fun row => nth m row NaN) L')) (Fin thresh)) (seq 0 (s_M s)), s1, Some L')
        end
    end.
End Stag.
