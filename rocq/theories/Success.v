(** * Success evaluation (cbx/utils/success.py) *)
From Coq Require Import List Arith Bool Reals.
From Verif Require Import Scalar Np Nd State Pdyn Resampling.
Import ListNotations.
Open Scope nat_scope.

(** [np.squeeze]: axes of length one are dropped. *)
Fixpoint unsqueeze (s idx : list nat) : list nat :=
  match s with
  | [] => []
  | n :: s' => if n =? 1 then 0 :: unsqueeze s' idx
               else match idx with i :: idx' => i :: unsqueeze s' idx' | [] => [] end
  end.
Definition squeeze {A} (x : nd A) : nd A :=
  mknd (filter (fun n => negb (n =? 1)) (shape x)) (fun i => get x (unsqueeze (shape x) i)).

(** [x[None, ...]] *)
Definition newaxis_first {A} (x : nd A) : nd A := mknd (1 :: shape x) (fun i => get x (tl i)).

Definition size (s : list nat) : nat := fold_right Nat.mul 1 s.

(** index of the flat position [k] in row-major order *)
Fixpoint unravel (s : list nat) (k : nat) : list nat :=
  match s with
  | [] => []
  | n :: s' => (k / size s') :: unravel s' (k mod size s')
  end.

(** [x.reshape(M, -1)] as a list of rows; raises if the size is not a multiple of M (or M = 0). *)
Definition reshape_rows {A} (M : nat) (x : nd A) : res (list (list A)) :=
  let t := size (shape x) in
  if (M =? 0) || negb (t mod M =? 0) then Err ValueError
  else Ok (map (fun m => map (fun j => get x (unravel (shape x) (m * (t / M) + j))) (seq 0 (t / M))) (seq 0 M)).

Section Success.
  Context {K V : Type} {O : KOps K}.
  Notation F := (fl K).
  Notation st := (st K V).
  Notation cfg := (cfg K V).

  (** The result dictionary ('normdiff' left out). *)
  Record result : Type := mkresult { num : nat; rate : R; sidx : list nat }.
  Definition mk (M : nat) (idx : list nat) : res result :=
    if M =? 0 then Err ZeroDivision else Ok (mkresult (length idx) (INR (length idx) / INR M) idx).

  (** dist_to_min_success, success.py:3-11; [nrm] is np.linalg.norm with the chosen order on
      one row. [x.shape[0]] of an array without axes raises. *)
  Definition dist_to_min_success (nrm : list F -> F) (tol : F) (x_true x : nd F) : res result :=
    match shape x with
    | [] => Err IndexError
    | M :: _ =>
        d <- lift2 fsub (newaxis_first x_true) (squeeze x) ;;
        rows <- reshape_rows M d ;;
        mk M (np_where (map (fun r => fltb (nrm r) tol) rows))
    end.

  (** value_success and value_thresh, success.py:23-34: the promoted objective on the points
      best_particle[:,None,...], an array of shape (M,1). *)
  Definition value_success (c : cfg) (thresh : F) (s : st) : res (result * st) :=
    let vals := map (fun v => [c_f c v]) (s_bp s) in
    r <- mk (length (s_bp s)) (np_where (map (existsb (fun v => fltb v thresh)) vals)) ;;
    Ok (r, set_fcalls (s_fcalls s + length (s_bp s)) s).

  (** [np.intersect1d] *)
  Definition intersect1d (a b : list nat) : list nat := filter (fun m => existsb (Nat.eqb m) b) (unique a).

  Fixpoint eval_loop (crits : list (st -> res (list nat))) (s : st) (idx : list nat) : res (list nat) :=
    match crits with
    | [] => Ok idx
    | crit :: crits' => r <- crit s ;; eval_loop crits' s (intersect1d r idx)
    end.

  (** evaluation.__call__, success.py:41-50; [None] cannot be iterated. The criteria are
      functions that return the list result['idx']; a change of the dynamic by a criterion
      (the evaluation counter) is not threaded through. *)
  Definition evaluation (crits : option (list (st -> res (list nat)))) (s : st) : res result :=
    match crits with
    | None => Err TypeError
    | Some cs => idx <- eval_loop cs s (seq 0 (s_M s)) ;; mk (s_M s) idx
    end.
End Success.
