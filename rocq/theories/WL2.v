(** * The mirror map weighted_L2 inside MirrorCBO: its gradient on arrays of any shape, and the memory shared by x and y *)
From Coq Require Import List Arith Bool Reals.
From Verif Require Import Scalar Np RVec Consensus Nd NdPart State Pdyn Variant.
Import ListNotations.
Open Scope nat_scope.

(** ** weighted_L2.grad on n-dimensional arrays *)

(** [A.T] *)
Definition transpose {A} (a : nd A) : nd A := mknd (rev (shape a)) (fun i => get a (rev i)).

(** [S @ x] for a matrix S and a stack of matrices x (the last two axes); other shapes raise ValueError *)
Definition matmul2 (S x : nd (fl R)) : res (nd (fl R)) :=
  match shape S, rev (shape x) with
  | [p; q], b :: a :: r =>
      if q =? a then
        Ok (mknd (rev r ++ [p; b])
              (fun i => match rev i with
                        | ib :: ia :: t => fsum (map (fun j => fmul (get S [ia; j]) (get x (rev t ++ [j; ib]))) (seq 0 q))
                        | _ => NaN
                        end))
      else Err ShapeError
  | _, _ => Err ShapeError
  end.

(** [np.reshape(x, s)] in C order; a different number of entries raises ValueError *)
Definition size (s : list nat) : nat := fold_right Nat.mul 1 s.
Fixpoint ravel (s i : list nat) : nat :=
  match s, i with _ :: s', k :: i' => k * size s' + ravel s' i' | _, _ => 0 end.
Fixpoint unravel (s : list nat) (k : nat) : list nat :=
  match s with [] => [] | _ :: s' => (k / size s') :: unravel s' (k mod size s') end.
Definition reshape (s : list nat) (x : nd (fl R)) : res (nd (fl R)) :=
  if size (shape x) =? size s then Ok (mknd s (fun i => get x (unravel (shape x) (ravel s i)))) else Err ShapeError.

(** weighted_L2.grad, mirrorcbo.py:174-175; arrays with less than two axes, on which [theta[:,:,None]] raises, are
    not considered *)
Definition wl2_grad (A theta : nd (fl R)) : res (nd (fl R)) :=
  s <- lift2 fadd A (transpose A) ;;
  p <- matmul2 (lift1 (fmul (Fin (1 / 2)%R)) s) (newaxis2 theta) ;;
  reshape (shape theta) p.

(** the default matrix [np.eye(1)], mirrorcbo.py:167-168 *)
Definition eye1 : nd (fl R) := mknd [1; 1] (fun _ => Fin 1%R).

(** ** The arrays x and y in memory *)

Section Heap.
  Context {K V : Type} {O : KOps K}.
  Notation F := (fl K).
  Notation st := (st K V).
  Notation cfg := (cfg K V).
  Notation orc := (orc V).

  (** The arrays in memory, and the ones that the attributes x and y name *)
  Record heap : Type := mkheap { cells : list (arr V); rx : nat; ry : nat }.
  Definition deref (h : heap) (r : nat) : arr V := nth r (cells h) [].
  Fixpoint put (r : nat) (v : arr V) (l : list (arr V)) : list (arr V) :=
    match l, r with [], _ => [] | _ :: t, 0 => v :: t | a :: t, S r' => a :: put r' v t end.
  (** an in-place operation on the array [r] *)
  Definition write (r : nat) (v : arr V) (h : heap) : heap := mkheap (put r v (cells h)) (rx h) (ry h).
  (** [self.x = v] for a newly allocated array v *)
  Definition new_x (v : arr V) (h : heap) : heap := mkheap (cells h ++ [v]) (length (cells h)) (ry h).

  (** [self.x = self.mirrormap.grad_conj(self.y)], mirrorcbo.py:293: every map of the library returns a new array,
      [Some g], except weighted_L2, which returns its argument, [None] (mirrorcbo.py:177-179) *)
  Definition conj_fun (g : option (V -> V)) : V -> V := match g with Some g => g | None => fun v => v end.
  Definition assign_conj (g : option (V -> V)) (h : heap) : heap :=
    match g with
    | Some g => new_x (map (map g) (deref h (ry h))) h
    | None => mkheap (cells h) (ry h) (ry h)
    end.

  (** post_process_default, pdyn.py:41-43, with copy_nan_to_num = False: [nn] replaces NaN and infinities in place,
      [cl] clips into a new array *)
  Definition post_heap (nn cl : V -> V) (h : heap) : heap :=
    let h1 := write (rx h) (map (map nn) (deref h (rx h))) h in
    new_x (map (map cl) (deref h1 (rx h1))) h1.

  (** step, pdyn.py:294-311, of MirrorCBO with the arrays in memory.  The array named x is also kept in [s_x]; the
      other parts of the step are those of mirror_inner and post_step.  They make no further names of the two arrays:
      x_old, the trackers and the best particles are copies. *)
  Definition hstep (g : option (V -> V)) (nn cl : V -> V) (c : cfg) (o : orc) (p : st * heap) : res (st * heap) :=
    let '(s, h) := p in
    s1 <- pre_step c o s ;;
    q <- mirror_inner (conj_fun g) c o s1 (deref h (ry h)) ;;
    s3 <- post_step c (fst q) ;;
    Ok (s3, post_heap nn cl (assign_conj g (write (ry h) (snd q) h))).

  (** MirrorCBO.__init__, mirrorcbo.py:300-303: y is computed from a copy of x *)
  Definition heap0 (gr : V -> V) (s : st) : heap := mkheap [s_x s; map (map gr) (s_x s)] 0 1.
End Heap.
Arguments heap : clear implicits.
