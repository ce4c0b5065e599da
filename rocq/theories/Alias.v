(** * Which arrays are shared: the initial ensemble, [self.x] and history['x']

    A memory of NumPy buffers beside the state of Pdyn.v.  Only arrays that hold the particles are followed:
    the user's array, the one [self.x] refers to and the entries of history['x'].  (x_old, best_particle, the saved
    consensus points are made with [self.copy] or by fancy indexing and never share memory with these.)
    [self.copy] is assumed to copy (np.copy is the default). *)
From Coq Require Import String List Arith Bool.
From Verif Require Import Scalar Np State Pdyn.
Import ListNotations.
Open Scope nat_scope.
Open Scope list_scope.

Section Alias.
  Context {K V : Type} {O : KOps K}.
  Notation st := (st K V).
  Notation cfg := (cfg K V).
  Notation orc := (orc V).

  (** buffers by address; addresses held by the user, by self.x and by history['x'] *)
  Record mem : Type := mkmem { m_heap : list (arr V); m_user : nat; m_x : nat; m_hist : list nat }.
  Definition deref (m : mem) (a : nat) : option (arr V) := nth_error (m_heap m) a.
  (** writing into the buffer of self.x *)
  Definition write_x (v : arr V) (m : mem) : mem :=
    mkmem (mapi (fun a old => if a =? m_x m then v else old) (m_heap m)) (m_user m) (m_x m) (m_hist m).
  (** self.x = (a new array) *)
  Definition rebind_x (v : arr V) (m : mem) : mem :=
    mkmem (m_heap m ++ [v]) (m_user m) (length (m_heap m)) (m_hist m).
  (** history['x'].append(copy(self.x)), history.py:91 *)
  Definition record_x (m : mem) : mem :=
    match deref m (m_x m) with
    | Some v => mkmem (m_heap m ++ [v]) (m_user m) (m_x m) (m_hist m ++ [length (m_heap m)])
    | None => m
    end.

  Definition is_tx (t : trk) : bool := match t with TX => true | _ => false end.
  Definition n_tx (ts : list (trk)) : nat := length (filter is_tx ts).

  (** init_x, pdyn.py:198-203: the reshaped x is a view of the user's buffer, self.x a copy;
      track_x.init_history, history.py:73-75: the list is replaced by one with self.x itself, not a copy *)
  Definition mem_init (x0 : arr V) (ts : list (trk)) : mem :=
    mkmem [x0; x0] 0 1 (if n_tx ts =? 0 then [] else [1]).

  (** How the inner step changes self.x: CBO, AdamCBO, CBOMemory, PSO, DriftConstrainedCBO write into the array
      (cbo.py:46, adamcbo.py:47, cbo_memory.py:81, pso.py:135, driftconstrainedcbo.py:19); HyperSurfaceCBO, MirrorCBO,
      RegCombinationCBO assign a new one (hypersurfacecbo.py:140, mirrorcbo.py:293, regcombinationcbo.py:33-40). *)
  Inductive binding := InPlace | NewArray.
  (** The post-processing: [PNumpy nan clip] replaces NaN in place and assigns the clipped array (pdyn.py:41-43);
      [PNew f] assigns a new array (torch_utils.py:74-76, mirrorcbo.py:17); [PWrite f] only writes into the array,
      e.g. a user's function that does nothing. *)
  Inductive pproc := PNumpy (nan clip : V -> V) | PNew (f : V -> V) | PWrite (f : V -> V).
  Definition pp_fun (p : pproc) (v : V) : V := match p with PNumpy nan clip => clip (nan v) | PNew f => f v | PWrite f => f v end.
  Definition mem_pp (p : pproc) (x : arr V) (m : mem) : mem :=
    match p with
    | PNumpy nan clip => rebind_x (map (map clip) (map (map nan) x)) (write_x (map (map nan) x) m)
    | PNew f => rebind_x (map (map f) x) m
    | PWrite f => write_x (map (map f) x) m
    end.

  (** step, pdyn.py:294-311 and 910-929; the post-processing comes before tracking *)
  Definition mem_step (b : binding) (p : pproc) (inner : cfg -> orc -> st -> res st) (c : cfg) (o : orc) (sm : st * mem) : res (arr V * (st * mem)) :=
    let '(s, m) := sm in
    s1 <- pre_step c o s ;;
    s2 <- inner c o s1 ;;
    let m1 := match b with InPlace => write_x (s_x s2) m | NewArray => rebind_x (s_x s2) m end in
    let m2 := mem_pp p (s_x s2) m1 in
    s3 <- post_step c s2 ;;
    let m3 := if s_it s2 mod s_save s2 =? 0 then Nat.iter (n_tx (s_tracks s2)) record_x m2 else m2 in
    Ok (s_x s2, (s3, m3)).

  (** reset, pdyn.py:931-934: a new history with the default names (no 'x') *)
  Definition mem_reset (m : mem) : mem := mkmem (m_heap m) (m_user m) (m_x m) [].
End Alias.
Arguments mem : clear implicits.
Arguments pproc : clear implicits.
