(** * Random number generators: which stream feeds what

    pdyn.py:139-148, 173-177 (seed, sampler), 207-211 (initial particles), 229-235 (check_f_dims), 711-736 and 783-790 (batches).  Generators are states of
    an abstract type; every use returns the drawn array and the state after it.  Several dynamics and the other users of numpy's global stream live in one
    process.  Not modelled: resampling and the independent noise of DriftConstrainedCBO (further draws per step), torch generators. *)
From Coq Require Import String List Arith Bool.
From Verif Require Import Scalar Np State Pdyn.
Import ListNotations.
Open Scope nat_scope.
Open Scope list_scope.

(** numpy: [np_rng s] = np.random.default_rng(s), [np_mt s] = Generator(MT19937(s)), [np_fresh] = a generator seeded by the operating system (seed None),
    [np_normal g r c] = g.standard_normal of an array of r x c points, [np_uniform] likewise np.random.uniform(-1, 1), [np_permuted g r n] =
    g.permuted(repeat(arange(n), r), axis=1). *)
Record numpy (G V : Type) : Type := mknumpy {
  np_rng : nat -> G; np_mt : nat -> G; np_fresh : G -> G * G;
  np_normal : G -> nat -> nat -> (nat -> nat -> V) * G;
  np_uniform : G -> nat -> nat -> arr V * G;
  np_permuted : G -> nat -> nat -> (nat -> list nat) * G }.
Arguments np_rng {G V}. Arguments np_mt {G V}. Arguments np_fresh {G V}. Arguments np_normal {G V}. Arguments np_uniform {G V}. Arguments np_permuted {G V}.

Section Seed.
  Context {K V G : Type} {O : KOps K}.
  Notation F := (fl K).
  Notation st := (st K V).
  Notation cfg := (cfg K V).
  Notation orc := (orc V).

  (** the streams outside the dynamics: np.random and the operating system *)
  Record world : Type := mkworld { w_glob : G; w_os : G }.
  (** a dynamic: its state, the generator behind self.sampler, self.batch_rng *)
  Record dyn : Type := mkdyn { d_s : st; d_rng : G; d_batch : G }.
  (** arguments of the constructor; [a_global]: the sampler passed in draws from np.random (np.random.normal, the exponential samplers) *)
  Record args : Type := mkargs {
    a_c : cfg; a_x : option (arr V); a_M : nat; a_N : nat; a_seed : option nat; a_bseed : nat; a_check : bool; a_global : bool;
    a_alpha : F; a_sigma : F; a_lamda : F; a_dt : F; a_names : option (list string); a_extra : list trk; a_save : option nat }.

  (** default_rng(self.seed), pdyn.py:176 *)
  Definition make_rng (R : numpy G V) (seed : option nat) (w : world) : G * world :=
    match seed with
    | Some sd => (np_rng R sd, w)
    | None => let '(g, e) := np_fresh R (w_os w) in (g, mkworld (w_glob w) e)
    end.
  (** self.sampler(size=...): the own generator or the global stream *)
  Definition sample (R : numpy G V) (glob : bool) (r n : nat) (w : world) (g : G) : (nat -> nat -> V) * (world * G) :=
    if glob then let '(z, g') := np_normal R (w_glob w) r n in (z, (mkworld g' (w_os w), g))
    else let '(z, g') := np_normal R g r n in (z, (w, g')).
  (** __init__, pdyn.py:126-168, 629-658, in the order of the draws: generator, particles, check of the objective, batches *)
  Definition construct (R : numpy G V) (a : args) (w : world) : res dyn * world :=
    let '(g, w1) := make_rng R (a_seed a) w in
    let '(x, w2) := match a_x a with
                    | Some x => (x, w1)
                    | None => let '(u, g') := np_uniform R (w_glob w1) (a_M a) (a_N a) in (u, mkworld g' (w_os w1))
                    end in
    let '(w3, g1) := if a_check a then snd (sample R (a_global a) (length x) (shape1 x) w2 g) else (w2, g) in
    let b0 := np_mt R (a_bseed a) in
    let '(p0, b1) := if c_bsize (a_c a) =? shape1 x then ((fun _ => []), b0) else np_permuted R b0 (length x) (shape1 x) in
    (s <- init (a_c a) x (a_check a) (a_alpha a) (a_sigma a) (a_lamda a) (a_dt a) p0 (a_names a) (a_extra a) (a_save a) ;; Ok (mkdyn s g1 b1), w3).

  (** the indices are exhausted, pdyn.py:783 *)
  Definition refill (c : cfg) (s : st) : bool := if c_bsize c =? s_N s then false else shape1 (s_ind s) <? c_bsize c.
  (** number of particles of a run in self.x[self.particle_idx] *)
  Definition width (c : cfg) (s : st) : nat := if c_bsize c =? s_N s then s_N s else if c_partial c then c_bsize c else s_N s.
  (** step, pdyn.py:294-311: permutations if needed, then one array of the shape of the drift (noise.py; cbo.py:46-49) *)
  Definition seeded_step (R : numpy G V) (a : args) (w : world) (d : dyn) : res dyn * world :=
    let s := d_s d in
    let '(p, b') := if refill (a_c a) s then np_permuted R (d_batch d) (s_M s) (s_N s) else ((fun _ => []), d_batch d) in
    let '(z, (w', g')) := sample R (a_global a) (length (s_active s)) (width (a_c a) s) w (d_rng d) in
    (s' <- step (a_c a) {| o_z := z; o_perm := p |} s ;; Ok (mkdyn s' g' b'), w').

  (** optimize, pdyn.py:324-364, interrupted after [fuel] iterations if it has not ended before *)
  Fixpoint seeded_opt (R : numpy G V) (a : args) (sched : st -> res st) (fuel : nat) (w : world) (d : dyn) : res dyn * world :=
    match fuel with
    | 0 => (Ok d, w)
    | S fuel' =>
        match terminate (a_c a) (d_s d) with
        | Err e => (Err e, w)
        | Ok (true, s') => (Ok (mkdyn s' (d_rng d) (d_batch d)), w)
        | Ok (false, s') =>
            match seeded_step R a w (mkdyn s' (d_rng d) (d_batch d)) with
            | (Err e, w') => (Err e, w')
            | (Ok d1, w') => match sched (d_s d1) with
                             | Err e => (Err e, w')
                             | Ok s2 => seeded_opt R a sched fuel' w' (mkdyn s2 (d_rng d1) (d_batch d1))
                             end
            end
        end
    end.

  (** what a script does with its dynamics, numbered by [k]; [CWorld]: anything else that uses or reseeds np.random (or asks the system for entropy) *)
  Inductive cmd : Type :=
  | CNew (k : nat) (a : args)
  | CStep (k : nat)
  | COpt (k : nat) (sched : st -> res st) (fuel : nat)
  | CReset (k : nat)
  | CWorld (f : world -> world).
  (** the dynamics of the script; one which raised is kept as its exception *)
  Definition slots : Type := nat -> option (args * res dyn).
  Definition upd (k : nat) (v : option (args * res dyn)) (f : slots) : slots := fun j => if j =? k then v else f j.
  Definition on_dyn (f : args -> world -> dyn -> res dyn * world) (k : nat) (p : world * slots) : world * slots :=
    match snd p k with
    | Some (a, Ok d) => let '(r, w') := f a (fst p) d in (w', upd k (Some (a, r)) (snd p))
    | _ => p
    end.
  Definition run_cmd (R : numpy G V) (p : world * slots) (x : cmd) : world * slots :=
    match x with
    | CNew k a => let '(r, w') := construct R a (fst p) in (w', upd k (Some (a, r)) (snd p))
    | CStep k => on_dyn (seeded_step R) k p
    | COpt k sched fuel => on_dyn (fun a => seeded_opt R a sched fuel) k p
    | CReset k => on_dyn (fun a w d => (Ok (mkdyn (reset (d_s d)) (d_rng d) (d_batch d)), w)) k p
    | CWorld f => (f (fst p), snd p)
    end.
  Definition run_script (R : numpy G V) (l : list cmd) (w : world) : world * slots := fold_left (run_cmd R) l (w, fun _ => None).
End Seed.
Arguments world : clear implicits.
Arguments dyn : clear implicits.
Arguments args : clear implicits.
Arguments cmd : clear implicits.
Arguments slots : clear implicits.
