(** * Model of cbx/dynamics/cbo_memory.py and cbx/dynamics/pso.py

    Both dynamics keep the state of Pdyn.v and add a memory [y] (and PSO velocities [v]).
    The attributes y_old and v_old are written but never read and are left out. *)

From Coq Require Import String List Arith Bool.
From Verif Require Import Scalar Np State Pdyn.
Import ListNotations.
Open Scope nat_scope.
Open Scope list_scope.

Section Memory.
  Context {K V : Type} {O : KOps K}.
  Notation F := (fl K).
  Notation st := (st K V).
  Notation cfg := (cfg K V).
  Notation orc := (orc V).

  (** CBOMemory(CBO), cbo_memory.py:8; PSO(CBXDynamic), pso.py:8. *)
  Inductive mkind : Type := CBOMem | Pso.

  (** The additional scalar parameters: cbo_memory.py:48-64, pso.py:54-82. *)
  Record mpar : Type := mkmpar {
    p_lm : F;      (* self.lamda_memory *)
    p_sm : F;      (* self.sigma_memory *)
    p_m : F;       (* self.m (PSO) *)
    p_gamma : F    (* self.gamma (PSO) *)
  }.

  (** State: [m_ev] is a ghost field, the array handed to the objective by the latest
      evaluation of the positions (inner_step or constructor). *)
  Record mst : Type := mkmst {
    m_s : st;
    m_y : arr V;   (* self.y *)
    m_v : arr V;   (* self.v (PSO) *)
    m_ev : arr V
  }.

  (** Constructors: cbo_memory.py:48-68, pso.py:54-85, after super().__init__. *)
  Definition mem_init (c : cfg) (x0 : arr V) (checked : bool) (alpha sigma lamda dt : F)
             (perm0 : nat -> list nat)
             (names : option (list string)) (extra : list (trk)) (save : option nat) : res mst :=
    s <- init c x0 checked alpha sigma lamda dt perm0 names extra save ;;
    Ok (mkmst (set_energy (map (map (c_f c)) (s_x s))
                 (set_fcalls (s_fcalls s + npoints (s_x s))
                    (set_nfe (map (fun n => n + s_N s) (s_nfe s)) s)))
              (s_x s) (map (map (c_vscale c (Fin k0))) (s_x s)) (s_x s)).

  (** an array of updates: [f k n v] for row [k], cell [n] *)
  Definition amapi {A B} (f : nat -> nat -> A -> B) (a : arr A) : arr B :=
    mapi (fun k row => mapi (f k) row) a.

  (** [mask * diff], a Boolean array times an array of points. *)
  Definition vmask (c : cfg) (b : bool) (v : V) : V := c_vscale c (if b then Fin k1 else Fin k0) v.

  (** CBOMemory.compute_consensus, cbo_memory.py:114-129: all energies against the memory
      of the batch. *)
  Definition mem_consensus (c : cfg) (s : st) (y : arr V) : res (arr V) :=
    yb <- gather (s_cidx s) y ;;
    al <- takeM (s_alpha s) (s_active s) ;;
    cc_call c (s_energy s) yb al.

  (** cbo_step (cbo.py:40-50) with the overridden compute_consensus. *)
  Definition mem_cbo_step (c : cfg) (o : orc) (s : st) (y : arr V) : res st :=
    cpt <- mem_consensus c s y ;;
    let s1 := set_cons (Some cpt) s in
    xp <- gather (s_pidx s1) (s_x s1) ;;
    d0 <- bc2 (c_vsub c) xp cpt ;;
    ds <- correction c cpt d0 s1 ;;
    let '(d, s2) := ds in
    let upd := amapi (fun k n v => cbo_update c v (s_lamda s2) (s_dt s2) (s_sigma s2)
                                     (c_noise c (s_dt s2) v (o_z o k n))) d in
    xp' <- iop2 (c_vadd c) xp upd ;;
    x' <- scatter (s_pidx s2) (s_x s2) xp' ;;
    Ok (set_x x' (set_drift (Some d) s2)).

  (** memory_step, cbo_memory.py:78-84; [z2]: the draws of the second noise call. *)
  Definition memory_step (c : cfg) (p : mpar) (z2 : nat -> nat -> V) (s : st) (y : arr V) : res st :=
    xq <- gather (s_pidx s) (s_x s) ;;
    yq <- gather (s_pidx s) y ;;
    d <- bc2 (c_vsub c) xq yq ;;
    let upd := amapi (fun k n v => cbo_update c v (p_lm p) (s_dt s) (p_sm p)
                                     (c_noise c (s_dt s) v (z2 k n))) d in
    xq' <- iop2 (c_vadd c) xq upd ;;
    x' <- scatter (s_pidx s) (s_x s) xq' ;;
    Ok (set_x x' (set_drift (Some d) s)).

  (** The memory update shared by cbo_memory.py:106-111 ([inplace]: [y[i] += ...]) and
      pso.py:141-144 ([y[i] = y[i] + ...]); [s] is the state after the evaluation of [xe],
      [en] its result. *)
  Definition memorize (c : cfg) (inplace : bool) (s : st) (y v xe : arr V) (en : arr F) : res mst :=
    mask <- bc2 (fun e e' => fltb e' e) (s_energy s) en ;;
    yq <- gather (s_pidx s) y ;;
    diff <- bc2 (c_vsub c) xe yq ;;
    g <- bc2 (vmask c) mask diff ;;
    yq' <- (if inplace then iop2 (c_vadd c) yq g else bc2 (c_vadd c) yq g) ;;
    y' <- scatter (s_pidx s) y yq' ;;
    e' <- bc2 fmin (s_energy s) en ;;
    Ok (mkmst (set_energy e' s) y' v xe).

  (** CBOMemory.inner_step, cbo_memory.py:86-111. *)
  Definition mem_inner (c : cfg) (p : mpar) (o : orc) (z2 : nat -> nat -> V) (ms : mst) : res mst :=
    s1 <- mem_cbo_step c o (m_s ms) (m_y ms) ;;
    s2 <- memory_step c p z2 s1 (m_y ms) ;;
    xe <- gather (s_pidx s2) (s_x s2) ;;
    let '(en, s3) := eval_f c xe s2 in
    memorize c true s3 (m_y ms) (m_v ms) xe en.

  (** PSO.compute_consensus, pso.py:147-163, as called in pso.py:112. *)
  Definition pso_consensus (c : cfg) (s : st) (y : arr V) : res (arr V) :=
    yb <- gather (s_cidx s) y ;;
    eb <- gather (s_cidx s) (s_energy s) ;;
    al <- takeM (s_alpha s) (s_active s) ;;
    cc_call c eb yb al.

  (** PSO.inner_step, pso.py:96-144.  The division by m + gamma*dt is a multiplication with
      the reciprocal (exact arithmetic); [shape[-2]] of x[ind] is its number of particles
      (one-dimensional particles); self.f is called without eval_f. *)
  Definition pso_inner (c : cfg) (p : mpar) (o : orc) (z2 : nat -> nat -> V) (ms : mst) : res mst :=
    let s := m_s ms in
    cpt <- pso_consensus c s (m_y ms) ;;
    let s1 := set_cons (Some cpt) s in
    xp <- gather (s_pidx s1) (s_x s1) ;;
    cd <- bc2 (c_vsub c) xp cpt ;;
    yp <- gather (s_pidx s1) (m_y ms) ;;
    md <- bc2 (c_vsub c) xp yp ;;
    let sc := amapi (fun k n d => c_vscale c (s_sigma s1) (c_noise c (s_dt s1) d (o_z o k n))) cd in
    let sm := amapi (fun k n d => c_vscale c (p_sm p) (c_noise c (s_dt s1) d (z2 k n))) md in
    vp <- gather (s_pidx s1) (m_v ms) ;;
    ds <- correction c cpt (map (map (c_vscale c (fmul (s_lamda s1) (s_dt s1)))) cd) s1 ;;
    let '(kd, s2) := ds in
    a1 <- bc2 (c_vadd c) (map (map (c_vscale c (fmul (p_m p) (s_dt s2)))) vp) kd ;;
    a2 <- bc2 (c_vadd c) a1 (map (map (c_vscale c (fmul (p_lm p) (s_dt s2)))) md) ;;
    a3 <- bc2 (c_vadd c) a2 sc ;;
    a4 <- bc2 (c_vadd c) a3 sm ;;
    let q := fadd (p_m p) (fmul (p_gamma p) (s_dt s2)) in
    v' <- scatter (s_pidx s2) (m_v ms) (map (map (c_vscale c (fdiv (Fin k1) q))) a4) ;;
    xq <- gather (s_pidx s2) (s_x s2) ;;
    vq <- gather (s_pidx s2) v' ;;
    xq' <- bc2 (c_vadd c) xq (map (map (c_vscale c (s_dt s2))) vq) ;;
    x' <- scatter (s_pidx s2) (s_x s2) xq' ;;
    xe <- gather (s_pidx s2) x' ;;
    let s3 := set_fcalls (s_fcalls s2 + npoints xe)
                (set_nfe (map (fun n => n + shape1 xe) (s_nfe s2))
                   (set_x x' (set_drift (Some md) s2))) in
    memorize c false s3 (m_y ms) v' xe (map (map (c_f c)) xe).

  (** CBOMemory.update_best_cur_particle, cbo_memory.py:131-136: the particles are taken
      from self.x. *)
  Definition mem_update_best_cur (s : st) : res st :=
    am <- mapM argmin (s_energy s) ;;
    let js := map fst am in
    p <- pick (s_x s) js ;;
    e <- pick (s_energy s) js ;;
    Ok (set_bce e (set_bcp p (set_fmin (map snd am) s))).

  (** post_step, pdyn.py:919-929; PSO inherits update_best_cur_particle (pdyn.py:512-529). *)
  Definition mem_post_step (k : mkind) (c : cfg) (s : st) : res st :=
    let s1 := set_x (map (map (c_pp c)) (s_x s)) s in
    let s2 := match s_xold s1 with
              | Some xo => set_udiff (map2 (fun r ro => c_norm c (map2 (c_vsub c) r ro)) (s_x s1) xo) s1
              | None => s1
              end in
    s3 <- match k with CBOMem => mem_update_best_cur s2 | Pso => update_best_cur s2 end ;;
    let s4 := update_best s3 in
    s5 <- track c s4 ;;
    Ok (set_it (S (s_it s5)) (set_t (fadd (s_t s5) (s_dt s5)) s5)).

  (** step, pdyn.py:294-311, with pre_step of cbo_memory.py:70-76 / pso.py:87-94. *)
  Definition mem_step (k : mkind) (c : cfg) (p : mpar) (o : orc) (z2 : nat -> nat -> V) (ms : mst) : res mst :=
    s1 <- pre_step c o (m_s ms) ;;
    let ms1 := mkmst s1 (m_y ms) (m_v ms) (m_ev ms) in
    ms2 <- match k with CBOMem => mem_inner c p o z2 ms1 | Pso => pso_inner c p o z2 ms1 end ;;
    s3 <- mem_post_step k c (m_s ms2) ;;
    Ok (mkmst s3 (m_y ms2) (m_v ms2) (m_ev ms2)).

  (** optimize, pdyn.py:324-364, for these dynamics (parameters not scheduled). *)
  Fixpoint mem_optimize (k : mkind) (c : cfg) (p : mpar) (os : nat -> orc) (zs : nat -> nat -> nat -> V)
           (fuel i : nat) (ms : mst) : option (res mst) :=
    match terminate c (m_s ms) with
    | Err e => Some (Err e)
    | Ok (true, s') => Some (Ok (mkmst s' (m_y ms) (m_v ms) (m_ev ms)))
    | Ok (false, s') =>
        match fuel with
        | 0 => None
        | S fuel' =>
            match mem_step k c p (os i) (zs i) (mkmst s' (m_y ms) (m_v ms) (m_ev ms)) with
            | Err e => Some (Err e)
            | Ok ms2 => mem_optimize k c p os zs fuel' (S i) ms2
            end
        end
    end.
End Memory.
Arguments mst : clear implicits.
Arguments mpar : clear implicits.
