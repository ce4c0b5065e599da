(** * Variants of CBO with their own inner step

    cbx/dynamics/mirrorcbo.py, adamcbo.py, driftconstrainedcbo.py, hypersurfacecbo.py,
    regcombinationcbo.py.  They inherit everything but the inner step (and additional
    attributes [E]) from CBO. *)
From Coq Require Import String List Arith Bool.
From Verif Require Import Scalar Np State Pdyn Memory.
Import ListNotations.
Open Scope nat_scope.
Open Scope list_scope.

Section Variant.
  Context {K V : Type} {O : KOps K}.
  Notation F := (fl K).
  Notation st := (st K V).
  Notation cfg := (cfg K V).
  Notation orc := (orc V).

  (** step, pdyn.py:294-311, with an overridden inner_step *)
  Definition vstep {E} (inner : cfg -> orc -> st -> E -> res (st * E)) (c : cfg) (o : orc) (p : st * E) : res (st * E) :=
    s1 <- pre_step c o (fst p) ;;
    q <- inner c o s1 (snd p) ;;
    s3 <- post_step c (fst q) ;;
    Ok (s3, snd q).

  (** the consensus just computed *)
  Definition the_cons (s : st) : res (arr V) := match s_cons s with Some cpt => Ok cpt | None => Err TypeError end.

  (** ** MirrorCBO *)

  (** mirror_step, mirrorcbo.py:286-293; [gc]: grad_conj of the mirror map on one particle; the additional
      attribute is self.y.  (The new x is a new array.) *)
  Definition mirror_inner (gc : V -> V) (c : cfg) (o : orc) (s : st) (y : arr V) : res (st * arr V) :=
    s1 <- compute_consensus c s ;;
    cpt <- the_cons s1 ;;
    xp <- gather (s_pidx s1) (s_x s1) ;;
    d0 <- bc2 (c_vsub c) xp cpt ;;
    ds <- correction c cpt d0 s1 ;;
    let '(d, s2) := ds in
    let upd := amapi (fun k n v => cbo_update c v (s_lamda s2) (s_dt s2) (s_sigma s2)
                                     (c_noise c (s_dt s2) v (o_z o k n))) d in
    yp <- gather (s_pidx s2) y ;;
    yp' <- iop2 (c_vadd c) yp upd ;;
    y' <- scatter (s_pidx s2) y yp' ;;
    Ok (set_x (map (map gc) y') (set_drift (Some d) s2), y').

  (** MirrorCBO.__init__, mirrorcbo.py:300-303: [self.y = self.mirrormap.grad(self.copy(self.x))] *)
  Definition mirror_attr (gr : V -> V) (s : st) : arr V := map (map gr) (s_x s).

  (** ** AdamCBO *)

  Record apar : Type := mkapar { a_b0 : F; a_b1 : F; a_eps : F }.
  (** powers of a parameter, [beta**n] *)
  Fixpoint fpow (a : F) (n : nat) : F := match n with 0 => Fin k1 | S n' => fmul a (fpow a n') end.

  (** AdamCBO.inner_step and update_moments, adamcbo.py:38-62.  [vsq]: [drift**2], [vquot eps m v]: [m/(v**0.5+eps)] on one particle
      (coordinatewise).  The additional attributes are self.m and self.v. *)
  Definition adam_inner (vsq : V -> V) (vquot : F -> V -> V -> V) (p : apar) (c : cfg) (o : orc) (s : st) (mv : arr V * arr V)
      : res (st * (arr V * arr V)) :=
    let '(m, v) := mv in
    s1 <- compute_consensus c s ;;
    cpt <- the_cons s1 ;;
    xp <- gather (s_pidx s1) (s_x s1) ;;
    d <- bc2 (c_vsub c) xp cpt ;;
    mp <- gather (s_pidx s1) m ;;
    mp' <- bc2 (c_vadd c) (map (map (c_vscale c (a_b0 p))) mp) (map (map (c_vscale c (fsub (Fin k1) (a_b0 p)))) d) ;;
    m' <- scatter (s_pidx s1) m mp' ;;
    vp <- gather (s_pidx s1) v ;;
    vp' <- bc2 (c_vadd c) (map (map (c_vscale c (a_b1 p))) vp)
             (map (map (fun dr => c_vscale c (fsub (Fin k1) (a_b1 p)) (vsq dr))) d) ;;
    v' <- scatter (s_pidx s1) v vp' ;;
    let mf := fdiv (Fin k1) (fsub (Fin k1) (fpow (a_b0 p) (S (s_it s1)))) in
    let vf := fdiv (Fin k1) (fsub (Fin k1) (fpow (a_b1 p) (S (s_it s1)))) in
    mq <- gather (s_pidx s1) m' ;;
    vq <- gather (s_pidx s1) v' ;;
    q <- bc2 (vquot (a_eps p)) (map (map (c_vscale c mf)) mq) (map (map (c_vscale c vf)) vq) ;;
    let noise := amapi (fun k n dr => c_vscale c (s_sigma s1) (c_noise c (s_dt s1) dr (o_z o k n))) d in
    u <- bc2 (c_vsub c) (map (map (c_vscale c (s_lamda s1))) q) noise ;;
    xp' <- iop2 (c_vsub c) xp u ;;
    x' <- scatter (s_pidx s1) (s_x s1) xp' ;;
    Ok (set_x x' (set_drift (Some d) s1), (m', v')).

  (** AdamCBO.__init__, adamcbo.py:25-36 *)
  Definition adam_attr (vzero : V) (s : st) : arr V * arr V := (map (map (fun _ => vzero)) (s_x s), map (map (fun _ => vzero)) (s_x s)).

  (** ** DriftConstrainedCBO *)

  (** MultiConstraint, constraints.py:7-77, on one particle: [g_grad x] is grad_squared_sum, [g_solve factor x x_tilde] the
      solution of the linear system (may raise).  [None]: no constraints; then grad_squared_sum is 0 and
      solve_Id_hessian_squared_sum returns 0. *)
  Record multi : Type := mkmulti { g_grad : V -> V; g_solve : F -> V -> V -> res V }.

  (** an array of results *)
  Definition solve_all (f : V -> V -> res V) (X Y : arr V) : res (arr V) :=
    rows <- bc2 pair X Y ;;
    mapM (mapM (fun p => f (fst p) (snd p))) rows.

  (** dc_inner_step, driftconstrainedcbo.py:9-22 (with sigma_indep = 0, so that indep_noise_step does
      nothing).  [x -= 0] changes nothing. *)
  Definition dc_inner (G : option multi) (eps : F) (c : cfg) (o : orc) (s : st) (u : unit) : res (st * unit) :=
    s1 <- compute_consensus c s ;;
    cpt <- the_cons s1 ;;
    d <- bc2 (c_vsub c) (s_x s1) cpt ;;
    let noise := amapi (fun k n v => c_vscale c (s_sigma s1) (c_noise c (s_dt s1) v (o_z o k n))) d in
    let sd := map (map (c_vscale c (fmul (s_lamda s1) (s_dt s1)))) d in
    match G with
    | None =>
        x_tilde <- bc2 (c_vadd c) sd noise ;;
        Ok (set_drift (Some d) s1, u)
    | Some g =>
        let cd := map (map (fun v => c_vscale c (fdiv (s_dt s1) eps) (g_grad g v))) (s_x s1) in
        a <- bc2 (c_vadd c) sd cd ;;
        x_tilde <- bc2 (c_vadd c) a noise ;;
        w <- solve_all (g_solve g (fdiv (s_dt s1) eps)) (s_x s1) x_tilde ;;
        x' <- iop2 (c_vsub c) (s_x s1) w ;;
        Ok (set_x x' (set_drift (Some d) s1), u)
    end.

  (** ** HyperSurfaceCBO *)

  (** A signed distance on one particle: tangent projection at x, the projection, and the correction
      term [nc dt sigma x drift] (noise_constr_iso or noise_constr_aniso, hypersurfacecbo.py:142-158). *)
  Record surface : Type := mksurface { h_tan : V -> V -> V; h_proj : V -> V; h_nc : F -> F -> V -> V -> V }.

  (** HyperSurfaceCBO.inner_step, hypersurfacecbo.py:122-140 *)
  Definition hyper_inner (S : surface) (c : cfg) (o : orc) (s : st) (u : unit) : res (st * unit) :=
    s1 <- compute_consensus c s ;;
    cpt <- the_cons s1 ;;
    d <- bc2 (c_vsub c) (s_x s1) cpt ;;
    let noise := amapi (fun k n v => c_vscale c (s_sigma s1) (c_noise c (s_dt s1) v (o_z o k n))) d in
    a <- bc2 (c_vadd c) (map (map (c_vscale c (s_dt s1))) cpt) noise ;;
    t <- bc2 (h_tan S) (s_x s1) a ;;
    dn <- bc2 (c_vadd c) (s_x s1) t ;;
    nc <- bc2 (h_nc S (s_dt s1) (s_sigma s1)) (s_x s1) d ;;
    x_tilde <- bc2 (c_vsub c) dn nc ;;
    Ok (set_x (map (map (h_proj S)) x_tilde) (set_drift (Some d) s1), u).

  (** ** RegCombinationCBO *)

  (** compute_consensus (pdyn.py:948-968) with an objective that acts on whole ensembles. *)
  Definition compute_consensus_with {E} (obj : arr V -> E -> res (E * arr F)) (c : cfg) (s : st) (e0 : E) : res (st * E) :=
    s0 <- maybe_save_points c s ;;
    xs <- gather (s_cidx s0) (s_x s0) ;;
    r <- obj xs e0 ;;
    let s1 := set_fcalls (s_fcalls s0 + npoints xs) (set_nfe (add_at (s_active s0) (shape1 xs) (s_nfe s0)) s0) in
    al <- takeM (s_alpha s1) (s_active s1) ;;
    cpt <- cc_call c (snd r) xs al ;;
    en <- scatter (s_cidx s1) (s_energy s1) (snd r) ;;
    Ok (set_energy en (set_cons (Some cpt) s1), fst r).

  (** RegCombinationCBO.inner_step, regcombinationcbo.py:24-43; [solve = None]: eps >= 1e15. *)
  Definition reg_inner {E} (obj : arr V -> E -> res (E * arr F)) (solve : option (F -> V -> V -> res V)) (eps : F)
      (c : cfg) (o : orc) (s : st) (e0 : E) : res (st * E) :=
    r <- compute_consensus_with obj c s e0 ;;
    let '(s1, e1) := r in
    cpt <- the_cons s1 ;;
    d <- bc2 (c_vsub c) (s_x s1) cpt ;;
    let noise := amapi (fun k n v => c_vscale c (s_sigma s1) (c_noise c (s_dt s1) v (o_z o k n))) d in
    a <- bc2 (c_vsub c) (s_x s1) (map (map (c_vscale c (fmul (s_lamda s1) (s_dt s1)))) d) ;;
    x_tilde <- bc2 (c_vadd c) a noise ;;
    x' <- match solve with
          | Some f => solve_all (f (fdiv (s_dt s1) eps)) (s_x s1) x_tilde
          | None => Ok x_tilde
          end ;;
    Ok (set_x x' (set_drift (Some d) s1), e1).
End Variant.
