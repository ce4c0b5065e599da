(** * Integer ensembles: element types of the arrays (cbx/dynamics/pdyn.py:178-208, 670-686, cbo.py:46-49, cbo_memory.py:78-84, pso.py:73-77, 127-144)

    All other files take the cells of an array to be floating-point numbers.  An ensemble [x] given as an integer array keeps its element type through
    [self.copy(x)]; here the element type is explicit.  Integers are unbounded (NumPy's wrap around at 64 bits). *)
From Coq Require Import String List Arith Bool Reals.
From Flocq Require Import Core.Raux.
From Verif Require Import Scalar Np State Pdyn Cbo Memory.
Import ListNotations.
Open Scope R_scope.

Inductive dtype : Type := DInt | DFloat.

(** the C cast of a double to an integer: rounding towards zero; NaN and infinities give the smallest integer (x86-64) *)
Definition cast1 (d : dtype) (a : fl R) : fl R :=
  match d, a with
  | DFloat, _ => a
  | DInt, Fin r => Fin (IZR (Ztrunc r))
  | DInt, _ => Fin (IZR (- 2 ^ 63))
  end.
Definition castv (d : dtype) (v : vec) : vec := map (cast1 d) v.
Definition casta (d : dtype) (X : arr vec) : arr vec := map (map (castv d)) X.

(** [X[i] = Y] for a floating-point Y: the values are cast to the element type of X *)
Definition scatter_t (d : dtype) (i : idx) (X Y : arr vec) : res (arr vec) := scatter i X (casta d Y).
(** [X op= Y] for a floating-point Y: NumPy refuses to store the result in an integer array (UFuncTypeError, a TypeError) *)
Definition iop2_t (d : dtype) (f : vec -> vec -> vec) (X Y : arr vec) : res (arr vec) :=
  match d with DInt => Err TypeError | DFloat => iop2 f X Y end.

(** ** alpha *)
(** The argument and attribute alpha: a Python number (int, float; also np.float64, a subclass of float), a NumPy scalar or 0-d array (np.float32, np.int64),
    arrays with one and two axes. *)
Inductive alpha_val : Type := ANum (r : R) | ANp0 (r : R) | ANp1 (l : list (fl R)) | ANp2 (l : arr (fl R)).
(** CBXDynamic.init_alpha, pdyn.py:670-686: a number is written into a copy of the first coordinates of x, which has the element type of x *)
Definition init_alpha (d : dtype) (M : nat) (a : alpha_val) : alpha_val :=
  match a with ANum r => ANp2 (repeat [cast1 d (Fin r)] M) | _ => a end.
(** [self.alpha[self.active_runs_idx, :]], pdyn.py:966, cbo_memory.py:128, pso.py:162 *)
Definition alpha_rows (a : alpha_val) (act : list nat) : res (arr (fl R)) :=
  match a with
  | ANum _ => Err TypeError
  | ANp0 _ | ANp1 _ => Err IndexError
  | ANp2 l => takeM l act
  end.

(** ** CBO and CBOMemory: the in-place addition, cbo.py:46-49 *)
Definition cbo_step_t (d : dtype) (c : cfg R vec) (o : orc vec) (s : st R vec) : res (st R vec) :=
  s1 <- compute_consensus c s ;;
  match s_cons s1 with
  | None => Err TypeError
  | Some cpt =>
      xp <- gather (s_pidx s1) (s_x s1) ;;
      d0 <- bc2 (c_vsub c) xp cpt ;;
      ds <- correction c cpt d0 s1 ;;
      let '(dr, s2) := ds in
      let upd := mapi (fun k row => mapi (fun n v => cbo_update c v (s_lamda s2) (s_dt s2) (s_sigma s2) (c_noise c (s_dt s2) v (o_z o k n))) row) dr in
      xp' <- iop2_t d (c_vadd c) xp upd ;;
      x' <- scatter (s_pidx s2) (s_x s2) xp' ;;
      Ok (set_x x' (set_drift (Some dr) s2))
  end.
Definition step_t (d : dtype) (c : cfg R vec) (o : orc vec) (s : st R vec) : res (st R vec) :=
  s1 <- pre_step c o s ;; s2 <- cbo_step_t d c o s1 ;; post_step c s2.
(** CBXDynamic.__init__ and init_alpha: alpha is cast *)
Definition init_t (d : dtype) (c : cfg R vec) (x0 : arr vec) (checked : bool) (alpha sigma lamda dt : fl R) (perm0 : nat -> list nat)
    (names : option (list string)) (extra : list trk) (save : option nat) : res (st R vec) :=
  init c x0 checked (cast1 d alpha) sigma lamda dt perm0 names extra save.

(** cbo_step with the consensus of CBOMemory, cbo_memory.py:100, 114-129 *)
Definition mem_cbo_step_t (d : dtype) (c : cfg R vec) (o : orc vec) (s : st R vec) (y : arr vec) : res (st R vec) :=
  cpt <- mem_consensus c s y ;;
  let s1 := set_cons (Some cpt) s in
  xp <- gather (s_pidx s1) (s_x s1) ;;
  d0 <- bc2 (c_vsub c) xp cpt ;;
  ds <- correction c cpt d0 s1 ;;
  let '(dr, s2) := ds in
  let upd := amapi (fun k n v => cbo_update c v (s_lamda s2) (s_dt s2) (s_sigma s2) (c_noise c (s_dt s2) v (o_z o k n))) dr in
  xp' <- iop2_t d (c_vadd c) xp upd ;;
  x' <- scatter (s_pidx s2) (s_x s2) xp' ;;
  Ok (set_x x' (set_drift (Some dr) s2)).
(** CBOMemory.step: everything after the first addition is reached with floating-point arrays only *)
Definition mem_step_t (d : dtype) (c : cfg R vec) (p : mpar R) (o : orc vec) (z2 : nat -> nat -> vec) (ms : mst R vec) : res (mst R vec) :=
  s1 <- pre_step c o (m_s ms) ;;
  q1 <- mem_cbo_step_t d c o s1 (m_y ms) ;;
  q2 <- memory_step c p z2 q1 (m_y ms) ;;
  xe <- gather (s_pidx q2) (s_x q2) ;;
  let '(en, s3) := eval_f c xe q2 in
  ms2 <- memorize c true s3 (m_y ms) (m_v ms) xe en ;;
  s4 <- mem_post_step CBOMem c (m_s ms2) ;;
  Ok (mkmst s4 (m_y ms2) (m_v ms2) (m_ev ms2)).

(** ** PSO *)
(** y and v are copies of x (pso.py:73-77) and keep its element type [t_d]; x itself is replaced by post_process in every step, [t_x] is its current
    element type. *)
Record tst : Type := mktst { t_d : dtype; t_x : dtype; t_ms : mst R vec }.

(** [self.y[ind] = self.y[ind] + mask * (self.x[ind] - self.y[ind])] and the energies, pso.py:141-144 *)
Definition memorize_t (d : dtype) (c : cfg R vec) (s : st R vec) (y v xe : arr vec) (en : arr (fl R)) : res (mst R vec) :=
  mask <- bc2 (fun e e' => fltb e' e) (s_energy s) en ;;
  yq <- gather (s_pidx s) y ;;
  diff <- bc2 (c_vsub c) xe yq ;;
  g <- bc2 (vmask c) mask diff ;;
  yq' <- bc2 (c_vadd c) yq g ;;
  y' <- scatter_t d (s_pidx s) y yq' ;;
  e' <- bc2 fmin (s_energy s) en ;;
  Ok (mkmst (set_energy e' s) y' v xe).
(** PSO.inner_step, pso.py:96-144, with the three assignments [v[ind] = ], [x[ind] = ], [y[ind] = ] into arrays of their own element types *)
Definition pso_inner_t (dv dx : dtype) (c : cfg R vec) (p : mpar R) (o : orc vec) (z2 : nat -> nat -> vec) (ms : mst R vec) : res (mst R vec) :=
  let s := m_s ms in
  cpt <- pso_consensus c s (m_y ms) ;;
  let s1 := set_cons (Some cpt) s in
  xp <- gather (s_pidx s1) (s_x s1) ;;
  cd <- bc2 (c_vsub c) xp cpt ;;
  yp <- gather (s_pidx s1) (m_y ms) ;;
  md <- bc2 (c_vsub c) xp yp ;;
  let sc := amapi (fun k n d => c_vscale c (s_sigma s1) (c_noise c (s_dt s1) d (o_z o k n))) cd in
  let sm := amapi (fun k n d => c_vscale c (p_sm p) (c_noise c (s_dt s1) d (z2 k n))) md in
  vp <- gather (s_pidx s1) (m_v ms) ;;
  ds <- correction c cpt (map (map (c_vscale c (fmul (s_lamda s1) (s_dt s1)))) cd) s1 ;;
  let '(kd, s2) := ds in
  a1 <- bc2 (c_vadd c) (map (map (c_vscale c (fmul (p_m p) (s_dt s2)))) vp) kd ;;
  a2 <- bc2 (c_vadd c) a1 (map (map (c_vscale c (fmul (p_lm p) (s_dt s2)))) md) ;;
  a3 <- bc2 (c_vadd c) a2 sc ;;
  a4 <- bc2 (c_vadd c) a3 sm ;;
  let q := fadd (p_m p) (fmul (p_gamma p) (s_dt s2)) in
  v' <- scatter_t dv (s_pidx s2) (m_v ms) (map (map (c_vscale c (fdiv (Fin k1) q))) a4) ;;
  xq <- gather (s_pidx s2) (s_x s2) ;;
  vq <- gather (s_pidx s2) v' ;;
  xq' <- bc2 (c_vadd c) xq (map (map (c_vscale c (s_dt s2))) vq) ;;
  x' <- scatter_t dx (s_pidx s2) (s_x s2) xq' ;;
  xe <- gather (s_pidx s2) x' ;;
  let s3 := set_fcalls (s_fcalls s2 + npoints xe)
              (set_nfe (map (fun n => n + shape1 xe)%nat (s_nfe s2))
                 (set_x x' (set_drift (Some md) s2))) in
  memorize_t dv c s3 (m_y ms) v' xe (map (map (c_f c)) xe).

(** PSO.__init__, pso.py:54-85 *)
Definition pso_init_t (d : dtype) (c : cfg R vec) (x0 : arr vec) (checked : bool) (alpha sigma lamda dt : fl R) (perm0 : nat -> list nat)
    (names : option (list string)) (extra : list trk) (save : option nat) : res tst :=
  ms <- mem_init c x0 checked (cast1 d alpha) sigma lamda dt perm0 names extra save ;; Ok (mktst d d ms).
(** step, pdyn.py:294-311; [ppd]: the element type post_process returns.  post_process_default ends with np.clip(x, -1e8, 1e8) (pdyn.py:43), which gives
    floats for every x. *)
Definition pso_step_t (ppd : dtype -> dtype) (c : cfg R vec) (p : mpar R) (o : orc vec) (z2 : nat -> nat -> vec) (t : tst) : res tst :=
  s1 <- pre_step c o (m_s (t_ms t)) ;;
  let ms1 := mkmst s1 (m_y (t_ms t)) (m_v (t_ms t)) (m_ev (t_ms t)) in
  ms2 <- pso_inner_t (t_d t) (t_x t) c p o z2 ms1 ;;
  s3 <- mem_post_step Pso c (m_s ms2) ;;
  Ok (mktst (t_d t) (ppd (t_x t)) (mkmst s3 (m_y ms2) (m_v ms2) (m_ev ms2))).
Definition pp_default_dtype (d : dtype) : dtype := DFloat.
