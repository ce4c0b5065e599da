(** * Model of cbx/dynamics/pdyn.py and cbx/dynamics/cbo.py

    Every method is a function on the state record; user-supplied callables are
    fields of [cfg]; random draws are fields of [orc]. *)

From Coq Require Import String List Arith Bool.
From Verif Require Import Scalar Np State.
Import ListNotations.
Open Scope string_scope.
Open Scope nat_scope.
Open Scope list_scope.

Section Pdyn.
  Context {K V : Type} {O : KOps K}.
  Notation F := (fl K).
  Notation st := (st K V).
  Notation hval := (hval K V).

  (** Corrections, correction.py:5-94.  [Heavi fac]: the drift of a particle is
      multiplied by [fac (energy - f(consensus))]; see [heavi_side_fac]. *)
  Inductive corr : Type :=
  | NoCorr
  | Heavi (fac : F -> F).

  (** Built-in per-run termination criteria, utils/termination.py:6-97.
      [energy_stagnation_term] keeps its own buffer and is modelled in Stagnation.v;
      [CCustom]: any user-supplied callable. *)
  Inductive crit : Type :=
  | CEnergyTol (tol : F)
  | CDiffTol (tol : F)
  | CMaxEval (n : nat)
  | CMaxIt (n : option nat)
  | CMaxTime (T : F)
  | CCustom (g : st -> list bool).

  Record cfg : Type := mkcfg {
    c_f : V -> F;                     (* promoted objective, pointwise (see Objective.v) *)
    c_vadd : V -> V -> V;             (* array arithmetic inside one particle *)
    c_vsub : V -> V -> V;
    c_vscale : F -> V -> V;
    c_norm : list V -> F;             (* norm(.., axis=(-2,-1)) / N of one run *)
    c_dmean : list V -> F;            (* mean absolute value of one run (drift_mean) *)
    c_ccrow : list F -> list V -> F -> list V;  (* compute_consensus on one run *)
    c_noise : F -> V -> V -> V;       (* noise: dt, drift, draw of one particle *)
    c_pp : V -> V;                    (* post_process on one particle *)
    c_corr : corr;
    c_bsize : nat;                    (* self.batch_size *)
    c_partial : bool;                 (* self.batch_partial *)
    c_concat : bool;                  (* self.batch_var == 'concat' *)
    c_crit : list crit;               (* self.term_criteria *)
    c_savepts : bool                  (* self.save_consensus_eval_points *)
  }.

  (** Random inputs of one step: the noise draw for row [k], particle [n] of the
      sampled array, and the fresh permutation of run [m]. *)
  Record orc : Type := mkorc {
    o_z : nat -> nat -> V;
    o_perm : nat -> list nat
  }.

  (** heavi_side_correction.correct, correction.py:79-81: [np.where(z > 0, 1, 0)]. *)
  Definition heavi_side_fac (z : F) : F := if fltb (Fin k0) z then Fin k1 else Fin k0.

  (** cbo_update, cbo.py:3-4. *)
  Definition cbo_update (c : cfg) (drift : V) (lamda dt sigma : F) (noise : V) : V :=
    c_vadd c (c_vscale c (fmul (fopp lamda) dt) drift) (c_vscale c sigma noise).

  (** init_batch_idx: batch_size, pdyn.py:711-724 ([None] means the key is absent or None). *)
  Definition init_batch_size (size : option nat) (N : nat) : nat :=
    match size with None => N | Some b => Nat.min b N end.

  (** set_batch_idx_unbatched, pdyn.py:742-760. *)
  Definition set_batch_idx_unbatched (s : st) : st :=
    let ci := if length (s_active s) =? s_M s then IAll else IRuns (s_active s) in
    set_pidx ci (set_cidx ci s).

  (** set_batch_idx_batched, pdyn.py:762-800.  [indices.shape[1]] is read off the first row. *)
  Definition set_batch_idx_batched (c : cfg) (o : orc) (s : st) : res st :=
    let ind :=
      if shape1 (s_ind s) <? c_bsize c then
        let fresh := map (o_perm o) (seq 0 (s_M s)) in
        if c_concat c then map2 (fun a b => a ++ b) (s_ind s) fresh else fresh
      else s_ind s in
    let batch := map (firstn (c_bsize c)) ind in
    let rest := map (skipn (c_bsize c)) ind in
    bs <- takeM batch (s_active s) ;;
    let ci := IBatch (s_active s) bs in
    let pi := if c_partial c then ci else IRuns (s_active s) in
    Ok (set_pidx pi (set_cidx ci (set_ind rest s))).

  (** set_batch_idx is bound to one of the two at construction, pdyn.py:727-736. *)
  Definition set_batch_idx (c : cfg) (o : orc) (s : st) : res st :=
    if c_bsize c =? s_N s then Ok (set_batch_idx_unbatched s)
    else set_batch_idx_batched c o s.

  (** CBXDynamic.pre_step, pdyn.py:909-914. *)
  Definition pre_step (c : cfg) (o : orc) (s : st) : res st :=
    set_batch_idx c o (set_xold (Some (s_x s)) s).

  (** number of entries of an array: the points one call of f evaluates *)
  Definition npoints {A} (a : arr A) : nat := list_sum (map (@length A) a).

  (** [num_f_eval[active] += k]. *)
  Definition add_at (act : list nat) (k : nat) (l : list nat) : list nat :=
    mapi (fun m n => if existsb (Nat.eqb m) act then n + k else n) l.

  (** eval_f, pdyn.py:936-938, on an array of points; the counter of the wrapped
      objective (objective_handling.py:27-28) is kept in [s_fcalls]. *)
  Definition eval_f (c : cfg) (xs : arr V) (s : st) : arr F * st :=
    (map (map (c_f c)) xs,
     set_fcalls (s_fcalls s + npoints xs)
       (set_nfe (add_at (s_active s) (shape1 xs) (s_nfe s)) s)).

  (** The consensus callable on a whole array: rows are handled independently, as in
      compute_consensus_default (pdyn.py:582-587); operands broadcast.
      (One energy against several particles cannot occur and is an error.) *)
  Definition cc_call (c : cfg) (e : arr F) (xs : arr V) (al : arr F) : res (arr V) :=
    ea <- bpairs e al ;;
    rows <- bpairs ea xs ;;
    mapM (fun p =>
            let '((er, ar), xr) := p in
            match ar with
            | [a] =>
                if length er =? length xr then Ok (c_ccrow c er xr a)
                else match xr with
                     | [v] => Ok (c_ccrow c er (repeat v (length er)) a)
                     | _ => Err ShapeError
                     end
            | _ => Err ShapeError
            end) rows.

  (** maybe_save_consensus_eval_points, pdyn.py:970-977. *)
  Definition maybe_save_points (c : cfg) (s : st) : res st :=
    if c_savepts c then
      match s_cep s with
      | None => Ok (set_cep (Some (s_x s)) s)
      | Some p =>
          xs <- gather (s_cidx s) (s_x s) ;;
          p' <- scatter (s_cidx s) p xs ;;
          Ok (set_cep (Some p') s)
      end
    else Ok s.

  (** CBXDynamic.compute_consensus, pdyn.py:948-968. *)
  Definition compute_consensus (c : cfg) (s : st) : res st :=
    s0 <- maybe_save_points c s ;;
    xs <- gather (s_cidx s0) (s_x s0) ;;
    let '(e, s1) := eval_f c xs s0 in
    al <- takeM (s_alpha s1) (s_active s1) ;;
    cpt <- cc_call c e xs al ;;
    en <- scatter (s_cidx s1) (s_energy s1) e ;;
    Ok (set_energy en (set_cons (Some cpt) s1)).

  (** correction (pdyn.py:838-851, correction.py:31-49, 57-94). *)
  Definition correction (c : cfg) (cpt : arr V) (d : arr V) (s : st) : res (arr V * st) :=
    match c_corr c with
    | NoCorr => Ok (d, s)
    | Heavi fac =>
        let s1 := set_fcalls (s_fcalls s + npoints cpt)
                    (set_nfe (map (fun n => n + length cpt) (s_nfe s)) s) in
        z <- bc2 fsub (s_energy s1) (map (map (c_f c)) cpt) ;;
        d' <- bc2 (fun v w => c_vscale c (fac w) v) d z ;;
        Ok (d', s1)
    end.

  (** CBO.cbo_step, cbo.py:40-50.  noise() samples an array of the shape of drift. *)
  Definition cbo_step (c : cfg) (o : orc) (s : st) : res st :=
    s1 <- compute_consensus c s ;;
    match s_cons s1 with
    | None => Err TypeError
    | Some cpt =>
        xp <- gather (s_pidx s1) (s_x s1) ;;
        d0 <- bc2 (c_vsub c) xp cpt ;;
        ds <- correction c cpt d0 s1 ;;
        let '(d, s2) := ds in
        let upd := mapi (fun k row =>
                     mapi (fun n v => cbo_update c v (s_lamda s2) (s_dt s2) (s_sigma s2)
                                        (c_noise c (s_dt s2) v (o_z o k n))) row) d in
        xp' <- iop2 (c_vadd c) xp upd ;;
        x' <- scatter (s_pidx s2) (s_x s2) xp' ;;
        Ok (set_x x' (set_drift (Some d) s2))
    end.

  (** [X[np.arange(M), j, :]]. *)
  Definition pick {A} (X : arr A) (js : list nat) : res (list A) :=
    if length X =? length js
    then mapM (fun p => take1 (fst p) (snd p)) (combine X js)
    else Err ShapeError.

  (** update_best_cur_particle, pdyn.py:512-529. *)
  Definition update_best_cur (s : st) : res st :=
    am <- mapM argmin (s_energy s) ;;
    let js := map fst am in
    p <- pick (match s_xold s with Some xo => xo | None => s_x s end) js ;;
    e <- pick (s_energy s) js ;;
    Ok (set_bce e (set_bcp p (set_fmin (map snd am) s))).

  (** [if cond then new else old], position by position: assignment at
      np.where(cond)[0]. *)
  Fixpoint select {A} (b : list bool) (new old : list A) : list A :=
    match b, new, old with
    | true :: b', n :: new', _ :: old' => n :: select b' new' old'
    | false :: b', _ :: new', o :: old' => o :: select b' new' old'
    | _, _, _ => old
    end.

  (** update_best_particle, pdyn.py:531-544. *)
  Definition update_best (s : st) : st :=
    let b := map2 (fun be bce => fltb bce be) (s_be s) (s_bce s) in
    set_bp (select b (s_bcp s) (s_bp s)) (set_be (select b (s_bce s) (s_be s)) s).

  (** ** History (utils/history.py, pdyn.py:464-510) *)

  Fixpoint hist_set (k : string) (v : list hval) (h : list (string * list hval)) :=
    match h with
    | [] => [(k, v)]
    | (k', v') :: h' => if String.eqb k k' then (k, v) :: h' else (k', v') :: hist_set k v h'
    end.
  Fixpoint hist_get (k : string) (h : list (string * list hval)) : option (list hval) :=
    match h with
    | [] => None
    | (k', v') :: h' => if String.eqb k k' then Some v' else hist_get k h'
    end.
  Definition hist_append (k : string) (v : hval) (s : st) : res st :=
    match hist_get k (s_hist s) with
    | Some l => Ok (set_hist (hist_set k (l ++ [v]) (s_hist s)) s)
    | None => Err KeyError
    end.

  (** attributes default_track can find by name (hasattr / getattr); other names are
      treated as missing. *)
  Definition attr_of (name : string) (s : st) : option hval :=
    if String.eqb name "alpha" then Some (HArr (s_alpha s))
    else if String.eqb name "t" then Some (HNum (s_t s))
    else if String.eqb name "it" then Some (HNat (s_it s))
    else if String.eqb name "best_energy" then Some (HUpd (s_be s))
    else if String.eqb name "best_particle" then Some (HVec (s_bp s))
    else if String.eqb name "f_min" then Some (HUpd (s_fmin s))
    else if String.eqb name "num_f_eval" then Some (HNats (s_nfe s))
    else if String.eqb name "dt" then Some (HNum (s_dt s))
    else if String.eqb name "sigma" then Some (HNum (s_sigma s))
    else None.

  (** init_history of each track class. The first entry of 'x' is stored by value here;
      that it is the live array is modelled in Alias.v. *)
  Definition trk_init (t : trk) (s : st) : st :=
    match t with
    | TX => set_hist (hist_set "x" [HX (s_x s)] (s_hist s)) s
    | TUpd => set_hist (hist_set "update_norm" [] (s_hist s)) s
    | TEnergy => set_hist (hist_set "energy" [] (s_hist s)) s
    | TCons => set_hist (hist_set "consensus" [] (s_hist s)) s
    | TDriftMean => set_hist (hist_set "drift_mean" [] (s_hist s)) s
    | TDrift => set_hist (hist_set "particle_idx" [] (hist_set "drift" [] (s_hist s))) s
    | TDefault n _ => set_hist (hist_set n [] (s_hist s)) s
    end.

  (** update of each track class; returns the tracker (default_track may switch itself off). *)
  Definition trk_update (c : cfg) (t : trk) (s : st) : res (trk * st) :=
    match t with
    | TX => s' <- hist_append "x" (HX (s_x s)) s ;; Ok (t, s')
    | TUpd => s' <- hist_append "update_norm" (HUpd (s_udiff s)) s ;; Ok (t, s')
    | TEnergy => s' <- hist_append "energy" (HEnergy (s_energy s)) s ;; Ok (t, s')
    | TCons => s' <- hist_append "consensus" (HCons (s_cons s)) s ;; Ok (t, s')
    | TDriftMean =>
        match s_drift s with
        | Some d => s' <- hist_append "drift_mean" (HMean (map (c_dmean c) d)) s ;; Ok (t, s')
        | None => Err TypeError
        end
    | TDrift =>
        s' <- hist_append "drift" (HDrift (s_drift s)) s ;;
        s'' <- hist_append "particle_idx" (HIdx (s_pidx s)) s' ;; Ok (t, s'')
    | TDefault n true =>
        match attr_of n s with
        | Some v => s' <- hist_append n v s ;; Ok (t, s')
        | None => Ok (TDefault n false, s)
        end
    | TDefault n false => Ok (t, s)
    end.

  Fixpoint trks_update (c : cfg) (ts : list trk) (s : st) : res (list trk * st) :=
    match ts with
    | [] => Ok ([], s)
    | t :: ts' =>
        p <- trk_update c t s ;;
        q <- trks_update c ts' (snd p) ;;
        Ok (fst p :: fst q, snd q)
    end.

  (** track, pdyn.py:497-510. *)
  Definition track (c : cfg) (s : st) : res st :=
    match s_save s with
    | 0 => Err ZeroDivision
    | S _ =>
        if Nat.modulo (s_it s) (s_save s) =? 0 then
          p <- trks_update c (s_tracks s) s ;;
          Ok (set_trackit (S (s_trackit s)) (set_tracks (fst p) (snd p)))
        else Ok s
    end.

  (** known_tracks, pdyn.py:458-462, 660-664. *)
  Definition known_track (name : string) : trk :=
    if String.eqb name "consensus" then TCons
    else if String.eqb name "drift_mean" then TDriftMean
    else if String.eqb name "drift" then TDrift
    else if String.eqb name "update_norm" then TUpd
    else if String.eqb name "energy" then TEnergy
    else if String.eqb name "x" then TX
    else TDefault name true.

  (** init_history, pdyn.py:464-495; [extra] are the user's extra_tracks. *)
  Definition init_history (names : option (list string)) (extra : list trk) (save : option nat) (s : st) : st :=
    let names := match names with Some l => l | None => ["update_norm"; "energy"] end in
    let ts := extra ++ map known_track names in
    let s1 := set_trackit 0 (set_tracks ts (set_hist []
                (set_save (match save with Some k => k | None => 1 end) s))) in
    fold_left (fun acc t => trk_init t acc) ts s1.

  (** ** Steps *)

  (** CBXDynamic.post_step, pdyn.py:919-929. *)
  Definition post_step (c : cfg) (s : st) : res st :=
    let s1 := set_x (map (map (c_pp c)) (s_x s)) s in
    let s2 := match s_xold s1 with
              | Some xo => set_udiff (map2 (fun r ro => c_norm c (map2 (c_vsub c) r ro)) (s_x s1) xo) s1
              | None => s1
              end in
    s3 <- update_best_cur s2 ;;
    let s4 := update_best s3 in
    s5 <- track c s4 ;;
    Ok (set_it (S (s_it s5)) (set_t (fadd (s_t s5) (s_dt s5)) s5)).

  (** step of CBO: pdyn.py:294-311 with cbo.py:51. *)
  Definition step (c : cfg) (o : orc) (s : st) : res st :=
    s1 <- pre_step c o s ;;
    s2 <- cbo_step c o s1 ;;
    post_step c s2.

  (** ** Termination *)

  (** one criterion evaluated on all runs, utils/termination.py:15-97. *)
  Definition crit_eval (c : cfg) (k : crit) (s : st) : list bool :=
    match k with
    | CEnergyTol tol => map (fun e => fltb e tol) (s_fmin s)
    | CDiffTol tol => map (fun u => fltb u tol) (s_udiff s)
    | CMaxEval n => map (fun e => n <? e + c_bsize c) (s_nfe s)
    | CMaxIt None => repeat false (s_M s)
    | CMaxIt (Some n) => repeat (n <=? s_it s) (s_M s)
    | CMaxTime T => repeat (fleb T (s_t s)) (s_M s)
    | CCustom g => g s
    end.

  (** select_active_runs, pdyn.py:436-457. [loc]: one column per criterion. *)
  Definition select_active_runs (c : cfg) (s : st) : res st :=
    loc <- mapM (fun k => bto (s_M s) (crit_eval c k s)) (c_crit c) ;;
    let row := fun j => map (fun col => nth j col false) loc in
    let terms := map (fun j => count_occ Bool.bool_dec (row j) true) (seq 0 (s_M s)) in
    let act := np_where (map (fun t => t =? 0) terms) in
    let reason := mapi (fun j r => if nth j terms 0 =? 0 then r else Some (np_where (row j))) (s_reason s) in
    Ok (set_reason reason (set_active act s)).

  (** terminate, pdyn.py:432-434. *)
  Definition terminate (c : cfg) (s : st) : res (bool * st) :=
    s' <- select_active_runs c s ;;
    Ok (length (s_active s') <=? 0, s').

  (** optimize, pdyn.py:324-364, as a fuel-indexed loop; [os] is the stream of random
      inputs, [sched] the scheduler. [None]: fuel exhausted. *)
  Fixpoint optimize_loop (c : cfg) (stepf : orc -> st -> res st) (sched : st -> res st)
           (os : nat -> orc) (fuel i : nat) (s : st) : option (res st) :=
    match terminate c s with
    | Err e => Some (Err e)
    | Ok (true, s') => Some (Ok s')
    | Ok (false, s') =>
        match fuel with
        | 0 => None
        | S fuel' =>
            match (s1 <- stepf (os i) s' ;; sched s1) with
            | Err e => Some (Err e)
            | Ok s2 => optimize_loop c stepf sched os fuel' (S i) s2
            end
        end
    end.

  (** CBXDynamic.reset, pdyn.py:931-934. *)
  Definition reset (s : st) : st :=
    set_t (Fin k0) (init_history None [] None (set_it 0 s)).

  (** Construction, pdyn.py:126-168, 629-658, 711-739, after init_x and init_f:
      [x0] is the (M,N,d) ensemble, [checked] the flag check_f_dims,
      [perm0] the first permutations. *)
  Definition init (c : cfg) (x0 : arr V) (checked : bool) (alpha sigma lamda dt : F)
             (perm0 : nat -> list nat)
             (names : option (list string)) (extra : list trk) (save : option nat) : res st :=
    let M := length x0 in
    let N := shape1 x0 in
    bp <- mapM (fun row => take1 row 0) x0 ;;
    let s0 := {| s_M := M; s_N := N; s_x := x0; s_xold := None;
                 s_energy := repeat (repeat PInf N) M;
                 s_cons := None; s_drift := None;
                 s_alpha := repeat [alpha] M; s_sigma := sigma; s_lamda := lamda; s_dt := dt;
                 s_t := Fin k0; s_it := 0;
                 s_be := repeat PInf M; s_bce := repeat PInf M; s_bp := bp; s_bcp := [];
                 s_fmin := repeat PInf M; s_udiff := repeat PInf M;
                 s_nfe := repeat (if checked then N else 0) M;
                 s_fcalls := if checked then M * N else 0;
                 s_active := seq 0 M; s_reason := repeat None M;
                 s_cidx := IAll; s_pidx := IAll;
                 s_ind := if c_bsize c =? N then [] else map perm0 (seq 0 M);
                 s_cep := None;
                 s_tracks := []; s_hist := []; s_trackit := 0; s_save := 1 |} in
    Ok (init_history names extra save s0).
End Pdyn.
Arguments cfg : clear implicits.
Arguments orc : clear implicits.
Arguments corr : clear implicits.
Arguments crit : clear implicits.
