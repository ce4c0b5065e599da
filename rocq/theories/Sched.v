(** * Parameter schedulers (cbx/scheduler.py) *)
From Coq Require Import List Arith Bool Reals.
From Verif Require Import Scalar Np State Consensus.
Import ListNotations.

Section Sched.
  Context {K V : Type} {O : KOps K}.
  Notation st := (st K V).

  (** The parameters a param_update can be attached to ([self.name], scheduler.py:30; other
      attributes are not modelled). *)
  Inductive pname : Type := PAlpha | PSigma | PLamda | PDt.

  (** [setattr(dyn, name, g(getattr(dyn, name)))] for an element-wise [g]. *)
  Definition on_param (p : pname) (g : fl K -> fl K) (s : st) : st :=
    match p with
    | PAlpha => set_alpha (map (map g) (s_alpha s)) s
    | PSigma => set_sigma (g (s_sigma s)) s
    | PLamda => set_lamda (g (s_lamda s)) s
    | PDt => set_dt (g (s_dt s)) s
    end.

  (** param_update.ensure_max, scheduler.py:50-52 *)
  Definition ensure_max (p : pname) (maximum : fl K) (s : st) : st := on_param p (fmin maximum) s.

  (** multiply.update, scheduler.py:101-106 *)
  Definition multiply_update (p : pname) (factor maximum : fl K) (s : st) : res st :=
    Ok (ensure_max p maximum (on_param p (fmul factor) s)).

  (** scheduler.update, scheduler.py:72-83 *)
  Fixpoint scheduler_update (us : list (st -> res st)) (s : st) : res st :=
    match us with [] => Ok s | u :: us' => s1 <- u s ;; scheduler_update us' s1 end.
End Sched.

Section Bisection.
  Open Scope R_scope.

  (** What bisection_solve leaves behind: the returned value, the last function values, the
      arrays low and high (modified in place) and the number of evaluations of f. *)
  Record bis : Type := mkbis { b_x : list R; b_fx : list (fl R); b_low : list R; b_high : list R; b_evals : nat }.

  Definition midpoints (low high : list R) : list R := map2 (fun l h => (l + h) / 2) low high.

  (** [low[idx[gtzero]] = x[idx[gtzero]]] and its mirror image, scheduler.py:205-209; [idx] is a
      list of flags, one per run. *)
  Definition new_low (idx : list bool) (fx : list (fl R)) (x low : list R) : list R :=
    map2 (fun (c : bool) xl => if c then fst xl else snd xl)
         (map2 (fun (i : bool) v => i && fltb (Fin 0) v) idx fx) (combine x low).
  Definition new_high (idx : list bool) (fx : list (fl R)) (x high : list R) : list R :=
    map2 (fun (c : bool) xl => if c then fst xl else snd xl)
         (map2 (fun (i : bool) v => i && fltb v (Fin 0)) idx fx) (combine x high).

  (** [np.where(np.abs(fx) > thresh)[0]], scheduler.py:211 *)
  Definition open_runs (thresh : R) (fx : list (fl R)) : list bool := map (fun v => fltb (Fin thresh) (fabs v)) fx.

  (** The loop of bisection_solve, scheduler.py:202-214; [left] is max_it - it. *)
  Fixpoint bisect (f : list R -> list (fl R)) (thresh : R) (left : nat) (idx : list bool) (low high : list R)
      (evals : nat) : bis :=
    let x := midpoints low high in
    let fx := f x in
    let low' := new_low idx fx x low in
    let high' := new_high idx fx x high in
    let idx' := open_runs thresh fx in
    let r := mkbis x fx low' high' (S evals) in
    match left with
    | 0%nat => r
    | S left' => if existsb (fun b => b) idx' then bisect f thresh left' idx' low' high' (S evals) else r
    end.

  (** bisection_solve, scheduler.py:182-217; all runs are open at the start *)
  Definition bisection_solve (f : list R -> list (fl R)) (low high : list R) (max_it : nat) (thresh : R) : bis :=
    bisect f thresh max_it (map (fun _ => true) low) low high 0.

  (** eff_sample_size_gap.__call__ for one run, scheduler.py:177-180 *)
  Definition ess_gap (eta : R) (e : list (fl R)) (a : R) : fl R :=
    let nom := logsumexp (map (fun ei => fmul (fopp (Fin a)) ei) e) in
    let denom := logsumexp (map (fun ei => fmul (fmul (Fin (-2)) (Fin a)) ei) e) in
    fsub (fexp (fsub (fmul (Fin 2) nom) denom)) (Fin (eta * INR (length e))).
  Definition ess_gaps (eta : R) (energy : list (list (fl R))) (alpha : list R) : list (fl R) :=
    map2 (fun e a => ess_gap eta e a) energy alpha.

  (** effective_sample_size.update, scheduler.py:146-156; [minimum] is 1e-5, [thresh] 1e-2 *)
  Definition ess_minimum : R := / 100000.
  Definition ess_thresh : R := / 100.
  Definition ess_solve (eta maximum : R) (max_it M : nat) (energy : list (list (fl R))) : bis :=
    bisection_solve (ess_gaps eta energy) (repeat ess_minimum M) (repeat maximum M) max_it ess_thresh.
  Definition ess_update {V} (eta maximum : R) (max_it : nat) (s : st R V) : res (st R V) :=
    let val := b_x (ess_solve eta maximum max_it (s_M s) (s_energy s)) in
    Ok (ensure_max PAlpha (Fin maximum) (set_alpha (map (fun v => [Fin v]) val) s)).
End Bisection.
