(** * Regularised objectives and their parameter scheduler (cbx/regularizers.py) *)
From Coq Require Import List Arith Bool Reals.
From Verif Require Import Scalar Np Consensus PostProc.
Import ListNotations.
Open Scope R_scope.

(** [np.sqrt] on a finite number *)
Definition rsqrt (x : R) : fl R := if Rltb x 0 then NaN else Fin (sqrt x).

(** simple_param_rule_mean, regularizers.py:91-92, for one run: the mean of the regulariser over its
    particles; [r] are the values of the regulariser. *)
Definition simple_mean (r : list (fl R)) : fl R := fdiv (fsum r) (Fin (INR (length r))).

(** weighted_param_rule_mean, regularizers.py:94-97, for one run; [e] are the values of the
    (regularised) objective. *)
Definition weighted_mean (a : fl R) (e r : list (fl R)) : fl R :=
  let E := map (fun v => fexp (fmul (fopp a) v)) e in fdiv (fsum (map2 fmul E r)) (fsum E).

Section Update.
  Variables (theta_max factor_theta factor_lamda lamda_max : R).

  (** regularization_paramter_scheduler.update, regularizers.py:123-131, for one run with its theta, the
      lamda of the objective and the mean [m].  [theta] and [lamda] are finite numbers. *)
  Definition below (m : fl R) (theta : R) : bool := fleb m (fdiv (Fin 1) (rsqrt theta)).
  Definition theta_step (m : fl R) (theta : R) : R :=
    if below m theta then theta * factor_theta else Rmin (theta / factor_theta) theta_max.
  Definition lamda_step (m : fl R) (theta lamda : R) : R :=
    Rmin (Rmax (if below m theta then lamda else lamda * factor_lamda) 0) lamda_max.

  (** the arrays over the runs *)
  Definition sched_update (ms : list (fl R)) (p : list R * list R) : res (list R * list R) :=
    let '(theta, lamda) := p in
    if (length ms =? length theta)%nat && (length ms =? length lamda)%nat then
      Ok (map2 theta_step ms theta, map2 (fun mt l => lamda_step (fst mt) (snd mt) l) (combine ms theta) lamda)
    else Err ShapeError.

  Fixpoint sched_updates (mss : list (list (fl R))) (p : list R * list R) : res (list R * list R) :=
    match mss with [] => Ok p | ms :: mss' => q <- sched_update ms p ;; sched_updates mss' q end.
End Update.

Section Objective.
  Context {K V : Type} {O : KOps K}.

  (** A regularize_objective object, regularizers.py:69-89: [o_lamda] is None before lamda has been
      broadcast to shape (M,1), where M is the number of runs of the first call. *)
  Record regobj : Type := mkregobj { o_scalar : fl K; o_lamda : option (arr (fl K)) }.

  Definition broadcast_lamda (M : nat) (o : regobj) : arr (fl K) :=
    match o_lamda o with Some l => l | None => repeat [o_scalar o] M end.

  (** regularize_objective.__call__, regularizers.py:77-79, on the ensemble [x]; [f] and [reg] are evaluated
      pointwise, [pow] is the p-th power. *)
  Definition reg_call (f reg : V -> fl K) (pow : fl K -> fl K) (x : arr V) (o : regobj) : res (regobj * arr (fl K)) :=
    let l := broadcast_lamda (length x) o in
    lr <- bc2 fmul l (map (map (fun v => pow (reg v))) x) ;;
    e <- bc2 fadd (map (map f) x) lr ;;
    Ok (mkregobj (o_scalar o) (Some l), e).
End Objective.
Arguments regobj : clear implicits.
Arguments mkregobj {K} _ _.
