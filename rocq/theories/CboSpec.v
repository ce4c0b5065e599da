(** * Specification of CBO runs over the reals *)
From Coq Require Import List Arith Bool Reals.
From Verif Require Import Scalar Np State Pdyn Exec RVec ConsSpec Cbo.
Import ListNotations.
Open Scope R_scope.

(** noise and new position of a particle x with consensus c and draw z *)
Definition rnoise (k : noise_model) (dt : R) (drift z : list R) : list R :=
  vscal (sqrt dt) match k with NConst => z | NIso => vscal (vnorm drift) z | NAniso => map2 Rmult z drift end.
Definition rmove (k : noise_model) (la dt sg : R) (c x z : list R) : list R :=
  vadd x (vadd (vscal (- (la * dt)) (vsub x c)) (vscal sg (rnoise k dt (vsub x c) z))).

(** the objective is finite at finite points of dimension d *)
Definition finite_obj (d : nat) (f : vec -> fl R) : Prop := forall p, length p = d -> exists y, f (floats p) = Fin y.
(** the draws are finite and have dimension d *)
Definition finite_draws (d : nat) (o : orc vec) : Prop := forall k n, exists z, o_z o k n = floats z /\ length z = d.
Definition finite_alpha (s : st R vec) : Prop := forall m, (m < s_M s)%nat -> exists a, nth_error (s_alpha s) m = Some [Fin a].
Definition parameters (la dt sg : R) (s : st R vec) : Prop := s_lamda s = Fin la /\ s_dt s = Fin dt /\ s_sigma s = Fin sg /\ 0 <= dt.
(** the particles of run m are the finite points X *)
Definition ensemble_at (s : st R vec) (m d : nat) (X : list (list R)) : Prop :=
  nth_error (s_x s) m = Some (map floats X) /\ ensemble (s_N s) d X.

(** a scheduler changed alpha only, to finite values *)
Definition alpha_changed (s s' : st R vec) : Prop :=
  exists al, s' = set_alpha al s /\ is_array (s_M s) 1 al /\ finite_alpha s'.

(** [steps_active c m d n s s']: n steps lead from s to s'; run m is active in each of them, the
    draws are finite, and between the steps there may be termination checks and changes of alpha. *)
Inductive steps_active (c : cfg R vec) (m d : nat) (s : st R vec) : nat -> st R vec -> Prop :=
| sa_start : steps_active c m d s 0 s
| sa_step : forall n s1 o s2, steps_active c m d s n s1 -> In m (s_active s1) -> perms_valid o s1 -> finite_draws d o ->
    step c o s1 = Ok s2 -> steps_active c m d s (S n) s2
| sa_term : forall n s1 b s2, steps_active c m d s n s1 -> terminate c s1 = Ok (b, s2) -> steps_active c m d s n s2
| sa_alpha : forall n s1 s2, steps_active c m d s n s1 -> alpha_changed s1 s2 -> steps_active c m d s n s2.

(** box with bounds per coordinate *)
Definition in_box (d : nat) (lo hi : nat -> R) (p : list R) : Prop := forall i, (i < d)%nat -> lo i <= coord i p <= hi i.

(** Y has the pairwise differences of X, multiplied by r *)
Definition diffs (r : R) (X Y : list (list R)) : Prop := forall i j xi xj yi yj, nth_error X i = Some xi -> nth_error X j = Some xj ->
  nth_error Y i = Some yi -> nth_error Y j = Some yj -> vsub yi yj = vscal r (vsub xi xj).

(** [later c d s s']: s' is reached from s by steps with finite draws (the run may be active or
    not), termination checks, resets and changes of the parameters to finite values, dt >= 0. *)
Definition finite_parameters (s : st R vec) : Prop := exists la dt sg, parameters la dt sg s.
Inductive later (c : cfg R vec) (d : nat) (s : st R vec) : st R vec -> Prop :=
| la_start : later c d s s
| la_step : forall s1 o s2, later c d s s1 -> perms_valid o s1 -> finite_draws d o -> step c o s1 = Ok s2 -> later c d s s2
| la_term : forall s1 b s2, later c d s s1 -> terminate c s1 = Ok (b, s2) -> later c d s s2
| la_params : forall s1 s2, later c d s s1 -> params_changed s1 s2 -> finite_alpha s2 -> finite_parameters s2 -> later c d s s2
| la_reset : forall s1, later c d s s1 -> later c d s (reset s1).

(** all particles of run m are at p *)
Definition all_at (s : st R vec) (m : nat) (p : list R) : Prop := nth_error (s_x s) m = Some (repeat (floats p) (s_N s)).
(** coordinate j of all particles of run m is v *)
Definition agreed (s : st R vec) (m d j : nat) (v : R) : Prop := exists X, ensemble_at s m d X /\ forall p, In p X -> coord j p = v.

(** new position of a particle x with drift dr: [rmove] is this with dr = x - c *)
Definition rmove_along (k : noise_model) (la dt sg : R) (dr x z : list R) : list R :=
  vadd x (vadd (vscal (- (la * dt)) dr) (vscal sg (rnoise k dt dr z))).
