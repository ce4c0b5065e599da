(** * Specification: particles at rest and clusters in PolarCBO *)
From Coq Require Import List Arith Bool Reals.
From Verif Require Import Scalar Np State Pdyn Exec RVec ConsSpec Cbo CboSpec PolarSpec Polar PolarRun PolarRunSpec.
Import ListNotations.
Open Scope R_scope.

(** particles that see each other (kernel not 0) are at the same place *)
Definition apart (kn : kname) (kappa : fl R) (X : list (list R)) : Prop :=
  forall x y, In x X -> In y X -> x = y \/ kcall kn kappa x y = Fin 0.

(** finite parameters; alpha > 0 if the kernel is scaled by it *)
Definition usable (md : kmode) (s : st R vec) : Prop :=
  finite_alpha s /\ finite_parameters s /\ (positive_mode md = true -> forall m a, nth_error (s_alpha s) m = Some [Fin a] -> 0 < a).
(** no noise, and a particle moves at most to its consensus point *)
Definition noise_free (s : st R vec) : Prop := exists la dt, parameters la dt 0 s /\ 0 <= la * dt <= 1.

(** [later_if P c d s s']: as [later], but the parameters are changed to values with P only *)
Inductive later_if (P : st R vec -> Prop) (c : cfg R vec) (d : nat) (s : st R vec) : st R vec -> Prop :=
| li_start : later_if P c d s s
| li_step : forall s1 o s2, later_if P c d s s1 -> perms_valid o s1 -> finite_draws d o -> step c o s1 = Ok s2 -> later_if P c d s s2
| li_term : forall s1 b s2, later_if P c d s s1 -> terminate c s1 = Ok (b, s2) -> later_if P c d s s2
| li_params : forall s1 s2, later_if P c d s s1 -> params_changed s1 s2 -> P s2 -> later_if P c d s s2
| li_reset : forall s1, later_if P c d s s1 -> later_if P c d s (reset s1).

(** a region that contains the convex combinations of its points *)
Definition convex_region (d : nat) (C : list R -> Prop) : Prop :=
  forall ws X, convex ws -> length ws = length X -> (forall x, In x X -> length x = d /\ C x) -> C (combination ws d X).

(** convex regions, one per label; particles in different regions do not see each other *)
Definition clusters (kn : kname) (kappa : fl R) (d : nat) (C : nat -> list R -> Prop) : Prop :=
  (forall j, convex_region d (C j)) /\
  forall i j x y, i <> j -> length x = d -> length y = d -> C i x -> C j y -> kcall kn kappa x y = Fin 0.
(** the particles of run m are finite points, particle n is in the region with label lab[n] *)
Definition clustered (C : nat -> list R -> Prop) (lab : list nat) (X : list (list R)) : Prop :=
  length lab = length X /\ forall n j x, nth_error lab n = Some j -> nth_error X n = Some x -> C j x.
(** the particles with label j, in their order *)
Definition members (j : nat) (lab : list nat) (X : list (list R)) : list (list R) :=
  map snd (filter (fun q => fst q =? j)%nat (combine lab X)).

(** the same values of lamda, dt and, for runs m1 and m2, alpha *)
Definition same_parameters (m1 m2 : nat) (s1 s2 : st R vec) : Prop :=
  s_lamda s1 = s_lamda s2 /\ s_dt s1 = s_dt s2 /\ nth_error (s_alpha s1) m1 = nth_error (s_alpha s2) m2.

(** [lockstep P d c1 c2 m1 m2 s1 s2 t1 t2]: two dynamics make the same number of steps, run m1 of the
    first and run m2 of the second being active; parameters are changed to the same values with P;
    draws are finite and independent, termination checks are made by both or one of them *)
Inductive lockstep (P : st R vec -> Prop) (d : nat) (c1 c2 : cfg R vec) (m1 m2 : nat) (s1 s2 : st R vec) : st R vec -> st R vec -> Prop :=
| ls_start : lockstep P d c1 c2 m1 m2 s1 s2 s1 s2
| ls_step : forall t1 t2 o1 o2 u1 u2, lockstep P d c1 c2 m1 m2 s1 s2 t1 t2 -> In m1 (s_active t1) -> In m2 (s_active t2) ->
    perms_valid o1 t1 -> perms_valid o2 t2 -> finite_draws d o1 -> finite_draws d o2 ->
    step c1 o1 t1 = Ok u1 -> step c2 o2 t2 = Ok u2 -> lockstep P d c1 c2 m1 m2 s1 s2 u1 u2
| ls_term1 : forall t1 t2 b u1, lockstep P d c1 c2 m1 m2 s1 s2 t1 t2 -> terminate c1 t1 = Ok (b, u1) -> lockstep P d c1 c2 m1 m2 s1 s2 u1 t2
| ls_term2 : forall t1 t2 b u2, lockstep P d c1 c2 m1 m2 s1 s2 t1 t2 -> terminate c2 t2 = Ok (b, u2) -> lockstep P d c1 c2 m1 m2 s1 s2 t1 u2
| ls_params : forall t1 t2 u1 u2, lockstep P d c1 c2 m1 m2 s1 s2 t1 t2 -> params_changed t1 u1 -> params_changed t2 u2 -> P u1 -> P u2 ->
    same_parameters m1 m2 u1 u2 -> lockstep P d c1 c2 m1 m2 s1 s2 u1 u2.
