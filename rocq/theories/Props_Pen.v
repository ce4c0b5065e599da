(** * C84: changing penalty weights and the best particle *)
From Coq Require Import String List Arith Bool ZArith Reals Lra.
From Verif Require Import Scalar Np State Pdyn Exec RegSched Variant ExZ ExUtil PenSpec PenRun PenSched ExPen.
Import ListNotations.
Open Scope nat_scope.
Open Scope list_scope.

(** C84. Whatever the changes of the weights: best_energy is the minimum of the penalised values of all points of the run, each
    taken when the point was evaluated, and best_particle is a point that had this value then. *)
Theorem C84_best_of_the_past : forall K V (O : KOps K) (OL : KOrd K) f reg pow solve eps la (c : cfg K V) s ob log m be bp, one_consensus_point c ->
  pexec f reg pow la solve eps c (s, ob) log -> (forall m v y, In (m, v, y) log -> is_nan y = false) ->
  nth_error (s_be s) m = Some be -> nth_error (s_bp s) m = Some bp ->
  (be = PInf \/ In (m, bp, be) log) /\ forall v y, In (m, v, y) log -> fleb be y = true.
Proof. intros K V O OL f reg pow solve eps. exact (pen_best f reg pow solve eps). Qed.
Print Assumptions C84_best_of_the_past.

(** C84. Hence a point evaluated once with a value below all values of feasible points keeps best_particle infeasible for ever. *)
Theorem C84_infeasible_for_ever : forall K V (O : KOps K) (OL : KOrd K) f reg pow solve eps la (c : cfg K V) s ob log m be bp v0 y0 (feasible : V -> Prop),
  one_consensus_point c -> pexec f reg pow la solve eps c (s, ob) log -> (forall m v y, In (m, v, y) log -> is_nan y = false) ->
  nth_error (s_be s) m = Some be -> nth_error (s_bp s) m = Some bp -> In (m, v0, y0) log -> y0 <> PInf ->
  (forall v a, feasible v -> let y := fadd (f v) (fmul a (pow (reg v))) in is_nan y = false -> fltb y0 y = true) -> ~ feasible bp.
Proof. intros K V O OL f reg pow solve eps. exact (pen_infeasible f reg pow solve eps). Qed.
Print Assumptions C84_infeasible_for_ever.

(** C84. best_particle need not minimise the present objective over the evaluated points, nor is best_energy its present value:
    after the weight has grown from 1 to 100 it is 870 in best_particle -3, while the feasible point 0 has been evaluated
    with value 0. *)
Theorem C84_present_objective_refuted : exists s ob log, pex (s, ob) log /\ s_be s = [Fin (-21)%Z] /\ s_bp s = [(-3)%Z] /\
  log = [(0, (-3)%Z, Fin (-21)%Z); (0, 0%Z, Fin 0%Z); (0, (-3)%Z, Fin 870%Z); (0, 0%Z, Fin 0%Z)] /\
  penalty_value pnf pnreg (fun y => y) ob 0 (-3)%Z = Fin 870%Z /\ penalty_value pnf pnreg (fun y => y) ob 0 0%Z = Fin 0%Z.
Proof. exact pen_case. Qed.
Print Assumptions C84_present_objective_refuted.

(** C84. The updates of the regularisation scheduler are such changes. *)
Theorem C84_scheduler : forall theta_max factor_theta factor_lamda lamda_max ms theta lamda theta' lamda' (sc : fl R),
  sched_update theta_max factor_theta factor_lamda lamda_max ms (theta, lamda) = Ok (theta', lamda') ->
  weights_changed (mkregobj sc (Some (column lamda))) (mkregobj sc (Some (column lamda'))).
Proof. exact sched_changes. Qed.
Print Assumptions C84_scheduler.

(** the hypotheses of C84_infeasible_for_ever hold in the state of the refutation *)
Example C84_case : one_consensus_point pncfg /\ exists s ob log, pex (s, ob) log /\ (forall m v y, In (m, v, y) log -> is_nan y = false) /\
  nth_error (s_be s) 0 = Some (Fin (-21)%Z) /\ nth_error (s_bp s) 0 = Some (-3)%Z /\ In (0, (-3)%Z, Fin (-21)%Z) log /\
  (forall v a, v = 0%Z -> let y := fadd (pnf v) (fmul a (pnreg v)) in is_nan y = false -> fltb (Fin (-21)%Z) y = true).
Proof.
  split; [apply zbest_one|]. destruct pen_case as (s & ob & log & H & B1 & B2 & L & _). exists s, ob, log. split; [exact H|].
  split. { rewrite L. intros m v y Hin. cbn in Hin. repeat (destruct Hin as [[= <- <- <-]|Hin]; [reflexivity|]). destruct Hin. }
  rewrite B1, B2, L. repeat split; auto. { left. reflexivity. }
  intros v a ->. destruct a as [a| | |]; cbn; try discriminate. rewrite Z.mul_0_r. intros _. reflexivity.
Qed.

Example C84_scheduler_case : exists theta' lamda', sched_update 100 2 3 10 [Fin 0; Fin 1; Fin 1]%R ([4; 4; 4], [1; 1; 5])%R = Ok (theta', lamda') /\
  theta' = [8; 2; 2]%R /\ lamda' = [1; 3; 10]%R.
Proof. exact sched_example. Qed.
