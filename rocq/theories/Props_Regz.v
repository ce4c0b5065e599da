(** * C85: the regulariser functions *)
From Coq Require Import List Arith Bool Reals Lra Lia.
From Verif Require Import Scalar Np RVec ConsSpec MatSqrt Regularizers RegzSpec RegzFacts.
Import ListNotations.
Open Scope R_scope.

(** C85. HyperplaneDistance with a normal vector is the Euclidean distance to the hyperplane. *)
Theorem C85_hyperplane : forall a b x, length a = length x -> vnorm a <> 0 ->
  exists r, plane_reg (NVector a) b x = Ok (Fin r) /\ is_distance (hyperplane a b) x r.
Proof. exact plane_reg_distance. Qed.
Print Assumptions C85_hyperplane.

(** C85. With a number as normal it is sqrt d times the distance ... *)
Theorem C85_hyperplane_number : forall a b x, a <> 0 -> x <> [] -> exists r, plane_reg (NScalar a) b x = Ok (Fin r) /\
  is_distance (hyperplane (repeat a (length x)) b) x (r / sqrt (INR (length x))).
Proof. exact plane_reg_scalar. Qed.
Print Assumptions C85_hyperplane_number.

(** ... so the default a = 1 gives no distance in two or more dimensions, in any point off the hyperplane. *)
Theorem C85_hyperplane_default_refuted : forall b x r, (2 <= length x)%nat -> Rsum x <> b -> plane_reg (NScalar 1) b x = Ok (Fin r) ->
  ~ is_distance (hyperplane (repeat 1 (length x)) b) x r.
Proof. exact plane_reg_default_wrong. Qed.
Print Assumptions C85_hyperplane_default_refuted.

(** C85. A zero normal gives NaN or inf in every point. *)
Theorem C85_zero_normal : forall b x a, length a = length x -> vnorm a = 0 ->
  plane_reg (NVector a) b x = Ok (if Req_EM_T b 0 then NaN else PInf).
Proof. exact plane_reg_zero_normal. Qed.
Print Assumptions C85_zero_normal.

(** C85. SphereDistance is the Euclidean distance to the sphere, in every point (the centre included) and for radius 0. *)
Theorem C85_sphere : forall r x, 0 <= r -> x <> [] -> is_distance (round_sphere r) x (sphere_reg r x).
Proof. exact sphere_reg_distance. Qed.
Print Assumptions C85_sphere.

(** C85. L1 is a norm. *)
Theorem C85_l1 : forall lamda x y a, 0 < lamda -> length x = length y ->
  (l1 lamda x = 0 <-> x = repeat 0 (length x)) /\ l1 lamda (vscal a x) = Rabs a * l1 lamda x /\ l1 lamda (vadd x y) <= l1 lamda x + l1 lamda y /\ 0 <= l1 lamda x.
Proof. exact l1_norm. Qed.
Print Assumptions C85_l1.

(** C85. L0 counts the entries different from 0, if none has absolute value in (0, 1e-8]; it vanishes exactly if all entries are at
    most 1e-8. *)
Theorem C85_l0 : forall lamda x, (forall t, In t x -> t = 0 \/ 1 / 100000000 < Rabs t) ->
  l0 lamda x = lamda * Rsum (map (fun t => if Req_EM_T t 0 then 0 else 1) x).
Proof. exact l0_count. Qed.
Print Assumptions C85_l0.

Theorem C85_l0_zero : forall lamda x, lamda <> 0 -> (l0 lamda x = 0 <-> forall t, In t x -> Rabs t <= 1 / 100000000).
Proof. exact l0_zero_iff. Qed.
Print Assumptions C85_l0_zero.

Theorem C85_l0_small_refuted : l0 1 [1 / 1000000000] = 0 /\ 1 / 1000000000 <> 0.
Proof. exact l0_small. Qed.
Print Assumptions C85_l0_small_refuted.

(** C85. QuadricDistance is |x'Ax + b'x + c|, also for a matrix that is not symmetric ... *)
Theorem C85_quadric : forall A b c x, quadric_reg (Some A) (Some b) c x =
  Ok (Rabs (msum (length x) (fun i => msum (length x) (fun j => coord i x * A i j * coord j x)) + dot x b + c)).
Proof. exact quadric_reg_zero. Qed.
Print Assumptions C85_quadric.

(** ... it raises if A or b is left at its default None ... *)
Theorem C85_quadric_defaults_refuted : forall A b c x, A = None \/ b = None -> exists e, quadric_reg A b c x = Err e.
Proof. exact quadric_reg_defaults. Qed.
Print Assumptions C85_quadric_defaults_refuted.

(** ... but not the distance to its zero set: for t^2 - 1 in the point 2 it is 3, the distance 1. *)
Theorem C85_quadric_distance_refuted : quadric_reg (Some (fun _ _ => 1)) (Some [0]) (-1) [2] = Ok 3 /\
  is_distance (fun y => quadric_reg (Some (fun _ _ => 1)) (Some [0]) (-1) y = Ok 0) [2] 1.
Proof. exact quadric_reg_not_distance. Qed.
Print Assumptions C85_quadric_distance_refuted.

(** the line 3u + 4v = 5 and the point (2, 1); the default in (1, 1) *)
Example C85_case : plane_reg (NVector [3; 4]) 5 [2; 1] = Ok (Fin 1) /\ plane_reg (NScalar 1) 0 [1; 1] = Ok (Fin 2).
Proof. exact plane_case. Qed.
Example C85_zero_case : vnorm [0; 0] = 0 /\ Rsum [1; 1] <> 0.
Proof. split. unfold vnorm. replace (sqnorm [0; 0]) with 0. apply sqrt_0. unfold sqnorm, dot. cbn. ring. cbn. lra. Qed.
Example C85_l0_case : forall t, In t [0; 2; 0; -3] -> t = 0 \/ 1 / 100000000 < Rabs t.
Proof. intros t [<-|[<-|[<-|[<-|[]]]]]; auto; right. rewrite Rabs_right; lra. rewrite Rabs_left; lra. Qed.
