(** * Specification: the formulas in the docstrings of cbx/objectives.py, typed from the documentation (line of each formula) *)
From Coq Require Import List Arith Reals.
From Verif Require Import Scalar Np.
Import ListNotations.
Open Scope R_scope.

(** [f] has the value [g x y] at (x,y), for all x and y *)
Definition computes (f : list R -> res R) (g : R -> R -> R) : Prop := forall x y, f [x; y] = Ok (g x y).
(** real powers of non-negative numbers *)
Definition power (a p : R) : R := if Req_EM_T a 0 then 0 else exp (p * ln a).
Definition total (l : list R) : R := fold_right Rplus 0 l.

Definition doc_three_hump_camel x y := 2 * x ^ 2 - 1.05 * x ^ 4 + 1 / 6 * x ^ 6 + x * y + y ^ 2. (* 25 *)
Definition doc_McCormick x y := sin (x + y) + (x - y) ^ 2 - 1.5 * x + 2.5 * y + 1. (* 89 *)
Definition doc_Rosenbrock a b x y := (a - x) ^ 2 + b * (y - x ^ 2) ^ 2. (* 151 *)
Definition doc_Himmelblau x y := (x ^ 2 + y - 11) ^ 2 + (x + y ^ 2 - 7) ^ 2. (* 224 *)
Definition doc_Rastrigin_original x y := (x ^ 2 + y - 11) ^ 2 + (x + y ^ 2 - 7) ^ 2. (* 305 *)
Definition doc_Rastrigin b c (x : list R) := 1 / INR (length x) * total (map (fun v => (v - b) ^ 2 - 10 * cos (2 * PI * (v - b)) + 10) x) + c. (* 313 *)
Definition doc_Ackley a b c x y := - 20 * exp (- b * sqrt (1 / 2 * (x ^ 2 + y ^ 2))) - exp (1 / 2 * (cos (c * x) + cos (c * y))) + a + exp 1. (* 440 *)
Definition doc_Bukin6 x y := 100 * sqrt (Rabs (y - 0.01 * x ^ 2)) + 0.01 * Rabs (x + 10). (* 672 *)
Definition doc_cross_in_tray x y := - 0.0001 * power (Rabs (sin x * sin y * exp (Rabs (100 - sqrt (x ^ 2 + y ^ 2) / PI)) + 1) + 1) 0.1. (* 748 *)
Definition doc_Easom x y := - cos x * cos y * exp (- (x - PI) ^ 2 - (y - PI) ^ 2). (* 828 *)
Definition doc_drop_wave x y := - (1 + cos (12 * sqrt (x ^ 2 + y ^ 2))) * exp (- ((x ^ 2 + y ^ 2) / (2 * (1 + 0.001 * (x ^ 2 + y ^ 2))))). (* 905 *)
Definition doc_Holder_table x y := - Rabs (sin x * cos y * exp (Rabs (1 - sqrt (x ^ 2 + y ^ 2) / PI))). (* 981 *)
(* 1067, 1074 *)
Definition doc_snowflake_i (i r phi : R) := r ^ 8 - r ^ 4 + sqrt (Rabs (cos (phi + i * (PI / 3)))) * power r 0.3.
Definition doc_snowflake r phi := Rmin (doc_snowflake_i 0 r phi) (Rmin (doc_snowflake_i 1 r phi) (Rmin (doc_snowflake_i 2 r phi) 0.8)).
Definition doc_eggholder x y := - (y + 47) * sin (sqrt (Rabs (y + x / 2 + 47))) - x * sin (sqrt (Rabs (x - y - 47))). (* 1163 *)
Definition doc_Michalewicz (m : nat) (x : list R) := - total (map (fun i => sin (nth (i - 1) x 0) * sin (INR i * nth (i - 1) x 0 ^ 2 / PI) ^ (2 * m)) (seq 1 (length x))). (* 1229 *)
