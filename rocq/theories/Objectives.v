(** * The benchmark functions of cbx/objectives.py

    Each [apply] acts on the last axis of the array, so it is modelled as a function of one point (a list of coordinates).
    Real arithmetic instead of floats; [x[...,k]] raises IndexError for a point without that coordinate.  Multimodal
    (objectives.py:646-659, scipy densities) is not modelled. *)
From Coq Require Import List Arith Bool Reals.
From Verif Require Import Scalar Np Nd RVec.
Import ListNotations.
Open Scope R_scope.


(** [x[..., k]] *)
Definition at_ (x : list R) (k : nat) : res R := match nth_error x k with Some v => Ok v | None => Err IndexError end.
(** [np.linalg.norm(x, axis=-1)] *)
Definition norm (x : list R) : R := sqrt (Rsum (map (fun v => v ^ 2) x)).
(** [a**p] for 0 <= a and 0 < p *)
Definition rpow (a p : R) : R := if Req_EM_T a 0 then 0 else Rpower a p.
(** [x - m] with broadcasting of vectors *)
Definition bminus (x m : list R) : res (list R) :=
  if (length x =? length m)%nat then Ok (map2 Rminus x m)
  else match x, m with
       | _, [b] => Ok (map (fun v => v - b) x)
       | [a], _ => Ok (map (fun b => a - b) m)
       | _, _ => Err ShapeError
       end.

(** objectives.py:75-76 *)
Definition three_hump_camel (x : list R) : res R :=
  a <- at_ x 0 ;; b <- at_ x 1 ;; Ok (2 * a ^ 2 - 105 / 100 * a ^ 4 + 1 / 6 * a ^ 6 + a * b + b ^ 2).
(** objectives.py:139-140 *)
Definition McCormick (x : list R) : res R :=
  a <- at_ x 0 ;; b <- at_ x 1 ;; Ok (sin (a + b) + (a - b) ^ 2 - 15 / 10 * a + 25 / 10 * b + 1).
(** objectives.py:212-213; parameters pa = a, pb = b *)
Definition Rosenbrock (pa pb : R) (x : list R) : res R :=
  a <- at_ x 0 ;; b <- at_ x 1 ;; Ok ((pa - a) ^ 2 + pb * (b - a ^ 2) ^ 2).
(** objectives.py:289-294 *)
Definition Himmelblau (factor : R) (x : list R) : res R :=
  let x := map (Rmult factor) x in
  a <- at_ x 0 ;; b <- at_ x 1 ;; Ok ((a ^ 2 + b - 11) ^ 2 + (a + b ^ 2 - 7) ^ 2).
Definition Himmelblau_minima : list (list R) :=
  [[3; 2]; [-2805118 / 1000000; 3131312 / 1000000]; [-3779310 / 1000000; -3283186 / 1000000]; [3584428 / 1000000; -1848126 / 1000000]].
(** objectives.py:367-379 *)
Definition Rastrigin (b c A : R) (x : list R) : res R :=
  Ok (A * INR (length x) + Rsum (map (fun v => (v - b) ^ 2 - A * cos (2 * PI * (v - b))) x) + c).
(** objectives.py:497-511; minima is the number 0 or an array.  1/d raises for d = 0. *)
Definition Ackley (A b c : R) (minimum : option (list R)) (x : list R) : res R :=
  let d := INR (length x) in
  x' <- match minimum with None => Ok (map (fun v => v - 0) x) | Some m => bminus x m end ;;
  if (length x =? 0)%nat then Err ZeroDivision else
  let arg1 := - b * sqrt (1 / d) * norm x' in
  let arg2 := 1 / d * Rsum (map (fun v => cos (c * v)) x') in
  Ok (- A * exp arg1 - exp arg2 + A + exp 1).

(** Rastrigin_multimodal and Ackley_multimodal, objectives.py:407-429 and 539-560.
    The argument z: absent, a list of rows, or a two-dimensional array.  [if z] for an array: ValueError for more than
    one entry, otherwise whether the entry is non-zero.  [self.z[i,:]] raises TypeError for a list. *)
Inductive zarg := ZNone | ZList (rows : list (list R)) | ZArr (rows : list (list R)).
Inductive zstore := SList (rows : list (list R)) | SArr (rows : list (list R)).
Definition multi_init (alpha : option (list R)) (z : zarg) : res (list R * zstore) :=
  let al := match alpha with Some (a :: l) => a :: l | _ => [1] end in
  let default := SArr (repeat [0] (length al)) in
  match z with
  | ZNone => Ok (al, default)
  | ZList [] => Ok (al, default)
  | ZList rows => Ok (al, SList rows)
  | ZArr rows =>
      match List.concat rows with
      | [] => Ok (al, default)
      | [v] => Ok (al, if Req_EM_T v 0 then default else SArr rows)
      | _ => Err ValueError
      end
  end.
Definition z_row (z : zstore) (i : nat) : res (list R) :=
  match z with SList _ => Err TypeError | SArr rows => match nth_error rows i with Some r => Ok r | None => Err IndexError end end.
Fixpoint multi_terms (V : list R -> res R) (al : list R) (z : zstore) (i : nat) (x : list R) (y : R) : res R :=
  match al with
  | [] => Ok y
  | a :: al => r <- z_row z i ;; u <- bminus x r ;; v <- V (map (Rmult a) u) ;; multi_terms V al z (S i) x (y * v)
  end.
Definition multi_apply (V : list R -> res R) (o : list R * zstore) (x : list R) : res R := multi_terms V (fst o) (snd o) 0 x 1.
Definition Rastrigin_multimodal := multi_apply (Rastrigin 0 0 10).
Definition Ackley_multimodal := multi_apply (Ackley 20 (2 / 10) (2 * PI) None).

(** objectives.py:567-574 (the value of one point; for [squeeze] see Squeeze.v) *)
Definition accelerated_sinus (a : R) (x : list R) : res R := Ok (sin (a * norm x / (1 + norm x * norm x)) + 1).
(** objectives.py:582-589; 1/x.shape[-1] raises for d = 0 *)
Definition nd_sinus (x : list R) : res R :=
  let x := map (Rmult (3 / 10)) x in
  if (length x =? 0)%nat then Err ZeroDivision else
  a <- at_ x 0 ;; Ok ((sin (1 / INR (length x) * norm x ^ 2) + 1) * (a ^ 4 - a ^ 2 + 1)).
(** objectives.py:596-600 *)
Definition p_4th_order (x : list R) : res R := Ok (Rsum (map (fun v => v ^ 4) x) - Rsum (map (fun v => v ^ 2) x) + 1).
(** objectives.py:608-609 *)
Definition Quadratic (alpha : R) (x : list R) : res R := Ok (norm (map (Rmult alpha) x) ^ 2).
(** objectives.py:619-622 *)
Definition Banana (m sigma sigma_prior : R) (x : list R) : res R :=
  a <- at_ x 0 ;; b <- at_ x 1 ;;
  Ok (1 / 2 / sigma ^ 2 * (((b - 1) ^ 2 - (a - 25 / 10) - 1) - m) ^ 2 + 1 / 2 / sigma_prior ^ 2 * norm x ^ 2).
(** objectives.py:631-636; centres a = (a0,a1), b = (b0,b1) *)
Definition Bimodal (a0 a1 b0 b1 : R) (x : list R) : res R :=
  u <- at_ x 0 ;; v <- at_ x 1 ;;
  Ok (- ln (exp (- ((u - a0) ^ 2 + (v - a1) ^ 2 / (2 / 10))) + 1 / 2 * exp (- (u - b0) ^ 2 / 8 - (v - b1) ^ 2 / (1 / 2)))).
(** objectives.py:644-648 *)
Definition Unimodal (a0 a1 : R) (x : list R) : res R :=
  u <- at_ x 0 ;; v <- at_ x 1 ;; Ok (- ln (1 / 2 * exp (- (u - a0) ^ 2 / 8 - (v - a1) ^ 2 / (1 / 2)))).
(** objectives.py:733-738 *)
Definition Bukin6 (x : list R) : res R :=
  a <- at_ x 0 ;; b <- at_ x 1 ;; Ok (100 * sqrt (Rabs (b - 1 / 100 * a ^ 2)) + 1 / 100 * Rabs (a + 10)).
Definition Bukin6_minima : list (list R) := [[0; 0]].
(** objectives.py:817-818 *)
Definition cross_in_tray (x : list R) : res R :=
  a <- at_ x 0 ;; b <- at_ x 1 ;;
  Ok (- (1 / 10000) * rpow (Rabs (sin a * sin b * exp (Rabs (100 - sqrt (a ^ 2 + b ^ 2) / PI))) + 1) (1 / 10)).
(** objectives.py:893-894 *)
Definition Easom (x : list R) : res R :=
  a <- at_ x 0 ;; b <- at_ x 1 ;; Ok (- cos a * cos b * exp (- ((a - PI) ^ 2 + (b - PI) ^ 2))).
(** objectives.py:970-971 *)
Definition drop_wave (x : list R) : res R :=
  a <- at_ x 0 ;; b <- at_ x 1 ;;
  Ok (- (1 + cos (12 * sqrt (a ^ 2 + b ^ 2))) * exp (- (1 / 2) * (a ^ 2 + b ^ 2) / (1 + 1 / 1000 * (a ^ 2 + b ^ 2)))).
(** objectives.py:1053-1055; shift is a number *)
Definition Holder_table (factor shift : R) (x : list R) : res R :=
  let x := map (fun v => (v - shift) * factor) x in
  a <- at_ x 0 ;; b <- at_ x 1 ;; Ok (- Rabs (sin a * cos b * exp (Rabs (1 - sqrt (a ^ 2 + b ^ 2) / PI)))).
(** [np.arctan2(y, x)] *)
Definition arctan2 (y x : R) : R :=
  if Rlt_dec 0 x then atan (y / x)
  else if Rlt_dec x 0 then if Rle_dec 0 y then atan (y / x) + PI else atan (y / x) - PI
  else if Rlt_dec 0 y then PI / 2 else if Rlt_dec y 0 then - (PI / 2) else 0.
(** objectives.py:1142-1153 *)
Definition snowflake (alpha : R) (x : list R) : res R :=
  let x := map (Rmult alpha) x in
  let r := norm x in
  b <- at_ x 1 ;; a <- at_ x 0 ;;
  let phi := arctan2 b a in
  let g psi := r ^ 8 - r ^ 4 + sqrt (Rabs (cos (phi + psi))) * rpow r (3 / 10) in
  Ok (Rmin (fold_left (fun acc psi => Rmin acc (g psi)) [0; PI / 3; PI * 2 / 3] 1) (8 / 10)).
(** objectives.py:1130-1140 *)
Definition snowflake_minima (alpha : R) : list (list R) :=
  let R0 := 1 / alpha * rpow (1 / 2) (1 / 4) in
  map (fun p : R * R => [fst p * cos (snd p); fst p * sin (snd p)])
    [(R0, PI / 2); (- R0, PI / 2); (R0, PI / 2 - PI / 3); (- R0, PI / 2 - PI / 3); (R0, PI / 2 - 2 * PI / 3); (- R0, PI / 2 - 2 * PI / 3)].
(** objectives.py:1218-1219 *)
Definition eggholder (x : list R) : res R :=
  a <- at_ x 0 ;; b <- at_ x 1 ;;
  Ok (- (b + 47) * sin (sqrt (Rabs (b + a / 2 + 47))) - a * sin (sqrt (Rabs (a - (b + 47))))).
(** objectives.py:1292-1296 *)
Definition Michalewicz (m : nat) (x : list R) : res R :=
  Ok (- Rsum (mapi (fun i v => sin v * sin (INR (i + 1) * v ^ 2 / PI) ^ (2 * m)) x)).
