(** * C94: the consensus point with rounding errors *)
From Coq Require Import List Arith Bool Reals ZArith Lia Lra.
From Flocq Require Import Core.
From Verif Require Import Np RVec Rounding RoundSpec RoundFacts RoundFacts2 ExRound.
Import ListNotations.
Open Scope R_scope.

(** C94. With relative errors u, v of arithmetic and library functions, all summation orders and |alpha f(x_i)| <= B, the computed weights differ from the Gibbs
    weights by at most 60 (N (u+v) + u B) in total, and each coordinate of the computed consensus from the Gibbs mean by this order times the largest coordinate. *)
Theorem C94_default : forall u v eta rnd Exp Log sum, arithmetic u v eta rnd Exp Log sum -> forall a e B x X, e <> [] -> (forall y, In y e -> Rabs (a * y) <= B) ->
  INR (length e) * (u + v) + u * B <= / 128 -> length x = length e -> (forall y, In y x -> Rabs y <= X) ->
  let cs := coeffs_r rnd Exp Log sum a e in let q := INR (length e) * (u + v) + u * B in
  dist1 cs (gibbs_w a e) <= 60 * q /\ Rabs (Rsum cs - 1) <= 60 * q /\ Rabs (mean_r rnd sum cs x - Rsum (map2 Rmult x (gibbs_w a e))) <= X * (67 * q) + 4 * INR (length e) * eta.
Proof. exact default_consensus. Qed.
Print Assumptions C94_default.
(** Double precision meets the hypotheses, e.g. for 100 particles with |alpha f| up to 10^6. *)
Example C94_default_applies : arithmetic u64 u64 eta64 b64 (fun x => b64 (exp x)) (fun x => b64 (ln x)) (lsum b64) /\ 100 * (u64 + u64) + u64 * 1000000 <= / 128.
Proof. exact (conj b64_arithmetic b64_small). Qed.

(** The term u B is real: in double precision, with every library whose Exp 0 is 1 and Log 2 lies in [0,1], two particles with energy e and alpha e >= 2^55 get the
    weights 1 and 1; the consensus of two particles at the same place is twice that place. *)
Theorem C94_large_energies_refuted : forall Exp Log sum, Exp 0 = 1 -> 0 <= Log 2 <= 1 -> (forall a b, sum [a; b] = b64 (a + b)) ->
  forall i l j, (-1074 <= i)%Z -> (-1074 <= l)%Z -> (55 <= i + l)%Z -> (-1074 <= j)%Z ->
  let cs := coeffs_r b64 Exp Log sum (bpow radix2 i) [bpow radix2 l; bpow radix2 l] in
  cs = [1; 1] /\ mean_r b64 sum cs [bpow radix2 j; bpow radix2 j] = 2 * bpow radix2 j.
Proof. exact not_normalised. Qed.
Print Assumptions C94_large_energies_refuted.
Example C94_large_energies_applies : (fun x => b64 (exp x)) 0 = 1 /\ 0 <= b64 (ln 2) <= 1 /\ forall a b, lsum b64 [a; b] = b64 (a + b).
Proof. exact real_libraries. Qed.

(** Subtracting the smallest energy first, as compute_consensus_rescale does, removes the term: the error does not depend on the energies. *)
Theorem C94_rescaled : forall u v eta rnd Exp Log sum, arithmetic u v eta rnd Exp Log sum -> forall a e x X, e <> [] -> 0 <= a -> a * eta <= u ->
  INR (length e) * (u + v) <= / 128 -> length x = length e -> (forall y, In y x -> Rabs y <= X) ->
  let cs := coeffs_rescale_r rnd Exp Log sum a e in let q := INR (length e) * (u + v) in
  dist1 cs (gibbs_w a e) <= 90 * q /\ Rabs (Rsum cs - 1) <= 90 * q /\ Rabs (mean_r rnd sum cs x - Rsum (map2 Rmult x (gibbs_w a e))) <= X * (97 * q) + 4 * INR (length e) * eta.
Proof. exact rescaled_consensus. Qed.
Print Assumptions C94_rescaled.
Example C94_rescaled_applies : 10 ^ 10 * eta64 <= u64 /\ INR 3 * (u64 + u64) <= / 128.
Proof. exact rescaled_small. Qed.
