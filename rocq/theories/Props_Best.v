(** * C01, C02, C03: the best particle and its energy *)
From Coq Require Import List Arith ZArith.
From Verif Require Import Scalar Np State Pdyn Exec BestFacts ExZ.
Import ListNotations.

(** C01. In every execution without NaN objective values: best_energy is +inf or the
    objective value of best_particle, and that point was evaluated for this run. *)
Theorem C01_best_pair : forall (K V : Type) (O : KOps K) (OL : KOrd K) (c : cfg K V) s log m be bp,
  no_nan c -> exec c s log ->
  nth_error (s_be s) m = Some be -> nth_error (s_bp s) m = Some bp ->
  be = PInf \/ (In (m, bp) log /\ be = c_f c bp).
Proof. exact @best_pair. Qed.
Print Assumptions C01_best_pair.

(** C02. best_energy of run m is the minimum of +inf and all values computed for run m, and
    a lower bound of all entries of dyn.energy. *)
Theorem C02_best_is_minimum : forall (K V : Type) (O : KOps K) (OL : KOrd K) (c : cfg K V) s log m be,
  no_nan c -> exec c s log -> nth_error (s_be s) m = Some be ->
  is_minimum be (values_of c m log) /\
  (forall er, nth_error (s_energy s) m = Some er -> forall e, In e er -> fleb be e = true).
Proof. exact @best_is_min. Qed.
Print Assumptions C02_best_is_minimum.

(** C02. ... and it never increases. *)
Theorem C02_best_never_increases :
  forall (K V : Type) (O : KOps K) (OL : KOrd K) (c : cfg K V) s log o s' m be be',
  no_nan c -> exec c s log -> perms_valid o s -> step c o s = Ok s' ->
  nth_error (s_be s) m = Some be -> nth_error (s_be s') m = Some be' -> fleb be' be = true.
Proof. exact @best_monotone. Qed.
Print Assumptions C02_best_never_increases.

(** The hypotheses hold in a concrete execution with two runs, batches of 2 of 3 particles
    and one terminated run; best_particle is -4 although the current argmin is at -6. *)
Example C01_C02_example : exists s log, exec zc1 s log /\ no_nan zc1 /\ plain zc1 (s_N s) /\
  s_M s = 2 /\ s_N s = 3 /\ s_active s = [0] /\ s_it s = 3 /\
  s_be s = [Fin 16; Fin 4]%Z /\ s_bp s = [-4; 2]%Z /\ s_bcp s = [-6; 0]%Z /\
  s_nfe s = [6; 4] /\ s_fcalls s = 10 /\ length log = 10 /\ s_reason s = [None; Some [0]].
Proof. exact zex1. Qed.

(** C03. With an objective that is NaN at one point, best_energy stays +inf although the
    value 4 was computed: C02 does not extend to objectives with NaN. *)
Theorem C03_nan_hides_better_refuted : exists s log, exec (zc_nan 2) s log /\
  s_be s = [PInf] /\ In (0, 2%Z) log /\ c_f (zc_nan 2) 2%Z = Fin 4%Z.
Proof. exact nan_hides. Qed.
Print Assumptions C03_nan_hides_better_refuted.

(** C03. With mini-batches the returned pair can be wrong: best_energy 4 is returned with
    best_particle 5, whose objective value is 25. *)
Theorem C03_nan_breaks_best_pair_refuted : exists s log, exec (zc_nan 1) s log /\
  s_be s = [Fin 4%Z] /\ s_bp s = [5%Z] /\ c_f (zc_nan 1) 5%Z = Fin 25%Z.
Proof. exact nan_mismatch. Qed.
Print Assumptions C03_nan_breaks_best_pair_refuted.
