(** * C17: the recorded history *)
From Coq Require Import String List Arith ZArith Permutation.
From Verif Require Import Scalar Np State Pdyn Exec HistSpec HistFacts ExZ ExHist.
Import ListNotations.
Open Scope string_scope.
Open Scope nat_scope.
Open Scope list_scope.

(** C17. After n steps each tracked quantity has ceil(n / save_int) entries ('x' has the
    initial ensemble in front), and entry k documents step k * save_int. *)
Theorem C17_history :
  forall (K V : Type) (O : KOps K) (c : cfg K V) x0 chk al sg la dt perm0 names save s0 pairs s name,
  is_array (length x0) (shape1 x0) x0 -> 1 <= shape1 x0 -> 1 <= c_bsize c <= shape1 x0 ->
  (forall m, m < length x0 -> Permutation (perm0 m) (seq 0 (shape1 x0))) ->
  1 <= save ->
  init c x0 chk al sg la dt perm0 (Some names) [] (Some save) = Ok s0 ->
  NoDup names -> (In "drift" names -> ~ In "particle_idx" names) ->
  recorded_run c s0 pairs s -> In name names -> In name known_names ->
  exists l, hist_get name (s_hist s) = Some ((if String.eqb name "x" then [HX x0] else []) ++ l) /\
    length l = (length pairs + save - 1) / save /\
    forall k, k * save < length pairs ->
      exists a b v, nth_error pairs (k * save) = Some (a, b) /\
        documented c name a b = Some v /\ nth_error l k = Some v.
Proof. exact @history_known. Qed.
Print Assumptions C17_history.

Example C17_example : exists s0 pairs s, zhinit = Ok s0 /\ recorded_run zc1 s0 pairs s /\ length pairs = 3 /\
  hist_get "it" (s_hist s) = Some [HNat 0; HNat 2] /\
  hist_get "best_energy" (s_hist s) = Some [HUpd [Fin 49; Fin 9]; HUpd [Fin 16; Fin 1]]%Z /\
  exists a b, hist_get "x" (s_hist s) = Some [HX zx1; HX a; HX b] /\ a <> b.
Proof. exact hist_example. Qed.
