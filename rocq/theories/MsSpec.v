(** * Specification: mean values over several steps *)
From Coq Require Import List Arith Bool Reals.
From Verif Require Import Scalar Np State Pdyn Exec RVec ConsSpec Cbo CboSpec MomentSpec.
Import ListNotations.
Open Scope R_scope.

(** sum of the squared distances of all (ordered) pairs of points *)
Definition pair_spread (X : list (list R)) : R := Rsum (map (fun p => Rsum (map (fun q => sqnorm (vsub p q)) X)) X).

(** the mean of g is at most r: g is below a function that has a mean, at most r *)
Definition mean_at_most {Om} (A : average Om) (g : Om -> R) (r : R) : Prop :=
  exists h q, (forall w, g w <= h w) /\ mean_is A h q /\ q <= r.

(** N random points with d coordinates: mean 0, variance v, all coordinates of all points uncorrelated *)
Definition white_family {Om} (A : average Om) (N d : nat) (v : R) (xi : nat -> Om -> list R) : Prop :=
  (forall n, (n < N)%nat -> white A d v (xi n)) /\
  forall n n' i j, (n < N)%nat -> (n' < N)%nat -> n <> n' -> (i < d)%nat -> (j < d)%nat -> mean_is A (fun w => coord i (xi n w) * coord j (xi n' w)) 0.

(** the random input o of a step from s gives run m such points *)
Definition white_input {Om} (A : average Om) (m d : nat) (v : R) (s : st R vec) (o : Om -> orc vec) : Prop :=
  exists kk xi, nth_error (s_active s) kk = Some m /\ white_family A (s_N s) d v xi /\
    forall w, perms_valid (o w) s /\ forall n, (n < s_N s)%nat -> o_z (o w) kk n = floats (xi n w).

(** between two steps: nothing, a termination check or a change of alpha *)
Inductive between (c : cfg R vec) (s : st R vec) : st R vec -> Prop :=
| bt_none : between c s s
| bt_term : forall b s', terminate c s = Ok (b, s') -> between c s s'
| bt_alpha : forall s', alpha_changed s s' -> between c s s'
| bt_both : forall b s1 s', terminate c s = Ok (b, s1) -> alpha_changed s1 s' -> between c s s'.

(** [mean_after A c m d v Phi n s r]: the mean of Phi(particles of run m) after n further steps from s is at most r, taken
    step by step over the draws, whatever happens between the steps and whatever the laws of the draws, as long as the
    run is active. *)
Fixpoint mean_after {Om} (A : average Om) (c : cfg R vec) (m d : nat) (v : R) (Phi : list (list R) -> R) (n : nat) (s : st R vec) (r : R) : Prop :=
  match n with
  | O => exists X, ensemble_at s m d X /\ Phi X <= r
  | S n' => forall s1 o, between c s s1 -> In m (s_active s1) -> white_input A m d v s1 o ->
      exists B, (forall w, exists s2, step c (o w) s1 = Ok s2 /\ mean_after A c m d v Phi n' s2 (B w)) /\ mean_at_most A B r
  end.

(** a map of finite points that does not increase distances *)
Definition nonexpansive (d : nat) (pp : vec -> vec) : Prop := exists g : list R -> list R,
  (forall p, length p = d -> pp (floats p) = floats (g p) /\ length (g p) = d) /\
  forall p q, length p = d -> length q = d -> sqnorm (vsub (g p) (g q)) <= sqnorm (vsub p q).
(** 1 if the spread is at least e *)
Definition spread_at_least (e : R) (X : list (list R)) : R := if Rle_dec e (pair_spread X) then 1 else 0.

(** noise dimension factor *)
Definition noise_dim (k : noise_model) (d : nat) : R := match k with NIso => INR d | _ => 1 end.
