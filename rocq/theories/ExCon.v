(** * Concrete cases for the constraint theorems *)
From Coq Require Import List Arith Reals Lra Lia.
From Verif Require Import Scalar RVec RVecFacts ConsSpec MatSqrt MatSpec MatFacts Constraints ConSpec ConFacts CboFacts.
Import ListNotations.
Open Scope R_scope.

(** a solver for systems of size one *)
Definition solve1 (d : nat) (M : mat) (v : list R) : option (list R) :=
  match d, v with
  | 1%nat, [a] => if Req_EM_T (M 0%nat 0%nat) 0 then None else Some [a / M 0%nat 0%nat]
  | _, _ => None
  end.
Lemma solve1_ok : solver solve1.
Proof.
  intros d M v y Hv E. unfold solve1 in E. destruct d as [|[|d]]; try discriminate. destruct v as [|a [|b v]]; try discriminate.
  destruct (Req_EM_T (M 0%nat 0%nat) 0) as [Z|Z]; try discriminate. injection E as <-. split; auto. intros i Hi. assert (i = 0)%nat by lia. subst i.
  unfold msum, coord. cbn. field. auto.
Qed.

Definition shear : mat := fun i j => match i, j with 0%nat, 1%nat => 1 | _, _ => 0 end.
Lemma ex_con : fits (CPlane [3; 4] 1) (length [1; 2]) /\ fits (CQuadric (fun i j => if Nat.eqb i j then 2 else 1) [1; 1] 3) (length [1; 2]) /\
  symmetric (CQuadric (fun i j => if Nat.eqb i j then 2 else 1) [1; 1] 3) (length [1; 2]) /\
  (exists i j, (i < 2)%nat /\ (j < 2)%nat /\ shear i j <> shear j i) /\
  con_grad (CSphere 1) [1; 2] = [2; 4].
Proof.
  repeat split.
  - unfold vnorm, sqnorm, dot. cbn. replace (3 * 3 + (4 * 4 + 0)) with (5 * 5) by ring. rewrite sqrt_square; lra.
  - intros i j Hi Hj. destruct i as [|[|i]], j as [|[|j]]; cbn in *; auto; lia.
  - exists 0%nat, 1%nat. repeat split; auto. cbn. lra.
  - apply (coord_ext _ _ 2); auto. intros [|[|i]] Hi; [| |lia]; unfold coord; cbn; ring.
Qed.
Lemma ex_step : 1 + 4 * 1 * c_value (CSphere 1) [2; 0] <> 0 /\ (1 <= 4 * 1 * (1 * 1)) /\
  (exists x, length x = 3%nat /\ sqnorm x = 1 * 1 - 1 / (4 * 1)) /\
  solve_quadric solve1 (fun _ _ => 1) [1] 0 [1] [9] (1/4) = Some [8 / 3] /\ msym (length [1]) (fun _ _ => 1).
Proof.
  repeat split.
  - unfold c_value, msum, coord. cbn. lra.
  - lra.
  - apply sphere_step_exists; [lra|lia|lra].
  - unfold solve_quadric, solve1, eye, con, vmat, msum, coord, dot. cbn. destruct (Req_EM_T _ 0) as [Z|Z]; [lra|]. f_equal. f_equal. field_simplify; lra.
Qed.
(** a non-symmetric quadric where the implicit step misses its equation, d = 2, c(x) = x0 x1 *)
Definition solve2 (d : nat) (M : mat) (v : list R) : option (list R) :=
  match d, v with
  | 2%nat, [a; b] => let det := M 0%nat 0%nat * M 1%nat 1%nat - M 0%nat 1%nat * M 1%nat 0%nat in
      if Req_EM_T det 0 then None else Some [(M 1%nat 1%nat * a - M 0%nat 1%nat * b) / det; (M 0%nat 0%nat * b - M 1%nat 0%nat * a) / det]
  | _, _ => None
  end.
Lemma solve2_ok : solver solve2.
Proof.
  intros d M v y Hv E. unfold solve2 in E. destruct d as [|[|[|d]]]; try discriminate. destruct v as [|a [|b [|c v]]]; try discriminate.
  destruct (Req_EM_T _ 0) as [Z|Z]; try discriminate. injection E as <-. split; auto. intros i Hi. unfold msum, coord.
  destruct i as [|[|i]]; [| |lia]; cbn; field; auto.
Qed.
Lemma ex_shear : exists y, solve_quadric solve2 shear [0; 0] 0 [1; 1] [1; 1] 1 = Some y /\
  ~ implicit_step (c_value (CQuadric shear [0; 0] 0)) 1 [1; 1] [1; 1] y.
Proof.
  exists [-3; 1]. assert (E : solve_quadric solve2 shear [0; 0] 0 [1; 1] [1; 1] 1 = Some [-3; 1]).
  { unfold solve_quadric, solve2, shear, eye, con, vmat, msum, coord, dot. cbn. destruct (Req_EM_T _ 0) as [Z|Z]; [lra|]. f_equal. apply (coord_ext _ _ 2); auto. intros [|[|i]] Hi; [| |lia]; unfold coord; cbn; field; lra. }
  split; auto. rewrite (quadric_step_iff solve2 shear [0;0] 0 [1;1] [1;1] 1 [-3;1] solve2_ok); auto; try lra.
  - intros H. assert (L : (0 < length [1;1])%nat) by (cbn; lia). specialize (H 0%nat L). unfold msum, shear, coord in H. cbn in H. lra.
  - unfold c_value, msum, shear, coord. cbn. lra.
Qed.
