(** * Proofs about the solvers of MultiConstraint *)
From Coq Require Import List Arith Reals Lra Lia.
From Verif Require Import Scalar RVec RVecFacts ConsSpec MatSqrt MatSpec MatFacts Cbo CboFacts Constraints ConSpec ConFacts ConMulti ConMultiSpec ExCon.
Import ListNotations.
Open Scope R_scope.

Lemma solves_step : forall d H factor xt y, length xt = d -> solves d (fun i j => eye i j + factor * H i j) xt y -> linear_step H factor xt y.
Proof.
  intros d H factor xt y Ht [Hl E]. subst d. split; auto. intros i Hi. rewrite <- (E i Hi).
  rewrite <- (msum_delta (length xt) i (fun j => coord j y)) at 1 by auto. rewrite <- msum_scal, <- msum_add. apply msum_ext. intros j Hj. unfold eye. destruct (Nat.eqb i j); ring.
Qed.
Lemma step_ext : forall G H factor xt y, (forall i j, G i j = H i j) -> linear_step G factor xt y -> linear_step H factor xt y.
Proof. intros G H factor xt y E [Hl S]. split; auto. intros i Hi. rewrite <- (S i Hi). f_equal. f_equal. apply msum_ext. intros j Hj. rewrite E. reflexivity. Qed.
Lemma step_zero : forall H factor xt, (forall i j, H i j = 0) -> linear_step H factor xt xt.
Proof.
  intros H factor xt E. split; auto. intros i Hi. rewrite (msum_ext _ _ (fun j => 0 * coord j xt)) by (intros; rewrite E; reflexivity).
  rewrite msum_scal. ring.
Qed.

Lemma value_hessian : forall k x, fits k (length x) -> symmetric k (length x) -> hessian_at (c_value k) x (con_hess k x).
Proof.
  intros k x F S. exists (con_grad k). split; [|apply con_hess_ok; auto].
  intros p Hp. apply value_grad; rewrite Hp; auto.
Qed.
Lemma violation_hessian : forall ks x, regular_constraints ks (length x) -> hessian_at (violation ks) x (multi_hess_sq ks x).
Proof.
  intros ks x R. exists (multi_grad_sq ks). split; [|apply multi_hess_ok; auto].
  intros p Hp. apply value_multi. rewrite Hp. exact R.
Qed.

(** the Hessian is unique *)
Lemma hessian_unique : forall f x H1 H2, hessian_at f x H1 -> hessian_at f x H2 -> forall i j, (i < length x)%nat -> (j < length x)%nat -> H1 i j = H2 i j.
Proof.
  intros f x H1 H2 (g1 & G1 & J1) (g2 & G2 & J2) i j Hi Hj.
  assert (U : length (unit (length x) j) = length x) by apply unit_len.
  pose proof (J1 _ i U Hi) as D1. pose proof (J2 _ i U Hi) as D2.
  assert (D3 : dir_deriv (fun p => coord i (g1 p)) x (unit (length x) j) (msum (length x) (fun k => H2 i k * coord k (unit (length x) j)))).
  { apply (deriv_ext (fun p => coord i (g2 p))); auto. intros t. f_equal. apply (gradient_unique f (vadd x (vscal t (unit (length x) j)))); [apply G2|apply G1]; apply line_len; auto. }
  pose proof (deriv_unique _ _ _ _ _ D1 D3) as E.
  assert (P : forall H : mat, msum (length x) (fun k => H i k * coord k (unit (length x) j)) = H i j).
  { intros H. rewrite <- (msum_delta (length x) j (fun k => H i k)) by auto. apply msum_ext. intros k Hk. rewrite coord_unit by auto. destruct (Nat.eqb j k); ring. }
  rewrite !P in E. exact E.
Qed.

Theorem multi_linearised : forall solve ks x xt factor y, solver solve -> regular_constraints ks (length x) -> length xt = length x ->
  multi_solve solve ks x xt factor = MVec (Some y) -> exists H, hessian_at (violation ks) x H /\ linear_step H factor xt y.
Proof.
  intros solve ks x xt factor y HS R Ht E. exists (multi_hess_sq ks x). split; [apply violation_hessian; auto|].
  destruct ks as [|k [|k2 ks]]; cbn [multi_solve] in E; [discriminate| |].
  - injection E as E. apply (step_ext (con_hess_sq k x)). { intros i j. unfold multi_hess_sq. cbn. ring. }
    apply (solves_step (length x)); auto.
  - injection E as E. apply (solves_step (length x)); auto.
Qed.

(** without constraints only x_tilde solves the equation, and the number 0 comes back *)
Lemma violation_none : forall x H, hessian_at (violation []) x H -> forall i j, (i < length x)%nat -> (j < length x)%nat -> H i j = 0.
Proof.
  intros x H HH i j Hi Hj. rewrite (hessian_unique _ _ _ (multi_hess_sq [] x) HH) by (auto; apply violation_hessian; intros k []). reflexivity.
Qed.
Theorem multi_none : forall solve x xt factor, length xt = length x -> multi_solve solve [] x xt factor = MZero /\
  forall H y, hessian_at (violation []) x H -> linear_step H factor xt y -> y = xt.
Proof.
  intros solve x xt factor Ht. split; auto. intros H y HH [Hl S]. apply (coord_ext _ _ (length xt)); auto. intros i Hi. rewrite <- (S i Hi).
  rewrite (msum_ext _ _ (fun j => 0 * coord j y)). rewrite msum_scal. ring.
  intros j Hj. rewrite (violation_none x H HH) by congruence. reflexivity.
Qed.

Theorem multi_call_hess_step : forall solve ks x xt factor y, solver solve -> regular_constraints ks (length x) -> length xt = length x ->
  multi_solve_call_hess solve ks x xt factor = Some y ->
  exists Hs, (forall k, In k ks -> hessian_at (c_value k) x (Hs k)) /\
    linear_step (fun i j => Rsum (map (fun k => c_value k x * Hs k i j) ks)) factor xt y.
Proof.
  intros solve ks x xt factor y HS R Ht E. exists (fun k => con_hess k x).
  split. { intros k Hk. destruct (R k Hk). apply value_hessian; auto. }
  apply (step_ext (multi_call_hess ks x)).
  { intros i j. unfold multi_call_hess. apply (f_equal Rsum). apply map_ext_in. intros k Hk. rewrite con_value by apply (R k Hk). reflexivity. }
  destruct ks as [|k [|k2 ks]]; cbn [multi_solve_call_hess] in E.
  - injection E as <-. apply step_zero. reflexivity.
  - assert (P : forall i j, con_call_hess k x i j = multi_call_hess [k] x i j) by (intros; unfold multi_call_hess, con_call_hess; cbn; ring).
    destruct k as [|a b|r|A b c]; cbn [solve_call_hess] in E;
      [| injection E as <-; apply step_zero; intros i j; unfold multi_call_hess; cbn; ring | |];
      apply (step_ext _ _ _ _ _ P); apply (solves_step (length x)); auto.
  - apply (solves_step (length x)); auto.
Qed.

Lemma floats_inj : forall u v, floats u = floats v -> u = v.
Proof.
  induction u as [|a u IH]; intros [|b v] E; try discriminate; auto. unfold floats in E. cbn in E. injection E as -> E. f_equal. apply IH. exact E.
Qed.
Theorem multi_plus_one : forall solve k x xt factor y, solver solve -> fits k (length x) -> symmetric k (length x) -> length xt = length x ->
  multi_solve_plus solve [k] x xt factor = SVal (floats y) -> implicit_step (c_value k) factor x xt y.
Proof.
  intros solve k x xt factor y HS F S Ht E. cbn [multi_solve_plus] in E. destruct k as [|a b|r|A b c]; cbn [solve_plus] in E; [discriminate| | |].
  - injection E as E. apply floats_inj in E. subst y. destruct F. apply plane_step; auto.
  - injection E as E. destruct (Req_EM_T (1 + 4 * factor * c_value (CSphere r) x) 0) as [Z|Z].
    + destruct y as [|a y].
      * assert (xt = []) as -> by (destruct xt; auto; discriminate). split; auto.
        exists (con_grad (CSphere r) []). split; [apply value_grad; exact I|]. cbn. lia.
      * exfalso. rewrite <- con_value in Z by exact I. apply (sphere_solve_singular r x xt factor Z (Fin a)).
        rewrite E. left. reflexivity. exists a. reflexivity.
    + destruct (sphere_step r x xt factor Ht Z) as (z & Ez & Hz & _). rewrite Ez in E. apply floats_inj in E. subst z. exact Hz.
  - destruct (solve_quadric solve A b c x xt factor) as [z|] eqn:Ez; [|discriminate]. injection E as E. apply floats_inj in E. subst z.
    apply (quadric_step solve); auto.
Qed.
Theorem multi_plus_other : forall solve ks x xt factor, length ks <> 1%nat ->
  multi_solve_plus solve ks x xt factor = match ks with [] => SVal (floats xt) | _ => STooMany end.
Proof. intros solve [|k [|k2 ks]] x xt factor H; cbn in *; auto. contradiction H. reflexivity. Qed.

(** two constraints in the plane: the circle and a line *)
Lemma ex_multi : exists y, multi_solve solve2 [CSphere 1; CPlane [1; 0] 0] [1; 0] [12; 1] 1 = MVec (Some y) /\ y = [12 / 11; 1] /\
  regular_constraints [CSphere 1; CPlane [1; 0] 0] (length [1; 0]) /\ violation [CSphere 1; CPlane [1; 0] 0] [1; 0] = 1.
Proof.
  assert (N : vnorm [1; 0] = 1). { unfold vnorm, sqnorm, dot. cbn. replace (1 * 1 + (0 * 0 + 0)) with 1 by ring. apply sqrt_1. }
  exists [12 / 11; 1]. split; [|split; [reflexivity|split]].
  - unfold multi_solve, solve2, multi_hess_sq, con_hess_sq. cbn [length map con con_grad con_hess]. rewrite !N.
    unfold Rsum, eye, coord, dot, vscal. cbn. destruct (Req_EM_T _ 0) as [Z|Z]; [exfalso; lra|]. do 2 f_equal.
    apply (coord_ext _ _ 2); auto. intros [|[|i]] Hi; [| |lia]; unfold coord; cbn; field; lra.
  - intros k [<-|[<-|[]]]; cbn; repeat split; auto. rewrite N. lra.
  - unfold violation. cbn [map]. rewrite <- !con_value by (cbn; auto; split; auto; rewrite N; lra). cbn [con]. rewrite !N. unfold Rsum, dot. cbn. field.
Qed.

(** two circles, and one *)
Lemma ex_multi_other : (exists y, multi_solve_call_hess solve2 [CSphere 1; CSphere 2] [2; 0] [7; 14] 1 = Some y /\ y = [1; 2]) /\
  multi_solve_plus solve2 [CSphere 1] [1; 0] [3; 4] 1 = SVal (floats [3; 4]).
Proof.
  assert (N : forall a, 0 <= a -> vnorm [a; 0] = a). { intros a Ha. unfold vnorm, sqnorm, dot. cbn. replace (a * a + (0 * 0 + 0)) with (a * a) by ring. apply sqrt_square; auto. }
  split.
  - exists [1; 2]. split; auto. unfold multi_solve_call_hess, solve2, multi_call_hess. cbn [length map con con_hess]. rewrite !N by lra.
    unfold Rsum, eye. cbn. destruct (Req_EM_T _ 0) as [Z|Z]; [exfalso; lra|]. f_equal.
    apply (coord_ext _ _ 2); auto. intros [|[|i]] Hi; [| |lia]; unfold coord; cbn; field; lra.
  - cbn [multi_solve_plus solve_plus]. f_equal. unfold solve_sphere. rewrite N by lra. replace (1 + 4 * 1 * (1 ^ 2 - 1 ^ 2)) with 1 by ring.
    assert (D : fdiv (Fin 1) (Fin 1) = Fin (1 / 1)).
    { unfold fdiv, k_is0. cbn. destruct (Rltb 1 0) eqn:A; [apply Rltb_true in A; lra|]. destruct (Rltb 0 1) eqn:B; [reflexivity|apply Rltb_false in B; lra]. }
    rewrite D. unfold floats. cbn. repeat f_equal; field.
Qed.
