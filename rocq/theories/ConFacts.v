(** * Constraints: derivatives and implicit steps *)
From Coq Require Import List Arith Reals Lra Lia Psatz.
From Verif Require Import Scalar Np NpFacts RVec RVecFacts ConsSpec ConsFacts PolarFacts RegFacts Cbo CboSpec CboFacts MatSqrt MatSpec MatFacts MirrorProj Constraints ConSpec.
Import ListNotations.
Open Scope R_scope.

(** ** derivatives along lines *)
Lemma deriv_poly : forall f a b c, (forall t, f t = a + b * t + c * (t * t)) -> derivable_pt_lim f 0 b.
Proof.
  intros f a b c H eps He. assert (HP : 0 < Rabs c + 1) by (pose proof (Rabs_pos c); lra).
  assert (Hd : 0 < eps / (Rabs c + 1)) by (apply Rdiv_lt_0_compat; lra). exists (mkposreal _ Hd). intros h Hh Hb. cbn [pos] in Hb.
  rewrite !H. rewrite Rplus_0_l. replace ((a + b * h + c * (h * h) - (a + b * 0 + c * (0 * 0))) / h - b) with (c * h) by (field; auto).
  rewrite Rabs_mult. apply Rle_lt_trans with (Rabs c * (eps / (Rabs c + 1))).
  - apply Rmult_le_compat_l. apply Rabs_pos. lra.
  - apply Rlt_le_trans with ((Rabs c + 1) * (eps / (Rabs c + 1))). apply Rmult_lt_compat_r; lra. apply Req_le. field. lra.
Qed.

Lemma deriv_unique : forall f x h l1 l2, dir_deriv f x h l1 -> dir_deriv f x h l2 -> l1 = l2.
Proof. intros. eapply uniqueness_limite; eauto. Qed.

Lemma deriv_ext : forall f g x h l, (forall t, f (vadd x (vscal t h)) = g (vadd x (vscal t h))) -> dir_deriv f x h l -> dir_deriv g x h l.
Proof. intros f g x h l E H eps He. destruct (H eps He) as [d Hd]. exists d. intros k Hk Hk2. rewrite <- !E. auto. Qed.

Lemma line_0 : forall x h, length h = length x -> vadd x (vscal 0 h) = x.
Proof.
  intros x h H. apply (coord_ext _ _ (length x)); auto. apply length_vadd; auto. rewrite length_vscal; auto.
  intros i Hi. rewrite coord_vadd by (rewrite length_vscal; auto). rewrite coord_vscal. ring.
Qed.
Lemma line_len : forall x h t, length h = length x -> length (vadd x (vscal t h)) = length x.
Proof. intros. apply length_vadd; auto. rewrite length_vscal; auto. Qed.

(** product rule *)
Lemma deriv_mult : forall f g x h l m, length h = length x -> dir_deriv f x h l -> dir_deriv g x h m -> dir_deriv (fun p => f p * g p) x h (l * g x + f x * m).
Proof.
  intros f g x h l m Hl Hf Hg. unfold dir_deriv in *. pose proof (derivable_pt_lim_mult _ _ _ _ _ Hf Hg) as H. cbv beta in H.
  rewrite line_0 in H by auto. exact H.
Qed.
Lemma deriv_scal : forall a f x h l, dir_deriv f x h l -> dir_deriv (fun p => a * f p) x h (a * l).
Proof. intros. unfold dir_deriv in *. exact (derivable_pt_lim_scal _ a _ _ H). Qed.
Lemma deriv_plus : forall f g x h l m, dir_deriv f x h l -> dir_deriv g x h m -> dir_deriv (fun p => f p + g p) x h (l + m).
Proof. intros. unfold dir_deriv in *. exact (derivable_pt_lim_plus _ _ _ _ _ H H0). Qed.
Lemma deriv_const : forall a x h, dir_deriv (fun _ => a) x h 0.
Proof. intros. unfold dir_deriv. apply (derivable_pt_lim_const a 0). Qed.

(** ** bilinear forms *)
Definition bil (d : nat) (A : mat) (u v : list R) : R := msum d (fun j => coord j v * msum d (fun i => coord i u * A i j)).
Lemma length_vmat : forall x A, length (vmat x A) = length x.
Proof. intros. unfold vmat. rewrite map_length, seq_length. auto. Qed.
Lemma coord_vmat : forall x A j, (j < length x)%nat -> coord j (vmat x A) = msum (length x) (fun i => coord i x * A i j).
Proof. intros. unfold coord at 1, vmat. rewrite nth_map_seq; auto. Qed.
Lemma dot_vmat : forall u v A d, length u = d -> length v = d -> dot v (vmat u A) = bil d A u v.
Proof.
  intros u v A d Hu Hv. rewrite (dot_sum _ _ d); auto. 2:rewrite length_vmat; auto. unfold bil, msum at 1. apply Rsum_map_ext. intros j Hj. apply in_seq in Hj.
  fold (coord j v) (coord j (vmat u A)). rewrite coord_vmat by lia. rewrite Hu. auto.
Qed.
Lemma bil_line_l : forall d A u h t v, length u = d -> length h = d -> bil d A (vadd u (vscal t h)) v = bil d A u v + t * bil d A h v.
Proof.
  intros d A u h t v Hu Hh. unfold bil. rewrite <- msum_scal, <- msum_add. apply msum_ext. intros j Hj.
  replace (msum d (fun i => coord i (vadd u (vscal t h)) * A i j)) with (msum d (fun i => coord i u * A i j) + t * msum d (fun i => coord i h * A i j)). ring.
  rewrite <- msum_scal, <- msum_add. apply msum_ext. intros i Hi. rewrite coord_vadd by (rewrite length_vscal; congruence). rewrite coord_vscal. ring.
Qed.
Lemma bil_line_r : forall d A u h t v, length u = d -> length h = d -> bil d A v (vadd u (vscal t h)) = bil d A v u + t * bil d A v h.
Proof.
  intros d A u h t v Hu Hh. unfold bil. rewrite <- msum_scal, <- msum_add. apply msum_ext. intros j Hj.
  rewrite coord_vadd by (rewrite length_vscal; congruence). rewrite coord_vscal. ring.
Qed.
Lemma bil_sym : forall d A u v, msym d A -> bil d A u v = bil d A v u.
Proof.
  intros d A u v HA. unfold bil. transitivity (msum d (fun j => msum d (fun i => coord j v * coord i u * A i j))).
  - apply msum_ext. intros j Hj. rewrite <- msum_scal. apply msum_ext. intros. ring.
  - rewrite msum_swap. apply msum_ext. intros i Hi. rewrite <- msum_scal. apply msum_ext. intros j Hj. rewrite (HA i j) by auto. ring.
Qed.

(** ** the expansion of a constraint along a line *)
Definition true_slope (k : constraint) (x h : list R) : R :=
  match k with
  | CNone => 0
  | CPlane a b => dot a h / vnorm a
  | CSphere r => 2 * dot x h
  | CQuadric A b c => bil (length x) A x h + bil (length x) A h x + dot h b
  end.
Lemma con_line : forall k x h, fits k (length x) -> length h = length x -> exists q, forall t, con k (vadd x (vscal t h)) = con k x + true_slope k x h * t + q * (t * t).
Proof.
  intros [|a b|r|A b c] x h HF Hh; cbn [con true_slope].
  - exists 0. intros. ring.
  - destruct HF as [Ha Hn]. exists 0. intros t. rewrite dot_vadd_r by (rewrite length_vscal; auto). rewrite dot_vscal_r. field. auto.
  - exists (sqnorm h). intros t. replace (vnorm (vadd x (vscal t h)) ^ 2) with (sqnorm (vadd x (vscal t h))) by (rewrite <- vnorm_sq; ring).
    replace (vnorm x ^ 2) with (sqnorm x) by (rewrite <- vnorm_sq; ring). rewrite sqnorm_add by (rewrite length_vscal; auto).
    rewrite dot_vscal_r. unfold sqnorm at 2. rewrite dot_vscal_r, dot_vscal_l. fold (sqnorm h). ring.
  - exists (bil (length x) A h h). intros t. rewrite (dot_vmat _ _ _ (length x)), (dot_vmat _ _ _ (length x)) by (auto using line_len).
    rewrite bil_line_l, !bil_line_r by auto. rewrite dot_vadd_l by (rewrite length_vscal; auto). rewrite dot_vscal_l. ring.
Qed.
Lemma con_deriv : forall k x h, fits k (length x) -> length h = length x -> dir_deriv (con k) x h (true_slope k x h).
Proof. intros k x h HF Hh. destruct (con_line k x h HF Hh) as [q Hq]. eapply deriv_poly. exact Hq. Qed.

Lemma length_grad : forall k x, fits k (length x) -> length (con_grad k x) = length x.
Proof.
  intros [|a b|r|A b c] x HF; cbn [con_grad]. apply map_length. rewrite map_length. apply HF. apply length_vscal.
  apply length_vadd. rewrite length_vmat, length_vscal. auto. apply HF.
Qed.
Lemma vscal_map : forall a v c, map (fun x => x / c) (vscal a v) = vscal a (map (fun x => x / c) v).
Proof. intros. unfold vscal. rewrite !map_map. apply map_ext. intros. unfold Rdiv. ring. Qed.

Lemma grad_slope : forall k x h, fits k (length x) -> length h = length x ->
  dot (con_grad k x) h = match k with CQuadric A b c => 2 * bil (length x) A x h + dot h b | _ => true_slope k x h end.
Proof.
  intros [|a b|r|A b c] x h HF Hh; cbn [con_grad true_slope].
  - rewrite (dot_sum _ _ (length x)) by (rewrite ?map_length; auto). apply Rsum_map_0. intros i Hi. apply in_seq in Hi.
    rewrite (nth_map _ _ _ _ _ 0 0) by lia. ring.
  - destruct HF as [Ha Hn]. replace (map (fun ai => ai / vnorm a) a) with (vscal (/ vnorm a) a). rewrite dot_vscal_l. unfold Rdiv. ring.
    unfold vscal. apply map_ext. intros. unfold Rdiv. ring.
  - apply dot_vscal_l.
  - cbn in HF. rewrite dot_vadd_l by (rewrite length_vmat, length_vscal; auto). rewrite (dot_comm b). f_equal.
    rewrite dot_comm. rewrite (dot_vmat _ _ _ (length x)) by (rewrite ?length_vscal; auto). unfold bil. rewrite <- msum_scal. apply msum_ext. intros j Hj.
    replace (msum (length x) (fun i => coord i (vscal 2 x) * A i j)) with (2 * msum (length x) (fun i => coord i x * A i j)). ring.
    rewrite <- msum_scal. apply msum_ext. intros i Hi. rewrite coord_vscal. ring.
Qed.

Theorem con_grad_ok : forall k x, fits k (length x) -> symmetric k (length x) -> gradient_at (con k) x (con_grad k x).
Proof.
  intros k x HF HS. split. apply length_grad; auto. intros h Hh. rewrite grad_slope by auto.
  replace (match k with CQuadric A b c => 2 * bil (length x) A x h + dot h b | _ => true_slope k x h end) with (true_slope k x h).
  apply con_deriv; auto. destruct k; auto. cbn [true_slope]. rewrite (bil_sym _ _ h x); auto. ring.
Qed.

Theorem con_grad_sq_ok : forall k x, fits k (length x) -> symmetric k (length x) -> gradient_at (con_sq k) x (con_grad_sq k x).
Proof.
  intros k x HF HS. destruct (con_grad_ok k x HF HS) as [HL HG]. split. unfold con_grad_sq. rewrite length_vscal. auto.
  intros h Hh. unfold con_grad_sq. rewrite dot_vscal_l. specialize (HG h Hh).
  replace (2 * con k x * dot (con_grad k x) h) with (dot (con_grad k x) h * con k x + con k x * dot (con_grad k x) h) by ring.
  apply (deriv_ext (fun p => con k p * con k p)). intros t. unfold con_sq. ring. apply deriv_mult; auto.
Qed.

Lemma coord_grad_line : forall k x h i t, fits k (length x) -> symmetric k (length x) -> length h = length x -> (i < length x)%nat ->
  coord i (con_grad k (vadd x (vscal t h))) = coord i (con_grad k x) + t * msum (length x) (fun j => con_hess k x i j * coord j h).
Proof.
  intros [|a b|r|A b c] x h i t HF HS Hh Hi; cbn [con_grad con_hess].
  - rewrite msum_zero by (intros; ring). unfold coord. rewrite !(nth_map _ _ _ _ _ 0 0) by (rewrite ?line_len; auto). ring.
  - rewrite msum_zero by (intros; ring). ring.
  - rewrite !coord_vscal, coord_vadd by (rewrite length_vscal; auto). rewrite coord_vscal.
    replace (msum (length x) (fun j => 2 * eye i j * coord j h)) with (2 * coord i h). ring.
    rewrite <- (msum_delta (length x) i (fun j => coord j h)) by auto. rewrite <- msum_scal. apply msum_ext. intros j Hj. unfold eye. destruct (Nat.eqb i j); ring.
  - cbn in HF, HS. rewrite !coord_vadd by (rewrite length_vmat, length_vscal, ?line_len; auto).
    rewrite !coord_vmat by (rewrite length_vscal, ?line_len; auto). rewrite !length_vscal, line_len by auto.
    transitivity (msum (length x) (fun j => coord j (vscal 2 x) * A j i) + t * msum (length x) (fun j => 2 * A i j * coord j h) + coord i b); [|ring]. f_equal.
    rewrite <- msum_scal, <- msum_add. apply msum_ext. intros j Hj. rewrite !coord_vscal, coord_vadd by (rewrite length_vscal; auto). rewrite coord_vscal.
    rewrite (HS i j) by auto. ring.
Qed.

Theorem con_hess_ok : forall k x, fits k (length x) -> symmetric k (length x) -> jacobian_at (con_grad k) x (con_hess k x).
Proof.
  intros k x HF HS h i Hh Hi. apply (deriv_poly _ (coord i (con_grad k x)) _ 0). intros t. rewrite coord_grad_line by auto. ring.
Qed.

Theorem con_hess_sq_ok : forall k x, fits k (length x) -> symmetric k (length x) -> jacobian_at (con_grad_sq k) x (con_hess_sq k x).
Proof.
  intros k x HF HS h i Hh Hi. destruct (con_grad_ok k x HF HS) as [HL HG]. specialize (HG h Hh). pose proof (con_hess_ok k x HF HS h i Hh Hi) as HH.
  replace (msum (length x) (fun j => con_hess_sq k x i j * coord j h)) with
    (2 * (dot (con_grad k x) h * coord i (con_grad k x) + con k x * msum (length x) (fun j => con_hess k x i j * coord j h))).
  - apply (deriv_ext (fun p => 2 * (con k p * coord i (con_grad k p)))). intros t. unfold con_grad_sq. rewrite coord_vscal. ring.
    apply deriv_scal. exact (deriv_mult (con k) (fun p => coord i (con_grad k p)) x h _ _ Hh HG HH).
  - rewrite (dot_sum _ _ (length x)) by auto. fold (msum (length x) (fun i => nth i (con_grad k x) 0 * nth i h 0)).
    rewrite <- msum_scal_r, <- msum_scal, <- msum_add, <- msum_scal. apply msum_ext. intros j Hj. unfold con_hess_sq, coord. ring.
Qed.

(** ** several constraints *)
Lemma multi_grad_len : forall ks x, (forall k, In k ks -> fits k (length x)) -> length (multi_grad_sq ks x) = length x.
Proof.
  intros ks x H. unfold multi_grad_sq. assert (G : forall l out, (forall k, In k l -> fits k (length x)) -> length out = length x ->
     length (fold_left (fun out k => vadd out (con_grad_sq k x)) l out) = length x).
  { induction l as [|k l IH]; intros out Hl Ho; cbn; auto. apply IH. intros; apply Hl; right; auto. apply length_vadd; auto.
    unfold con_grad_sq. rewrite length_vscal. apply length_grad. apply Hl. left; auto. }
  apply G; auto. apply map_length.
Qed.
Lemma multi_grad_coord : forall ks x i, (forall k, In k ks -> fits k (length x)) -> (i < length x)%nat ->
  coord i (multi_grad_sq ks x) = Rsum (map (fun k => coord i (con_grad_sq k x)) ks).
Proof.
  intros ks x i H Hi. unfold multi_grad_sq. assert (G : forall l out, (forall k, In k l -> fits k (length x)) -> length out = length x ->
     coord i (fold_left (fun out k => vadd out (con_grad_sq k x)) l out) = coord i out + Rsum (map (fun k => coord i (con_grad_sq k x)) l)).
  { induction l as [|k l IH]; intros out Hl Ho; cbn [fold_left map]. cbn. ring.
    assert (length (con_grad_sq k x) = length x). { unfold con_grad_sq. rewrite length_vscal. apply length_grad. apply Hl. left; auto. }
    rewrite IH. rewrite coord_vadd by congruence. rewrite Rsum_cons. ring. intros; apply Hl; right; auto. apply length_vadd; auto. }
  rewrite G; auto. 2:apply map_length. unfold coord at 1. rewrite (nth_map _ _ _ _ _ 0 0) by auto. ring.
Qed.

Lemma deriv_Rsum : forall A (fs : A -> list R -> R) (ls : A -> R) x h l, (forall a, In a l -> dir_deriv (fs a) x h (ls a)) ->
  dir_deriv (fun p => Rsum (map (fun a => fs a p) l)) x h (Rsum (map ls l)).
Proof.
  induction l as [|a l IH]; intros H; cbn [map]. apply deriv_const.
  apply (deriv_ext (fun p => fs a p + Rsum (map (fun a => fs a p) l))). intros. rewrite Rsum_cons. auto.
  rewrite Rsum_cons. apply deriv_plus. apply H; left; auto. apply IH. intros; apply H; right; auto.
Qed.

Theorem multi_grad_ok : forall ks x, (forall k, In k ks -> fits k (length x) /\ symmetric k (length x)) -> gradient_at (multi_sq ks) x (multi_grad_sq ks x).
Proof.
  intros ks x H. assert (HF : forall k, In k ks -> fits k (length x)) by (intros; apply H; auto). split. apply multi_grad_len; auto.
  intros h Hh. replace (dot (multi_grad_sq ks x) h) with (Rsum (map (fun k => dot (con_grad_sq k x) h) ks)).
  - apply deriv_Rsum. intros k Hk. destruct (H k Hk). apply con_grad_sq_ok; auto.
  - rewrite (dot_sum _ _ (length x)) by (auto using multi_grad_len).
    transitivity (Rsum (map (fun i => Rsum (map (fun k => coord i (con_grad_sq k x) * coord i h) ks)) (seq 0 (length x)))).
    + rewrite Rsum_swap. apply Rsum_map_ext. intros k Hk. apply dot_sum; auto. unfold con_grad_sq. rewrite length_vscal. apply length_grad; auto.
    + apply Rsum_map_ext. intros i Hi. apply in_seq in Hi. fold (coord i (multi_grad_sq ks x)) (coord i h). rewrite multi_grad_coord by (auto; lia).
      rewrite Rmult_comm, <- Rsum_map_scal. apply Rsum_map_ext. intros. ring.
Qed.

Theorem multi_hess_ok : forall ks x, (forall k, In k ks -> fits k (length x) /\ symmetric k (length x)) -> jacobian_at (multi_grad_sq ks) x (multi_hess_sq ks x).
Proof.
  intros ks x H h i Hh Hi. apply (deriv_ext (fun p => Rsum (map (fun k => coord i (con_grad_sq k p)) ks))).
  - intros t. symmetry. apply multi_grad_coord; rewrite line_len; auto. intros; apply H; auto.
  - replace (msum (length x) (fun j => multi_hess_sq ks x i j * coord j h)) with (Rsum (map (fun k => msum (length x) (fun j => con_hess_sq k x i j * coord j h)) ks)).
    + apply deriv_Rsum. intros k Hk. destruct (H k Hk). apply con_hess_sq_ok; auto.
    + unfold msum. rewrite Rsum_swap. apply Rsum_map_ext. intros j _. unfold multi_hess_sq. rewrite Rmult_comm, <- Rsum_map_scal. apply Rsum_map_ext. intros; ring.
Qed.

(** ** non-symmetric quadrics *)
Definition unit (d i : nat) : list R := map (fun j => if Nat.eqb i j then 1 else 0) (seq 0 d).
Lemma unit_len : forall d i, length (unit d i) = d.
Proof. intros. unfold unit. rewrite map_length, seq_length. auto. Qed.
Lemma coord_unit : forall d i j, (j < d)%nat -> coord j (unit d i) = if Nat.eqb i j then 1 else 0.
Proof. intros. unfold coord, unit. apply nth_map_seq; auto. Qed.
Lemma bil_unit : forall d A i j, (i < d)%nat -> (j < d)%nat -> bil d A (unit d i) (unit d j) = A i j.
Proof.
  intros d A i j Hi Hj. unfold bil. transitivity (msum d (fun l => if Nat.eqb j l then A i l else 0)). 2:apply (msum_delta d j (fun l => A i l)); auto.
  apply msum_ext. intros l Hl. rewrite coord_unit by auto. destruct (Nat.eqb j l); [|ring].
  transitivity (msum d (fun m => if Nat.eqb i m then A m l else 0)). 2:apply (msum_delta d i (fun m => A m l)); auto.
  rewrite Rmult_1_l. apply msum_ext. intros m Hm. rewrite coord_unit by auto. destruct (Nat.eqb i m); ring.
Qed.

Theorem quadric_wrong : forall d A b c, length b = d -> (exists i j, (i < d)%nat /\ (j < d)%nat /\ A i j <> A j i) ->
  exists x, length x = d /\ ~ gradient_at (con (CQuadric A b c)) x (con_grad (CQuadric A b c) x).
Proof.
  intros d A b c Hb (i & j & Hi & Hj & N). exists (unit d i). split. apply unit_len. intros [_ HG].
  assert (HF : fits (CQuadric A b c) (length (unit d i))). { cbn. rewrite unit_len. auto. }
  assert (Hh : length (unit d j) = length (unit d i)) by (rewrite !unit_len; auto).
  pose proof (deriv_unique _ _ _ _ _ (HG _ Hh) (con_deriv _ _ _ HF Hh)) as E. rewrite (grad_slope (CQuadric A b c)) in E by auto. cbn [true_slope] in E.
  rewrite unit_len, !bil_unit in E by auto. lra.
Qed.

(** ** implicit steps *)
Definition implicit (k : constraint) (factor : R) (x xt y : list R) : Prop :=
  length y = length xt /\ forall i, (i < length xt)%nat -> coord i y + 2 * factor * con k x * coord i (con_grad k y) = coord i xt.

Lemma sphere_solve_ok : forall r x xt factor, 1 + 4 * factor * con (CSphere r) x <> 0 ->
  exists y, solve_sphere r x xt factor = floats y /\ implicit (CSphere r) factor x xt y /\
    forall z, implicit (CSphere r) factor x xt z -> z = y.
Proof.
  intros r x xt factor H. cbn [con] in H. exists (vscal (/ (1 + 4 * factor * (vnorm x ^ 2 - r ^ 2))) xt). split; [|split; [split|]].
  - unfold solve_sphere. rewrite fdiv_fin by auto. unfold floats, vscal. rewrite !map_map. apply map_ext. intros a. cbn. f_equal. unfold Rdiv. ring.
  - apply length_vscal.
  - intros i Hi. cbn [con con_grad]. rewrite !coord_vscal. field. auto.
  - intros z [Hl Hz]. apply (coord_ext _ _ (length xt)); auto. apply length_vscal. intros i Hi. specialize (Hz i Hi). cbn [con con_grad] in Hz.
    rewrite !coord_vscal in *. rewrite <- Hz. field. auto.
Qed.

Lemma sphere_solve_singular : forall r x xt factor, 1 + 4 * factor * con (CSphere r) x = 0 -> forall v, In v (solve_sphere r x xt factor) -> ~ exists a, v = Fin a.
Proof.
  intros r x xt factor H v Hv [a E]. unfold solve_sphere in Hv. cbn [con] in H. rewrite H in Hv. apply in_map_iff in Hv. destruct Hv as (w & <- & Hw).
  unfold floats in Hw. apply in_map_iff in Hw. destruct Hw as (b & <- & _). revert E. rewrite fdiv_1_0. cbn. unfold inf_sign.
  cbn. destruct (Rltb 0 b); [discriminate|]. destruct (Rltb b 0); discriminate.
Qed.

Lemma sphere_singular_iff : forall r x factor, factor <> 0 -> (1 + 4 * factor * con (CSphere r) x = 0 <-> sqnorm x = r * r - 1 / (4 * factor)).
Proof.
  intros r x factor H. cbn [con]. replace (vnorm x ^ 2) with (sqnorm x) by (rewrite <- vnorm_sq; ring). split; intros E.
  - assert (sqnorm x - r * r = - (1 / (4 * factor))); [|lra]. apply (Rmult_eq_reg_l (4 * factor)); [|lra].
    replace (4 * factor * - (1 / (4 * factor))) with (-1) by (field; auto). lra.
  - rewrite E. field. auto.
Qed.
Lemma sphere_singular_exists : forall r d factor, 0 < factor -> (1 <= d)%nat ->
  ((exists x, length x = d /\ 1 + 4 * factor * con (CSphere r) x = 0) <-> 1 <= 4 * factor * (r * r)).
Proof.
  intros r d factor Hf Hd. split.
  - intros (x & _ & E). apply sphere_singular_iff in E; [|lra]. pose proof (sqnorm_nonneg x) as P. rewrite E in P.
    apply (Rmult_le_compat_l (4 * factor)) in P; [|lra]. replace (4 * factor * (r * r - 1 / (4 * factor))) with (4 * factor * (r * r) - 1) in P by (field; lra). lra.
  - intros H. set (q := r * r - 1 / (4 * factor)). assert (Hq : 0 <= q).
    { unfold q. apply (Rmult_le_reg_l (4 * factor)); [lra|]. replace (4 * factor * (r * r - 1 / (4 * factor))) with (4 * factor * (r * r) - 1) by (field; lra). lra. }
    exists (sqrt q :: repeat 0 (d - 1)). split. cbn. rewrite repeat_length. lia. apply sphere_singular_iff. lra. fold q. rewrite sqnorm_cons.
    replace (sqnorm (repeat 0 (d - 1))) with 0. rewrite sqrt_sqrt by auto. ring.
    clear. unfold sqnorm. induction (d - 1)%nat as [|n IH]. reflexivity. cbn [repeat]. rewrite dot_cons. lra.
Qed.

Lemma plane_solve_ok : forall a b x xt factor, length a = length xt ->
  implicit (CPlane a b) factor x xt (solve_plane a b x xt factor) /\ forall z, implicit (CPlane a b) factor x xt z -> z = solve_plane a b x xt factor.
Proof.
  intros a b x xt factor Hl. assert (HL : length (map (fun ai => 2 * factor * con (CPlane a b) x * ai / vnorm a) a) = length xt) by (rewrite map_length; auto).
  assert (HC : forall i, (i < length xt)%nat -> coord i (solve_plane a b x xt factor) = coord i xt - 2 * factor * con (CPlane a b) x * (coord i a / vnorm a)).
  { intros i Hi. unfold solve_plane. rewrite coord_vsub by auto. f_equal. unfold coord. rewrite (nth_map _ _ _ _ _ 0 0) by lia. unfold Rdiv. ring. }
  assert (HG : forall i y, (i < length xt)%nat -> coord i (con_grad (CPlane a b) y) = coord i a / vnorm a).
  { intros i y Hi. cbn [con_grad]. unfold coord. rewrite (nth_map _ _ _ _ _ 0 0) by lia. auto. }
  split.
  - split. apply length_vsub; auto. intros i Hi. rewrite HC, HG by auto. ring.
  - intros z [Hz Hc]. apply (coord_ext _ _ (length xt)); auto. apply length_vsub; auto. intros i Hi. specialize (Hc i Hi). rewrite HG in Hc by auto. rewrite HC by auto. lra.
Qed.

Lemma quadric_solve_ok : forall solve A b c x xt factor y, solver solve -> msym (length x) A -> length b = length x -> length xt = length x ->
  solve_quadric solve A b c x xt factor = Some y -> implicit (CQuadric A b c) factor x xt y.
Proof.
  intros solve A b c x xt factor y HS HA Hb Ht E. unfold solve_quadric in E. apply HS in E. 2:{ apply length_vsub; auto. rewrite length_vscal; auto. }
  destruct E as [Hl E]. split. congruence. intros i Hi. rewrite Ht in Hi. specialize (E i Hi).
  rewrite coord_vsub in E by (rewrite length_vscal; congruence). rewrite coord_vscal in E. set (cx := con (CQuadric A b c) x) in *. cbn [con_grad].
  rewrite coord_vadd by (rewrite length_vmat, length_vscal; congruence). rewrite coord_vmat by (rewrite length_vscal; lia). rewrite length_vscal, Hl.
  replace (msum (length x) (fun j => (eye i j + 4 * factor * cx * A i j) * coord j y)) with
    (coord i y + 4 * factor * cx * msum (length x) (fun j => A i j * coord j y)) in E.
  - replace (msum (length x) (fun i0 => coord i0 (vscal 2 y) * A i0 i)) with (2 * msum (length x) (fun j => A i j * coord j y)). lra.
    rewrite <- msum_scal. apply msum_ext. intros j Hj. rewrite coord_vscal, (HA i j) by auto. ring.
  - rewrite <- (msum_delta (length x) i (fun j => coord j y)) at 1 by auto. rewrite <- msum_scal, <- msum_add. apply msum_ext. intros j Hj. unfold eye. destruct (Nat.eqb i j); ring.
Qed.

(** a feasible x: nothing happens *)
Lemma feasible_unchanged : forall k factor x xt, con k x = 0 -> forall y, implicit k factor x xt y -> y = xt.
Proof.
  intros k factor x xt H y [Hl Hy]. apply (coord_ext _ _ (length xt)); auto. intros i Hi. rewrite <- (Hy i Hi), H. ring.
Qed.

(** the linearised step: (I + factor Hess(c^2)) y = x_tilde *)
Lemma hess_solve_ok : forall solve k x xt factor y, solver solve -> length xt = length x -> solve_hess_sq solve k x xt factor = Some y ->
  length y = length x /\ forall i, (i < length x)%nat -> coord i y + factor * msum (length x) (fun j => con_hess_sq k x i j * coord j y) = coord i xt.
Proof.
  intros solve k x xt factor y HS Ht E. apply HS in E; auto. destruct E as [Hl E]. split; auto. intros i Hi. rewrite <- (E i Hi).
  rewrite <- (msum_delta (length x) i (fun j => coord j y)) at 1 by auto. rewrite <- msum_scal, <- msum_add. apply msum_ext. intros j Hj. unfold eye. destruct (Nat.eqb i j); ring.
Qed.

(** for the sphere the system is regular outside of the ball *)
Lemma sphere_regular : forall r x factor y z, 0 <= factor -> 0 <= con (CSphere r) x ->
  solves (length x) (fun i j => eye i j + factor * con_hess_sq (CSphere r) x i j) z y ->
  (forall i, (i < length x)%nat -> coord i z = 0) -> forall i, (i < length x)%nat -> coord i y = 0.
Proof.
  intros r x factor y z Hf Hc [Hl E] Hz. set (d := length x) in *. set (cx := con (CSphere r) x) in *.
  set (p := msum d (fun j => coord j x * coord j y)).
  assert (E1 : forall i, (i < d)%nat -> (1 + 4 * factor * cx) * coord i y + 8 * factor * p * coord i x = 0).
  { intros i Hi. rewrite <- (Hz i Hi), <- (E i Hi). unfold p.
    transitivity (msum d (fun j => if Nat.eqb i j then (1 + 4 * factor * cx) * coord j y else 0) + 8 * factor * coord i x * msum d (fun j => coord j x * coord j y)).
    - rewrite (msum_delta d i (fun j => (1 + 4 * factor * cx) * coord j y)) by auto. ring.
    - rewrite <- msum_scal, <- msum_add. apply msum_ext. intros j Hj. unfold con_hess_sq. fold cx. cbn [con_grad con_hess]. rewrite !coord_vscal. unfold eye.
      destruct (Nat.eqb_spec i j); subst; ring. }
  assert (Ep : (1 + 4 * factor * cx + 8 * factor * msum d (fun j => coord j x * coord j x)) * p = 0).
  { transitivity (msum d (fun i => coord i x * ((1 + 4 * factor * cx) * coord i y + 8 * factor * p * coord i x))).
    - transitivity ((1 + 4 * factor * cx) * msum d (fun i => coord i x * coord i y) + 8 * factor * p * msum d (fun i => coord i x * coord i x)). fold p; ring.
      rewrite <- !msum_scal, <- msum_add. apply msum_ext. intros; ring.
    - apply msum_zero. intros i Hi. rewrite E1 by auto. ring. }
  assert (0 <= msum d (fun j => coord j x * coord j x)). { apply msum_nonneg. intros. apply Rle_0_sqr. }
  assert (0 <= factor * cx) by (apply Rmult_le_pos; auto). assert (0 <= factor * msum d (fun j => coord j x * coord j x)) by (apply Rmult_le_pos; auto).
  apply Rmult_integral in Ep. destruct Ep as [Ep|Ep]; [lra|]. intros i Hi. specialize (E1 i Hi). rewrite Ep in E1.
  assert (E2 : (1 + 4 * factor * cx) * coord i y = 0) by lra. apply Rmult_integral in E2. destruct E2; auto. lra.
Qed.

(** ** in terms of the specification *)
Lemma con_value : forall k x, fits k (length x) -> con k x = c_value k x.
Proof.
  intros [|a b|r|A b c] x HF; cbn [con c_value fits] in *; auto.
  - destruct HF as [Ha _]. f_equal. f_equal. apply dot_sum; auto. unfold vnorm, sqnorm. f_equal. apply dot_sum; auto.
  - replace (vnorm x ^ 2) with (sqnorm x) by (rewrite <- vnorm_sq; ring). unfold sqnorm. rewrite (dot_sum _ _ (length x)) by auto. unfold msum, coord. ring.
  - f_equal. f_equal. rewrite (dot_vmat _ _ _ (length x)) by auto. unfold bil. rewrite <- (msum_swap (length x) (length x) (fun j i => coord i x * A i j * coord j x)). apply msum_ext. intros j Hj.
    rewrite <- msum_scal. apply msum_ext. intros; ring. rewrite dot_comm. apply dot_sum; auto.
Qed.
Lemma grad_ext : forall f g x v, (forall p, length p = length x -> f p = g p) -> gradient_at f x v -> gradient_at g x v.
Proof. intros f g x v E [H1 H2]. split; auto. intros h Hh. apply (deriv_ext f). intros t. apply E. apply line_len; auto. auto. Qed.
Lemma fits_len : forall k (x p : list R), fits k (length x) -> length p = length x -> fits k (length p).
Proof. intros. congruence. Qed.

Theorem value_grad : forall k x, fits k (length x) -> symmetric k (length x) -> gradient_at (c_value k) x (con_grad k x).
Proof. intros k x HF HS. apply (grad_ext (con k)). intros. apply con_value. eapply fits_len; eauto. apply con_grad_ok; auto. Qed.
Theorem value_grad_sq : forall k x, fits k (length x) -> symmetric k (length x) -> gradient_at (fun p => c_value k p ^ 2) x (con_grad_sq k x).
Proof. intros k x HF HS. apply (grad_ext (con_sq k)). intros. unfold con_sq. rewrite con_value; auto. eapply fits_len; eauto. apply con_grad_sq_ok; auto. Qed.
Theorem value_multi : forall ks x, (forall k, In k ks -> fits k (length x) /\ symmetric k (length x)) ->
  gradient_at (fun p => Rsum (map (fun k => c_value k p ^ 2) ks)) x (multi_grad_sq ks x).
Proof.
  intros ks x H. apply (grad_ext (multi_sq ks)); [|apply multi_grad_ok; auto]. intros p Hp. unfold multi_sq. apply Rsum_map_ext. intros k Hk. unfold con_sq.
  rewrite con_value; auto. rewrite Hp. apply H; auto.
Qed.
Theorem value_quadric_wrong : forall d A b c, length b = d -> (exists i j, (i < d)%nat /\ (j < d)%nat /\ A i j <> A j i) ->
  exists x, length x = d /\ ~ gradient_at (c_value (CQuadric A b c)) x (con_grad (CQuadric A b c) x).
Proof.
  intros d A b c Hb H. destruct (quadric_wrong d A b c Hb H) as (x & Hx & N). exists x. split; auto. intros G. apply N.
  apply (grad_ext (c_value (CQuadric A b c))); auto. intros. symmetry. apply con_value. cbn. congruence.
Qed.

Lemma gradient_unique : forall f x g1 g2, gradient_at f x g1 -> gradient_at f x g2 -> g1 = g2.
Proof.
  intros f x g1 g2 [L1 H1] [L2 H2]. apply (coord_ext _ _ (length x)); auto. intros i Hi.
  assert (D : forall g, length g = length x -> dot g (unit (length x) i) = coord i g).
  { intros g Hg. rewrite (dot_sum _ _ (length x)) by (auto using unit_len). rewrite <- (msum_delta (length x) i (fun j => coord j g)) by auto.
    unfold msum. apply Rsum_map_ext. intros j Hj. apply in_seq in Hj. fold (coord j (unit (length x) i)). rewrite coord_unit by lia. unfold coord. destruct (Nat.eqb i j); ring. }
  rewrite <- (D g1), <- (D g2) by auto. eapply deriv_unique; [apply H1|apply H2]; apply unit_len.
Qed.

Lemma implicit_spec : forall k factor x xt y, fits k (length x) -> symmetric k (length x) -> length xt = length x ->
  (implicit k factor x xt y <-> implicit_step (c_value k) factor x xt y).
Proof.
  intros k factor x xt y HF HS Ht. split.
  - intros [Hl H]. split; auto. exists (con_grad k y). assert (length y = length x) by congruence. split. apply value_grad; congruence.
    intros i Hi. rewrite <- con_value by auto. auto.
  - intros [Hl (g & HG & H)]. split; auto. assert (Hy : length y = length x) by congruence.
    assert (g = con_grad k y). { eapply gradient_unique. apply HG. apply value_grad; congruence. } subst g. intros i Hi. rewrite con_value by auto. auto.
Qed.

Theorem sphere_step : forall r x xt factor, length xt = length x -> 1 + 4 * factor * c_value (CSphere r) x <> 0 ->
  exists y, solve_sphere r x xt factor = floats y /\ implicit_step (c_value (CSphere r)) factor x xt y /\
    forall z, implicit_step (c_value (CSphere r)) factor x xt z -> z = y.
Proof.
  intros r x xt factor Ht H. rewrite <- con_value in H by exact I. destruct (sphere_solve_ok r x xt factor H) as (y & E & HI & HU). exists y. split; auto. split.
  apply implicit_spec; auto; exact I. intros z Hz. apply HU. apply (implicit_spec (CSphere r)); auto; exact I.
Qed.
Theorem sphere_step_singular : forall r x xt factor, factor <> 0 -> sqnorm x = r * r - 1 / (4 * factor) -> forall v, In v (solve_sphere r x xt factor) -> ~ exists a, v = Fin a.
Proof. intros. apply (sphere_solve_singular r x xt factor); auto. apply sphere_singular_iff; auto. Qed.
Theorem sphere_step_regular : forall r x factor, factor <> 0 -> (1 + 4 * factor * c_value (CSphere r) x = 0 <-> sqnorm x = r * r - 1 / (4 * factor)).
Proof. intros. rewrite <- con_value by exact I. apply sphere_singular_iff; auto. Qed.
Theorem sphere_step_exists : forall r d factor, 0 < factor -> (1 <= d)%nat ->
  ((exists x, length x = d /\ sqnorm x = r * r - 1 / (4 * factor)) <-> 1 <= 4 * factor * (r * r)).
Proof.
  intros r d factor Hf Hd. rewrite <- (sphere_singular_exists r d factor) by auto. split; intros (x & Hx & E); exists x; split; auto; apply sphere_singular_iff; auto; lra.
Qed.
Theorem plane_step : forall a b x xt factor, length a = length x -> vnorm a <> 0 -> length xt = length x ->
  implicit_step (c_value (CPlane a b)) factor x xt (solve_plane a b x xt factor) /\
  forall z, implicit_step (c_value (CPlane a b)) factor x xt z -> z = solve_plane a b x xt factor.
Proof.
  intros a b x xt factor Ha Hn Ht. destruct (plane_solve_ok a b x xt factor) as [H1 H2]. congruence. assert (fits (CPlane a b) (length x)) by (split; auto).
  split. apply implicit_spec; auto; exact I. intros z Hz. apply H2. apply (implicit_spec (CPlane a b)); auto; exact I.
Qed.
Theorem quadric_step : forall solve A b c x xt factor y, solver solve -> msym (length x) A -> length b = length x -> length xt = length x ->
  solve_quadric solve A b c x xt factor = Some y -> implicit_step (c_value (CQuadric A b c)) factor x xt y.
Proof. intros. apply implicit_spec; auto. eapply quadric_solve_ok; eauto. Qed.

(** the true gradient of a quadric *)
Lemma quadric_gradient : forall A b c y, length b = length y ->
  gradient_at (c_value (CQuadric A b c)) y (map (fun i => msum (length y) (fun j => (A i j + A j i) * coord j y) + coord i b) (seq 0 (length y))).
Proof.
  intros A b c y Hb. split. rewrite map_length, seq_length. auto. intros h Hh.
  replace (dot (map (fun i => msum (length y) (fun j => (A i j + A j i) * coord j y) + coord i b) (seq 0 (length y))) h) with (true_slope (CQuadric A b c) y h).
  - apply (deriv_ext (con (CQuadric A b c))). intros t. apply con_value. cbn. rewrite line_len; auto. apply con_deriv; auto.
  - rewrite (dot_sum _ _ (length y)) by (rewrite ?map_length, ?seq_length; auto). cbn [true_slope]. unfold bil. set (d := length y).
    rewrite (dot_sum _ _ d) by (subst d; congruence).
    transitivity (msum d (fun i => coord i h * (msum d (fun j => (A i j + A j i) * coord j y) + coord i b))).
    2:{ unfold msum at 1. apply Rsum_map_ext. intros i Hi. apply in_seq in Hi. rewrite nth_map_seq by lia. unfold coord. ring. }
    transitivity (msum d (fun i => coord i h * msum d (fun j => A j i * coord j y)) + msum d (fun i => coord i h * msum d (fun j => A i j * coord j y)) + msum d (fun i => coord i h * coord i b)).
    + f_equal. f_equal. apply msum_ext. intros j Hj. f_equal. apply msum_ext. intros; ring.
      transitivity (msum d (fun j => msum d (fun i => coord i h * (A i j * coord j y)))). apply msum_ext. intros j Hj. rewrite <- msum_scal. apply msum_ext. intros; ring.
      rewrite msum_swap. apply msum_ext. intros i Hi. rewrite <- msum_scal. auto.
    + rewrite <- !msum_add. apply msum_ext. intros i Hi. transitivity (coord i h * (msum d (fun j => A j i * coord j y) + msum d (fun j => A i j * coord j y) + coord i b)). ring.
      rewrite <- msum_add. f_equal. f_equal. apply msum_ext. intros; ring.
Qed.

(** for a general A: the result solves its equation iff A and its transpose agree on it *)
Theorem quadric_step_iff : forall solve A b c x xt factor y, solver solve -> length b = length x -> length xt = length x ->
  factor <> 0 -> c_value (CQuadric A b c) x <> 0 -> solve_quadric solve A b c x xt factor = Some y ->
  (implicit_step (c_value (CQuadric A b c)) factor x xt y <->
   forall i, (i < length x)%nat -> msum (length x) (fun j => A i j * coord j y) = msum (length x) (fun j => A j i * coord j y)).
Proof.
  intros solve A b c x xt factor y HS Hb Ht Hf Hc E. assert (HF : fits (CQuadric A b c) (length x)) by exact Hb.
  unfold solve_quadric in E. apply HS in E. 2:{ apply length_vsub; auto. rewrite length_vscal; auto. } destruct E as [Hl E].
  rewrite (con_value _ _ HF) in E. set (cx := c_value (CQuadric A b c) x) in *.
  assert (E' : forall i, (i < length x)%nat -> coord i y + 4 * factor * cx * msum (length x) (fun j => A i j * coord j y) = coord i xt - 2 * factor * cx * coord i b).
  { intros i Hi. specialize (E i Hi). rewrite coord_vsub in E by (rewrite length_vscal; congruence). rewrite coord_vscal in E. rewrite <- E.
    rewrite <- (msum_delta (length x) i (fun j => coord j y)) at 1 by auto. rewrite <- msum_scal, <- msum_add. apply msum_ext. intros j Hj. unfold eye. destruct (Nat.eqb i j); ring. }
  assert (GG : forall i, (i < length x)%nat -> coord i (map (fun i => msum (length y) (fun j => (A i j + A j i) * coord j y) + coord i b) (seq 0 (length y)))
     = msum (length x) (fun j => A i j * coord j y) + msum (length x) (fun j => A j i * coord j y) + coord i b).
  { intros i Hi. unfold coord at 1. rewrite nth_map_seq by lia. rewrite Hl. f_equal. rewrite <- msum_add. apply msum_ext. intros; ring. }
  assert (Hby : length b = length y) by congruence. pose proof (quadric_gradient A b c y Hby) as TG. split.
  - intros [_ (g & HG & H)]. rewrite (gradient_unique _ _ _ _ HG TG) in H. fold cx in H. intros i Hi. specialize (E' i Hi).
    assert (Hi2 : (i < length xt)%nat) by lia. specialize (H i Hi2). rewrite GG in H by auto.
    assert (Z : 2 * factor * cx * (msum (length x) (fun j => A i j * coord j y) - msum (length x) (fun j => A j i * coord j y)) = 0) by lra.
    apply Rmult_integral in Z. destruct Z as [Z|Z]; [|lra]. apply Rmult_integral in Z. destruct Z as [Z|Z]; [lra|]. contradiction.
  - intros H. split. congruence. eexists. split. exact TG. intros i Hi. fold cx. rewrite GG by lia. rewrite <- (H i) by lia. assert (Hi' : (i < length x)%nat) by lia. specialize (E' i Hi'). lra.
Qed.

Theorem feasible_step : forall k factor x xt y, c_value k x = 0 -> implicit_step (c_value k) factor x xt y -> y = xt.
Proof.
  intros k factor x xt y H [Hl (g & _ & Hy)]. apply (coord_ext _ _ (length xt)); auto. intros i Hi. rewrite <- (Hy i Hi), H. ring.
Qed.
Lemma sphere_regular_value : forall r x factor y z, 0 <= factor -> 0 <= c_value (CSphere r) x ->
  solves (length x) (fun i j => eye i j + factor * con_hess_sq (CSphere r) x i j) z y ->
  (forall i, (i < length x)%nat -> coord i z = 0) -> forall i, (i < length x)%nat -> coord i y = 0.
Proof. intros r x factor y z Hf Hc. apply sphere_regular; auto. rewrite con_value; auto. exact I. Qed.
