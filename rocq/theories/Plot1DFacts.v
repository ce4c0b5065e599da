(** * Facts about the plots of Plot1D.v *)
From Coq Require Import List Arith Bool Reals Lia Lra.
From Verif Require Import Scalar Np NpFacts State Pdyn PdynFacts PdynStep PdynOk Exec RVec RVecFacts Consensus ConsSpec ConsFacts Cbo CboSpec CboFacts SimSpec MemSymSpec LivePlot LiveFacts LiveReal Plotting Plot1D.
Import ListNotations.
Open Scope R_scope.

(** ** grids *)
Lemma linspace_length : forall a b n, length (linspace a b n) = n.
Proof. intros. unfold linspace. rewrite map_length, seq_length. auto. Qed.
Lemma linspace_nth : forall a b n k, (2 <= n)%nat -> (k < n)%nat ->
  nth_error (linspace a b n) k = Some (a + INR k * ((b - a) / INR (n - 1))).
Proof.
  intros a b n k Hn Hk. unfold linspace. rewrite nth_error_map, (nth_error_nth' _ 0%nat) by (rewrite seq_length; auto).
  rewrite seq_nth by auto. cbn [option_map plus]. destruct n as [|[|n]]; [lia|lia|reflexivity].
Qed.
Lemma linspace_nth_d : forall a b n k, (2 <= n)%nat -> (k < n)%nat -> nth k (linspace a b n) 0 = a + INR k * ((b - a) / INR (n - 1)).
Proof. intros. apply nth_error_nth. apply linspace_nth; auto. Qed.

Lemma curve_spec : forall f n a b, (2 <= n)%nat ->
  length (plot_1D f n a b) = n /\
  (forall k, (k < n)%nat -> let x := a + INR k / INR (n - 1) * (b - a) in nth_error (plot_1D f n a b) k = Some (x, f [x])) /\
  nth_error (plot_1D f n a b) 0 = Some (a, f [a]) /\ nth_error (plot_1D f n a b) (n - 1) = Some (b, f [b]).
Proof.
  intros f n a b Hn. assert (HN : INR (n - 1) <> 0) by (apply not_0_INR; lia).
  assert (G : forall k x, (k < n)%nat -> x = a + INR k / INR (n - 1) * (b - a) -> nth_error (plot_1D f n a b) k = Some (x, f [x])).
  { intros k x Hk ->. unfold plot_1D. rewrite nth_error_map, linspace_nth by auto. cbn [option_map].
    replace (a + INR k * ((b - a) / INR (n - 1))) with (a + INR k / INR (n - 1) * (b - a)) by (field; auto). reflexivity. }
  split; [unfold plot_1D; rewrite map_length; apply linspace_length|]. split; [intros k Hk; apply G; auto|].
  split; apply G; try lia; cbn [INR]; field; auto.
Qed.

(** the limit used for the second axis: the documented default, or the argument unless it is 0 *)
Inductive limit_used (x_lim : R) : option R -> R -> Prop :=
| lu_none : limit_used x_lim None x_lim
| lu_zero : limit_used x_lim (Some 0) x_lim
| lu_some : forall v, v <> 0 -> limit_used x_lim (Some v) v.
Lemma limit_used_ok : forall x y l, limit_used x y l -> y_limit (fun r => if Req_EM_T r 0 then true else false) x y = l.
Proof.
  intros x y l H. destruct H; cbn; auto.
  - destruct (Req_EM_T 0 0); congruence.
  - destruct (Req_EM_T v 0); congruence.
Qed.

Lemma contour_spec : forall f n x_min x_max y_min y_max d i1 i2 ylo yhi, (2 <= n)%nat -> (i1 < d)%nat -> (i2 < d)%nat -> i1 <> i2 ->
  limit_used x_min y_min ylo -> limit_used x_max y_max yhi ->
  exists rows, contour_2D f n x_min x_max y_min y_max d [i1; i2] = Ok rows /\ length rows = n /\
    forall i j, (i < n)%nat -> (j < n)%nat ->
      let x := x_min + INR j / INR (n - 1) * (x_max - x_min) in
      let y := ylo + INR i / INR (n - 1) * (yhi - ylo) in
      exists row z, nth_error rows i = Some row /\ length row = n /\ nth_error row j = Some (x, y, f z) /\
        length z = d /\ nth_error z i1 = Some x /\ nth_error z i2 = Some y /\
        forall k, (k < d)%nat -> k <> i1 -> k <> i2 -> nth_error z k = Some 0.
Proof.
  intros f n x_min x_max y_min y_max d i1 i2 ylo yhi Hn H1 H2 H12 L1 L2.
  assert (HN : INR (n - 1) <> 0) by (apply not_0_INR; lia).
  unfold contour_2D. rewrite (limit_used_ok _ _ _ L1), (limit_used_ok _ _ _ L2).
  set (xs := linspace x_min x_max n). set (ys := linspace ylo yhi n). unfold tr3, stack2, tr2. cbn beta iota.
  set (pt := fun i j : nat => mapi (fun k a => match last_index k [i1; i2] with Some q => nth q [nth j xs 0; nth i ys 0] a | None => a end) (repeat 0 d)).
  assert (P : forall i j, put1 [i1; i2] (repeat 0 d) [nth j xs 0; nth i ys 0] = Ok (pt i j)).
  { intros i j. unfold put1. rewrite repeat_length. replace (forallb _ _) with true.
    - rewrite bto_eq by auto. reflexivity.
    - symmetry. apply forallb_forall. intros k [<-|[<-|[]]]; apply Nat.ltb_lt; auto. }
  set (row := fun i => map (fun j => (nth j xs 0, nth i ys 0, f (pt i j))) (seq 0 n)).
  exists (map row (seq 0 n)). split; [|split; [rewrite map_length, seq_length; auto|]].
  - rewrite <- mapM_pure. apply mapM_ext. intros i _. unfold row. rewrite <- mapM_pure. apply mapM_ext. intros j _. rewrite P. reflexivity.
  - intros i j Hi Hj. cbv zeta. set (x := x_min + INR j / INR (n - 1) * (x_max - x_min)). set (y := ylo + INR i / INR (n - 1) * (yhi - ylo)).
    assert (Ex : nth j xs 0 = x). { unfold xs, x. rewrite linspace_nth_d by auto. field; auto. }
    assert (Ey : nth i ys 0 = y). { unfold ys, y. rewrite linspace_nth_d by auto. field; auto. }
    exists (row i), (pt i j).
    assert (NS : forall A (g : nat -> A) k, (k < n)%nat -> nth_error (map g (seq 0 n)) k = Some (g k)).
    { intros A g k Hk. rewrite nth_error_map, (nth_error_nth' _ 0%nat) by (rewrite seq_length; auto). rewrite seq_nth by auto. reflexivity. }
    split; [apply NS; auto|]. split; [unfold row; rewrite map_length, seq_length; auto|].
    split; [unfold row; rewrite NS by auto; rewrite Ex, Ey; reflexivity|].
    split; [unfold pt; rewrite mapi_length, repeat_length; auto|].
    assert (G : forall k, (k < d)%nat -> nth_error (pt i j) k = match last_index k [i1; i2] with Some q => nth_error [x; y] q | None => Some 0 end).
    { intros k Hk. pose proof (put1_nth _ [i1; i2] (repeat 0 d) [nth j xs 0; nth i ys 0] _ k eq_refl (P i j)) as Q. rewrite Q, Ex, Ey.
      rewrite repeat_length, nth_error_repeat. destruct (Nat.ltb_spec k d); [|lia]. destruct (last_index k [i1; i2]); auto. }
    assert (ND : NoDup [i1; i2]). { constructor; [intros [E|[]]; auto|]. constructor; [intros []|constructor]. }
    split; [rewrite G by auto; rewrite (last_index_NoDup i1 [i1; i2] 0); auto|].
    split; [rewrite G by auto; rewrite (last_index_NoDup i2 [i1; i2] 1); auto|].
    intros k Hk N1 N2. rewrite G by auto. replace (last_index k [i1; i2]) with (@None nat); auto.
    symmetry. apply last_index_None. intros [E|[E|[]]]; auto.
Qed.

Lemma contour_raises : forall f n x_min x_max y_min y_max d dims i, (1 <= n)%nat -> In i dims -> (d <= i)%nat ->
  contour_2D f n x_min x_max y_min y_max d dims = Err IndexError.
Proof.
  intros f n x_min x_max y_min y_max d dims i Hn Hi Hd. unfold contour_2D. destruct n as [|n]; [lia|]. cbn [seq mapM].
  assert (P : forall vals, put1 dims (repeat 0 d) vals = Err IndexError).
  { intros vals. unfold put1. rewrite repeat_length. destruct (forallb _ _) eqn:E; auto. rewrite forallb_forall in E. apply E in Hi. apply Nat.ltb_lt in Hi. lia. }
  rewrite P. reflexivity.
Qed.

(** ** pictures *)
Lemma column_points : forall (xs : list (fl R)), column 0 (map (fun a => [a]) xs) = Ok xs.
Proof. intros xs. unfold column. rewrite mapM_map. cbn [take1 nth_error]. rewrite (mapM_pure _ _ (fun a : fl R => a)). rewrite map_id. reflexivity. Qed.
Lemma graph_points : forall f (xs : list (fl R)), combine xs (heights f true xs) = map (fun a => (a, f [a])) xs.
Proof. intros f xs. unfold heights. induction xs; cbn; congruence. Qed.

Lemma first_spec : forall (c : cfg R vec) s f num_run xs pd, constructed c s -> nth_error (s_x s) num_run = Some (map (fun a => [a]) xs) ->
  first_pic f num_run 0 true true pd s = Ok (mkpic (map (fun a => (a, f [a])) xs) (Some (map (fun a => (a, Fin 0)) xs)) false (s_N s)).
Proof.
  intros c s f m xs pd H Hx. destruct (live_first (fun v => v) c s m _ H Hx) as (HL & LN).
  assert (HC : s_cons s = None).
  { destruct H as (x0 & ch & a & sg & l & dt & pm & na & tr & sv & _ & _ & _ & _ & _ & Hi).
    destruct (init_fields _ _ _ _ _ _ _ _ _ _ _ _ Hi) as (_ & _ & Hc & _). exact Hc. }
  unfold first_pic. rewrite (take1_some _ _ _ _ Hx). cbn [bind]. rewrite column_points. cbn [bind]. rewrite HC, (take1_some _ _ _ _ Hx).
  cbn [bind]. rewrite column_points. cbn [bind]. rewrite graph_points. rewrite map_length in LN. cbn [evals]. rewrite LN. reflexivity.
Qed.

(** the picture drawn after a step of a one-dimensional CBO dynamic all of whose runs are active *)
Lemma picture_spec : forall (f : vec -> fl R) kd (pp : vec -> vec) b partial cat ks save s log (o : orc vec) s' num_run (xs : list R) a,
  let c := cbo_cfg f kd pp NoCorr b partial cat ks save in
  exec c s log -> perms_valid o s -> step c o s = Ok s' -> finite_obj 1 f ->
  length (s_active s) = s_M s -> nth_error (s_x s) num_run = Some (map (fun p => [Fin p]) xs) -> nth_error (s_alpha s) num_run = Some [Fin a] ->
  exists q, next_pic f num_run 0 true true false s' =
      Ok (mkpic (map (fun p => (Fin p, f [Fin p])) xs) (Some [(Fin q, Fin 0)]) false (s_N s)) /\
    exists X, length X = b /\ (forall x, In x X -> In x xs) /\ (b = s_N s -> X = xs) /\
      [q] = gibbs_point a (map (fun p => f [Fin p]) X) 1 (map (fun p => [p]) X).
Proof.
  intros f kd pp b partial cat ks save s log o s' m xs a c E P HS Hf HA Hx Ha.
  destruct (live_tips f kd pp b partial cat ks save s log o s' 1 m _ a E P HS Hf HA Hx) as (q & tails & vs & HL & _ & _ & _ & _ & _ & X & LX & IX & EX & Eq); auto.
  { intros v Hv. apply in_map_iff in Hv. destruct Hv as (p & <- & _). exists [p]. auto. }
  assert (Lq : length q = 1%nat) by (rewrite Eq; apply gibbs_point_length).
  destruct q as [|q [|]]; try discriminate. exists q. split.
  - unfold live_update in HL. unfold next_pic. destruct (s_xold s') as [xo|]; [|discriminate].
    apply bind_ok in HL. destruct HL as (row & Hr & HL). rewrite Hr. cbn [bind].
    apply bind_ok in HL. destruct HL as (cc & Hc & HL). apply bind_ok in HL. destruct HL as (dd & _ & HL). injection HL as -> -> _.
    replace (map (fun p => [Fin p]) xs) with (map (fun v : fl R => [v]) (map Fin xs)) by (rewrite map_map; auto).
    rewrite column_points. cbn [bind]. destruct (s_cons s') as [cs|]; [|discriminate].
    apply bind_ok in Hc. destruct Hc as (r & Hr' & Hc). injection Hc as ->. rewrite Hr'. cbn [bind].
    change (column 0 [floats [q]]) with (Ok [@Fin R q]). cbn [bind map]. rewrite graph_points, map_map.
    unfold evals. rewrite map_length. replace (length xs) with (s_N s); [reflexivity|].
    pose proof (proj2 (w_x _ _ (exec_wf _ _ _ E)) _ _ Hx) as LN. rewrite map_length in LN. auto.
  - assert (HX : exists Y, X = map (fun p => [p]) Y).
    { clear - IX. induction X as [|x X IH]; [exists []; auto|]. destruct IH as (Y & ->). { intros y Hy. apply IX. right. auto. }
      specialize (IX x (or_introl eq_refl)). apply in_map_iff in IX. destruct IX as (p & Ep & _). destruct x as [|p' [|]]; try discriminate. exists (p' :: Y). auto. }
    destruct HX as (Y & ->). exists Y. rewrite map_length in LX. split; auto.
    assert (FI : forall A B, map (fun p : R => [@Fin R p]) A = map (fun p => [Fin p]) B -> A = B).
    { induction A as [|u A IH]; intros [|w B] HE; try discriminate; auto. injection HE as -> HE. f_equal. auto. }
    split; [|split].
    + intros x Hx0. assert (I : In (floats [x]) (map (fun p => [Fin p]) xs)) by (apply IX; apply in_map_iff; exists x; auto).
      apply in_map_iff in I. destruct I as (p & Ep & Ip). injection Ep as ->. auto.
    + intros B. specialize (EX B). rewrite map_map in EX. apply FI. exact EX.
    + rewrite !map_map in Eq. exact Eq.
Qed.

(** for a positive objective the consensus is never drawn on the graph, the particles always are *)
Lemma off_graph : forall (f : vec -> fl R) (q : R), (forall p, exists y, f [Fin p] = Fin y /\ 0 < y) -> ~ (exists p, (Fin q, Fin 0) = (Fin p, f [Fin p])).
Proof. intros f q H (p & E). injection E as E1 E2. destruct (H p) as (y & Hy & P). rewrite Hy in E2. injection E2 as E2. lra. Qed.

(** the flag of the drift *)
Lemma next_pics_flag : forall f m i ev pc ss pd ps, next_pics f m i ev pc pd ss = Ok ps -> Forall (fun p => q_drift p = false) ps.
Proof.
  intros f m i ev pc. induction ss as [|s ss IH]; intros pd ps H; cbn in H.
  - injection H as <-. constructor.
  - apply bind_ok in H. destruct H as (p & Hp & H). apply bind_ok in H. destruct H as (qs & Hq & H). injection H as <-. constructor; eauto.
    unfold next_pic in Hp. destruct (s_xold s); [|discriminate]. repeat (apply bind_ok in Hp; destruct Hp as (? & _ & Hp)).
    destruct pd; [discriminate|]. injection Hp as <-. reflexivity.
Qed.
Lemma no_drift : forall f m i ev pc s0 ss, live_plot f m i ev pc true s0 ss = live_plot f m i ev pc false s0 ss /\
  forall ps, live_plot f m i ev pc true s0 ss = Ok ps -> Forall (fun p => q_drift p = false) ps.
Proof.
  intros f m i ev pc s0 ss. split; [reflexivity|]. intros ps H. unfold live_plot in H. apply bind_ok in H. destruct H as (p & Hp & H).
  apply bind_ok in H. destruct H as (qs & Hq & H). injection H as <-. constructor; [|eapply next_pics_flag; eauto].
  unfold first_pic in Hp. repeat (apply bind_ok in Hp; destruct Hp as (? & _ & Hp)). injection Hp as <-. reflexivity.
Qed.

(** the number of evaluations *)
Definition total_evals (ps : list pic) : nat := fold_right (fun p n => (q_evals p + n)%nat) 0%nat ps.
Lemma column_length : forall i row xs, column i row = Ok xs -> length xs = length row.
Proof. intros i row xs H. apply mapM_length in H. auto. Qed.
Lemma plot_evals : forall f m i ev pc pd N s0 ss ps, rect (s_M s0) N (s_x s0) ->
  Forall (fun s => forall xo, s_xold s = Some xo -> rect (s_M s) N xo) ss ->
  live_plot f m i ev pc pd s0 ss = Ok ps -> total_evals ps = if ev then ((1 + length ss) * N)%nat else 0%nat.
Proof.
  intros f m i ev pc pd N s0 ss ps R0 RS H. unfold live_plot in H. apply bind_ok in H. destruct H as (p & Hp & H).
  apply bind_ok in H. destruct H as (qs & Hq & H). injection H as <-.
  assert (E0 : q_evals p = if ev then N else 0%nat).
  { unfold first_pic in Hp. apply bind_ok in Hp. destruct Hp as (row & Hr & Hp). apply bind_ok in Hp. destruct Hp as (xs & Hxs & Hp).
    apply bind_ok in Hp. destruct Hp as (cc & _ & Hp). injection Hp as <-. cbn [q_evals]. unfold evals. destruct ev; auto.
    rewrite (column_length _ _ _ Hxs). apply take1_ok in Hr. exact (proj2 R0 _ _ Hr). }
  assert (E1 : total_evals qs = if ev then (length ss * N)%nat else 0%nat).
  { clear Hp E0. revert qs Hq. generalize (q_drift p). induction RS as [|s ss Hs RS IH]; intros fl0 qs Hq; cbn in Hq.
    - injection Hq as <-. destruct ev; auto.
    - apply bind_ok in Hq. destruct Hq as (p1 & Hp1 & Hq). apply bind_ok in Hq. destruct Hq as (qs1 & Hq1 & Hq). injection Hq as <-.
      cbn [total_evals fold_right]. change (fold_right _ 0%nat qs1) with (total_evals qs1). rewrite (IH _ _ Hq1).
      unfold next_pic in Hp1. destruct (s_xold s) as [xo|] eqn:Eo; [|discriminate].
      apply bind_ok in Hp1. destruct Hp1 as (row & Hr & Hp1). apply bind_ok in Hp1. destruct Hp1 as (xs & Hxs & Hp1).
      apply bind_ok in Hp1. destruct Hp1 as (x0 & _ & Hp1). apply bind_ok in Hp1. destruct Hp1 as (cc & _ & Hp1).
      destruct fl0; [discriminate|]. injection Hp1 as <-. cbn [q_evals]. unfold evals. destruct ev; auto.
      rewrite (column_length _ _ _ Hxs). apply take1_ok in Hr. rewrite (proj2 (Hs _ eq_refl) _ _ Hr). cbn. lia. }
  cbn [total_evals fold_right]. change (fold_right _ 0%nat qs) with (total_evals qs). rewrite E0, E1. destruct ev; cbn; lia.
Qed.
