(** * The exact moves of the variants *)
From Coq Require Import String List Arith Bool Permutation Lia.
From Verif Require Import Scalar ScalarFacts Np NpFacts State Pdyn PdynFacts PdynStep PdynRun PdynOk Exec BcFacts StepFrame
  Memory MemSpec MemFacts MemFacts2 MemFacts3 MemMove RegSched Variant VarSpec VarFacts VarMove RegVar MemRaise HeaviFacts AdamSpec AdamFacts VarExactSpec.
Import ListNotations.
Open Scope nat_scope.
Open Scope list_scope.

Section VarExact.
  Context {K V : Type} {O : KOps K}.
  Notation F := (fl K).
  Notation st := (st K V).
  Notation cfg := (cfg K V).
  Notation orc := (orc V).

  Lemma own_cons : forall (c : cfg) o s s0 sc ci pi cps k m, wf c s -> one_consensus_point c ->
    cons_ok c o s s0 sc ci pi cps -> nth_error (s_active s) k = Some m ->
    exists cp, cell cps k 0 = Some cp /\ own_consensus c o s m cp.
  Proof.
    intros c o s s0 sc ci pi cps k m W C1 CO Hk.
    assert (Hm : m < s_M s) by (apply W; eapply nth_error_In; eauto).
    destruct (row_at_Some c s m W Hm) as (r & _ & Ex & _ & Ea & _).
    pose proof (proj2 (w_al _ _ W) _ _ Ea) as La. destruct (r_a r) as [|a [|]] eqn:Era; try discriminate.
    destruct (co_row _ _ _ _ _ _ _ _ CO _ _ _ _ Hk Ex Ea) as (xb & T & E).
    pose proof (C1 (map (c_f c) xb) xb a) as L1. destruct (c_ccrow c (map (c_f c) xb) xb a) as [|cp [|]] eqn:EC; try discriminate.
    exists cp. split. { unfold cell. rewrite E. reflexivity. } exists (r_x r), a, xb. auto.
  Qed.


  Lemma all_active : forall (c : cfg) s, wf c s -> length (s_active s) = s_M s -> s_active s = seq 0 (s_M s).
  Proof. intros. apply incr_full; auto; apply H. Qed.

  Lemma active_at : forall (c : cfg) s m n v, wf c s -> length (s_active s) = s_M s -> cell (s_x s) m n = Some v ->
    nth_error (s_active s) m = Some m.
  Proof.
    intros c s m n v W L Hc. rewrite (all_active c s W L), nth_error_seq.
    assert (m < s_M s).
    { unfold cell in Hc. destruct (nth_error (s_x s) m) eqn:E; [|discriminate]. rewrite <- (proj1 (w_x _ _ W)). eapply nth_error_lt; eauto. }
    destruct (Nat.ltb_spec m (s_M s)); [reflexivity | lia].
  Qed.

  Lemma drift_all : forall (c : cfg) o s s0 sc ci pi cps d, wf c s -> perm_ok o s -> one_consensus_point c -> cons_ok c o s s0 sc ci pi cps ->
    length (s_active s) = s_M s -> bc2 (c_vsub c) (s_x s) cps = Ok d -> rect (s_M s) 1 cps /\ rect (s_M s) (s_N s) d /\
    forall m n v cp, cell (s_x s) m n = Some v -> cell cps m 0 = Some cp -> cell d m n = Some (c_vsub c v cp).
  Proof.
    intros c o s s0 sc ci pi cps d W P C1 CO L H. pose proof (cons_rect _ _ _ _ _ _ _ _ W P C1 CO) as Rc. rewrite L in Rc.
    split; auto. exact (bc2_col_cell _ _ _ _ _ _ _ _ _ (w_x _ _ W) Rc H).
  Qed.

  (** one column on the left *)
  Lemma bc2_col_l : forall A B C (f : A -> B -> C) M N X Y Z, rect M 1 X -> rect M N Y -> 1 <= N -> bc2 f X Y = Ok Z ->
    rect M N Z /\ forall m n a b, cell X m 0 = Some a -> cell Y m n = Some b -> cell Z m n = Some (f a b).
  Proof.
    intros A B C f M N X Y Z RX RY HN H. split.
    { destruct (bc2_compat _ _ _ f X Y M 1 M N RX RY) as (Z' & E & R); [left; auto | right; left; auto |].
      rewrite H in E. injection E as <-. unfold bdim in R. cbn [Nat.eqb] in R. destruct (M =? 1); auto. }
    unfold bc2 in H. rewrite bpairs_same in H by (rewrite (proj1 RX), (proj1 RY); auto). cbn [bind] in H.
    intros m n a b Ha Hb. unfold cell in *. destruct (nth_error X m) as [xr|] eqn:E1; [|discriminate].
    destruct (nth_error Y m) as [yr|] eqn:E2; [|discriminate].
    destruct (mapM_nth _ _ _ _ _ m (xr, yr) H) as (zr & Hz & Ez).
    { rewrite nth_error_combine, E1, E2. reflexivity. }
    rewrite Ez. cbn [fst snd] in Hz. pose proof (proj2 RX _ _ E1) as L1. destruct xr as [|a' [|]]; try discriminate. injection Ha as ->.
    apply bind_ok in Hz. destruct Hz as (cs & Hc & Hz). injection Hz as <-. rewrite nth_error_map.
    assert (Ec : cs = map (pair a) yr).
    { unfold bpairs in Hc. destruct yr as [|y1 [|y2 yr]]; cbn in Hc; injection Hc as <-; reflexivity. }
    subst cs. rewrite nth_error_map, Hb. reflexivity.
  Qed.

  (** ** DriftConstrainedCBO *)
  Theorem dc_move : forall g eps (c : cfg) n s u log o s' u', one_consensus_point c ->
    vexec (dc_inner (Some g) eps) (fun _ => tt) c n (s, u) log -> perms_valid o s -> length (s_active s) = s_M s ->
    vstep (dc_inner (Some g) eps) c o (s, u) = Ok (s', u') ->
    forall m n v, cell (s_x s) m n = Some v -> exists cp w, own_consensus c o s m cp /\
      g_solve g (fdiv (s_dt s) eps) v
        (c_vadd c (c_vadd c (pull c s v cp) (c_vscale c (fdiv (s_dt s) eps) (g_grad g v))) (kick c s v cp (o_z o m n))) = Ok w /\
      cell (s_x s') m n = Some (c_pp c (c_vsub c v w)).
  Proof.
    intros g eps c n s u log o s' u' C1 H P HA HS.
    destruct (vexec_inv _ _ _ _ (dc_regular (Some g) eps) attr_unit c n s u log I H) as [W _].
    destruct (pre_cons_full c o s W (perms_valid_ok _ _ P)) as (s0 & sc & ci & pi & cps & CO).
    apply vstep_inv in HS. destruct HS as (s0' & s2 & E1 & E2 & E3). rewrite (co_pre _ _ _ _ _ _ _ _ CO) in E1. injection E1 as <-.
    unfold dc_inner in E2. rewrite (co_cons _ _ _ _ _ _ _ _ CO) in E2. cbn [bind] in E2.
    rewrite (the_cons_ok _ _ (co_cp _ _ _ _ _ _ _ _ CO)) in E2. cbn [bind] in E2.
    rewrite (co_x _ _ _ _ _ _ _ _ CO), (co_la _ _ _ _ _ _ _ _ CO), (co_dt _ _ _ _ _ _ _ _ CO), (co_sg _ _ _ _ _ _ _ _ CO) in E2.
    apply bind_ok in E2. destruct E2 as (d & Hd & E2).
    destruct (drift_all _ _ _ _ _ _ _ _ _ W (perms_valid_ok _ _ P) C1 CO HA Hd) as (_ & Rd & Cd).
    pose proof (w_x _ _ W) as Rx. set (X := s_x s) in *. set (M := s_M s) in *. set (N := s_N s) in *.
    rewrite (bc2_same _ _ _ _ M N) in E2 by (apply rect_map; auto). cbn [bind] in E2.
    rewrite (bc2_same _ _ _ _ M N) in E2 by (first [apply rect_map2; apply rect_map; auto | apply rect_amapi; auto]). cbn [bind] in E2.
    match type of E2 with context [solve_all _ _ ?t] => set (xt := t) in * end.
    assert (Rt : rect M N xt) by (apply rect_map2; [apply rect_map2; apply rect_map; auto | apply rect_amapi; auto]).
    apply bind_ok in E2. destruct E2 as (w & Ew & E2). unfold solve_all in Ew.
    rewrite (bc2_same _ _ _ _ M N) in Ew by auto. cbn [bind] in Ew.
    assert (Rw : rect M N w) by (eapply mapM_rect; [exact Ew|]; apply rect_map2; auto).
    rewrite iop2_same in E2.
    2:{ rewrite (proj1 Rx), (proj1 Rw). auto. }
    2:{ intros k x y Hx Hy. rewrite (proj2 Rx _ _ Hx), (proj2 Rw _ _ Hy). auto. }
    cbn [bind] in E2. injection E2 as <- <-. apply post_step_x in E3. destruct E3 as (E3 & _). sstall.
    intros m k v Hv. destruct (own_cons _ _ _ _ _ _ _ _ m m W C1 CO) as (cp & Hcp & OC). { eapply active_at; eauto. }
    pose proof (Cd _ _ _ _ Hv Hcp) as Hdv.
    assert (Ht : cell xt m k = Some (c_vadd c (c_vadd c (pull c s v cp) (c_vscale c (fdiv (s_dt s) eps) (g_grad g v))) (kick c s v cp (o_z o m k)))).
    { unfold xt. rewrite !cell_map2, !cell_map, Hdv, Hv. cbn [option_map]. rewrite (cell_amapi _ _ _ _ _ _ _ Hdv). auto. }
    assert (Hp : cell (map2 (map2 pair) X xt) m k = Some (v, c_vadd c (c_vadd c (pull c s v cp) (c_vscale c (fdiv (s_dt s) eps) (g_grad g v))) (kick c s v cp (o_z o m k)))).
    { rewrite cell_map2, Hv, Ht. auto. }
    destruct (mapM_cell _ _ _ _ _ _ _ _ Ew Hp) as (wv & Hw & Ecw). cbn [fst snd] in Hw. exists cp, wv. split; auto. split; auto.
    rewrite E3, cell_map, cell_map2, Hv, Ecw. auto.
  Qed.

  (** ** HyperSurfaceCBO *)
  Theorem hyper_move : forall S (c : cfg) n s u log o s' u', one_consensus_point c ->
    vexec (hyper_inner S) (fun _ => tt) c n (s, u) log -> perms_valid o s -> length (s_active s) = s_M s ->
    vstep (hyper_inner S) c o (s, u) = Ok (s', u') ->
    forall m n v, cell (s_x s) m n = Some v -> exists cp, own_consensus c o s m cp /\
      cell (s_x s') m n = Some (c_pp c (h_proj S (c_vsub c
        (c_vadd c v (h_tan S v (c_vadd c (c_vscale c (s_dt s) cp) (kick c s v cp (o_z o m n)))))
        (h_nc S (s_dt s) (s_sigma s) v (c_vsub c v cp))))).
  Proof.
    intros S c n s u log o s' u' C1 H P HA HS.
    destruct (vexec_inv _ _ _ _ (hyper_regular S) attr_unit c n s u log C1 H) as [W _].
    destruct (pre_cons_full c o s W (perms_valid_ok _ _ P)) as (s0 & sc & ci & pi & cps & CO).
    apply vstep_inv in HS. destruct HS as (s0' & s2 & E1 & E2 & E3). rewrite (co_pre _ _ _ _ _ _ _ _ CO) in E1. injection E1 as <-.
    unfold hyper_inner in E2. rewrite (co_cons _ _ _ _ _ _ _ _ CO) in E2. cbn [bind] in E2.
    rewrite (the_cons_ok _ _ (co_cp _ _ _ _ _ _ _ _ CO)) in E2. cbn [bind] in E2.
    rewrite (co_x _ _ _ _ _ _ _ _ CO), (co_dt _ _ _ _ _ _ _ _ CO), (co_sg _ _ _ _ _ _ _ _ CO) in E2.
    apply bind_ok in E2. destruct E2 as (d & Hd & E2).
    destruct (drift_all _ _ _ _ _ _ _ _ _ W (perms_valid_ok _ _ P) C1 CO HA Hd) as (Rc & Rd & Cd).
    pose proof (w_x _ _ W) as Rx. set (X := s_x s) in *. set (M := s_M s) in *. set (N := s_N s) in *.
    apply bind_ok in E2. destruct E2 as (a & Ha & E2).
    assert (CA : rect M N a /\ forall m k cp e, cell cps m 0 = Some cp ->
      cell (amapi (fun k n v => c_vscale c (s_sigma s) (c_noise c (s_dt s) v (o_z o k n))) d) m k = Some e ->
      cell a m k = Some (c_vadd c (c_vscale c (s_dt s) cp) e)).
    { apply (bc2_col_l _ _ _ _ M N) in Ha; [|apply rect_map; auto | apply rect_amapi; auto | apply W]. destruct Ha as [Ra Ha].
      split; auto. intros m k cp e Hc He. apply Ha; auto. rewrite cell_map, Hc. auto. }
    destruct CA as [Ra CA].
    rewrite (bc2_same _ _ _ _ M N) in E2 by auto. cbn [bind] in E2.
    set (t := map2 (map2 (h_tan S)) X a) in *. assert (Rt : rect M N t) by (apply rect_map2; auto).
    rewrite (bc2_same _ _ _ _ M N) in E2 by auto. cbn [bind] in E2.
    set (dn := map2 (map2 (c_vadd c)) X t) in *. assert (Rdn : rect M N dn) by (apply rect_map2; auto).
    rewrite (bc2_same _ _ _ _ M N) in E2 by auto. cbn [bind] in E2.
    set (nc := map2 (map2 (h_nc S (s_dt s) (s_sigma s))) X d) in *. assert (Rnc : rect M N nc) by (apply rect_map2; auto).
    rewrite (bc2_same _ _ _ _ M N) in E2 by auto. cbn [bind] in E2.
    injection E2 as <- <-. apply post_step_x in E3. destruct E3 as (E3 & _). sstall.
    intros m k v Hv. destruct (own_cons _ _ _ _ _ _ _ _ m m W C1 CO) as (cp & Hcp & OC). { eapply active_at; eauto. }
    exists cp. split; auto. pose proof (Cd _ _ _ _ Hv Hcp) as Hdv.
    rewrite E3, !cell_map, cell_map2. unfold dn, nc, t. rewrite !cell_map2, Hv, Hdv.
    rewrite (CA _ _ _ _ Hcp (cell_amapi _ _ _ _ _ _ _ Hdv)). auto.
  Qed.

  (** ** RegCombinationCBO *)
  Theorem reg_move : forall f reg pow la solve eps (c : cfg) n s ob log o s' ob', penalised f reg pow la c -> one_consensus_point c ->
    vexec (reg_inner (reg_call f reg pow) solve eps) (reg_attr la) c n (s, ob) log -> perms_valid o s -> 1 <= s_M s -> length (s_active s) = s_M s ->
    vstep (reg_inner (reg_call f reg pow) solve eps) c o (s, ob) = Ok (s', ob') ->
    forall m n v, cell (s_x s) m n = Some v -> exists cp w, own_consensus c o s m cp /\
      (let x_tilde := c_vadd c (c_vsub c v (pull c s v cp)) (kick c s v cp (o_z o m n)) in
       match solve with Some g => g (fdiv (s_dt s) eps) v x_tilde = Ok w | None => w = x_tilde end) /\
      cell (s_x s') m n = Some (c_pp c w).
  Proof.
    intros f reg pow la solve eps c n s ob log o s' ob' PC C1 H P HM HA HS.
    destruct (vexec_inv _ _ _ _ (reg_regular f reg pow la solve eps) (reg_attr_ok la) c n s ob log (conj PC C1) H) as [W HQ].
    destruct (pre_cons_full c o s W (perms_valid_ok _ _ P)) as (s0 & sc & ci & pi & cps & CO).
    apply vstep_inv in HS. destruct HS as (s0' & s2 & E1 & E2 & E3). rewrite (co_pre _ _ _ _ _ _ _ _ CO) in E1. injection E1 as <-.
    assert (HA' : s_active s <> []) by (destruct (s_active s); cbn in HA; [lia|discriminate]).
    unfold reg_inner in E2. apply bind_ok in E2. destruct E2 as ([sc' ob1] & HC & E2).
    destruct (reg_cc_ok _ _ _ _ _ _ _ _ _ _ _ _ _ _ PC W (perms_valid_ok _ _ P) HA' CO HQ HC) as (A1 & HA1 & _ & _ & E). injection E as -> ->.
    rewrite (the_cons_ok _ _ (co_cp _ _ _ _ _ _ _ _ CO)) in E2. cbn [bind] in E2.
    rewrite (co_x _ _ _ _ _ _ _ _ CO), (co_la _ _ _ _ _ _ _ _ CO), (co_dt _ _ _ _ _ _ _ _ CO), (co_sg _ _ _ _ _ _ _ _ CO) in E2.
    apply bind_ok in E2. destruct E2 as (d & Hd & E2).
    destruct (drift_all _ _ _ _ _ _ _ _ _ W (perms_valid_ok _ _ P) C1 CO HA Hd) as (_ & Rd & Cd).
    pose proof (w_x _ _ W) as Rx. set (X := s_x s) in *. set (M := s_M s) in *. set (N := s_N s) in *.
    rewrite (bc2_same _ _ _ _ M N) in E2 by (auto; apply rect_map; auto). cbn [bind] in E2.
    rewrite (bc2_same _ _ _ _ M N) in E2 by (first [apply rect_map2; [auto | apply rect_map; auto] | apply rect_amapi; auto]). cbn [bind] in E2.
    match type of E2 with context [match solve with Some _ => solve_all _ _ ?t | None => _ end] => set (xt := t) in * end.
    assert (Rt : rect M N xt) by (apply rect_map2; [apply rect_map2; [auto | apply rect_map; auto] | apply rect_amapi; auto]).
    apply bind_ok in E2. destruct E2 as (x' & Ew & E2). injection E2 as <- <-.
    apply post_step_x in E3. destruct E3 as (E3 & _). sstall.
    intros m k v Hv. destruct (own_cons _ _ _ _ _ _ _ _ m m W C1 CO) as (cp & Hcp & OC). { eapply active_at; eauto. }
    pose proof (Cd _ _ _ _ Hv Hcp) as Hdv.
    assert (Ht : cell xt m k = Some (c_vadd c (c_vsub c v (pull c s v cp)) (kick c s v cp (o_z o m k)))).
    { unfold xt. rewrite !cell_map2, !cell_map, Hdv, Hv. cbn [option_map]. rewrite (cell_amapi _ _ _ _ _ _ _ Hdv). auto. }
    destruct solve as [g|].
    - unfold solve_all in Ew. rewrite (bc2_same _ _ _ _ M N) in Ew by auto. cbn [bind] in Ew.
      assert (Hp : cell (map2 (map2 pair) X xt) m k = Some (v, c_vadd c (c_vsub c v (pull c s v cp)) (kick c s v cp (o_z o m k)))).
      { rewrite cell_map2, Hv, Ht. auto. }
      destruct (mapM_cell _ _ _ _ _ _ _ _ Ew Hp) as (wv & Hw & Ecw). cbn [fst snd] in Hw. exists cp, wv. split; auto. split; auto.
      rewrite E3, cell_map, Ecw. auto.
    - injection Ew as <-. exists cp, (c_vadd c (c_vsub c v (pull c s v cp)) (kick c s v cp (o_z o m k))). split; auto. split; auto.
      rewrite E3, cell_map, Ht. auto.
  Qed.

  (** ** MirrorCBO (without correction): the dual point of every selected particle of every active run *)
  Lemma mirror_move_wf : forall gc (c : cfg) s y o s' y', one_consensus_point c -> c_corr c = NoCorr ->
    wf c s -> rect (s_M s) (s_N s) y -> perm_ok o s ->
    vstep (mirror_inner gc) c o (s, y) = Ok (s', y') ->
    forall k m i v yv, nth_error (s_active s) k = Some m -> cell (s_x s) m i = Some v -> cell y m i = Some yv ->
      exists yv', cell y' m i = Some yv' /\ cell (s_x s') m i = Some (c_pp c (gc yv')) /\
        match last_index i (run_selp c o s m) with
        | None => yv' = yv
        | Some j => exists cp, own_consensus c o s m cp /\
            yv' = c_vadd c yv (c_vadd c (c_vscale c (fmul (fopp (s_lamda s)) (s_dt s)) (c_vsub c v cp)) (kick c s v cp (o_z o k j)))
        end.
  Proof.
    intros gc c s y o s' y' C1 NC W Ry PO HS.
    pose proof (proj1 (mirror_step_char gc c o s y s' y' W PO Ry HS)) as Ex'.
    apply vstep_inv in HS. destruct HS as (s0 & s2 & E1 & E2 & E3).
    destruct (pre_cons_full c o s W PO) as (s0' & sc & ci & pi & cps & CO).
    rewrite (co_pre _ _ _ _ _ _ _ _ CO) in E1. injection E1 as <-.
    pose proof (cons_rect _ _ _ _ _ _ _ _ W PO C1 CO) as Rc.
    destruct (selp_selects _ _ _ _ _ _ _ _ W PO CO) as [nb S].
    unfold mirror_inner in E2. rewrite (co_cons _ _ _ _ _ _ _ _ CO) in E2. cbn [bind] in E2.
    rewrite (the_cons_ok _ _ (co_cp _ _ _ _ _ _ _ _ CO)) in E2. cbn [bind] in E2.
    rewrite (co_pidx _ _ _ _ _ _ _ _ CO), (co_x _ _ _ _ _ _ _ _ CO) in E2.
    pose proof (co_gp _ _ _ _ _ _ _ _ CO) as Gp.
    assert (L : forall r, In r (s_active s) -> r < s_M s) by apply W.
    assert (D : NoDup (s_active s)) by (apply incr_NoDup, W).
    assert (Rx : rect (s_M s) (s_N s) (s_x s)) by apply W.
    destruct (gather_sel _ _ _ _ _ _ _ Gp L Rx S) as (xp & Exp & Rxp & Cxp). rewrite Exp in E2. cbn [bind] in E2.
    apply bind_ok in E2. destruct E2 as (d & Hd & E2).
    destruct (bc2_col_cell _ _ _ _ _ _ _ _ _ Rxp Rc Hd) as [Rd Cd].
    unfold correction in E2. rewrite NC in E2. cbn [bind] in E2.
    rewrite (co_pidx _ _ _ _ _ _ _ _ CO), (co_la _ _ _ _ _ _ _ _ CO), (co_dt _ _ _ _ _ _ _ _ CO), (co_sg _ _ _ _ _ _ _ _ CO) in E2.
    destruct (gather_sel _ _ _ _ _ _ _ Gp L Ry S) as (yp & Eyp & Ryp & Cyp). rewrite Eyp in E2. cbn [bind] in E2.
    match type of E2 with context [iop2 _ _ ?Y] => set (U := Y) in * end.
    assert (RU : rect (length (s_active s)) nb U) by (apply rect_amapi; auto).
    rewrite iop2_same in E2.
    2:{ rewrite (proj1 Ryp), (proj1 RU). auto. }
    2:{ intros k x z Hx Hz. rewrite (proj2 Ryp _ _ Hx), (proj2 RU _ _ Hz). auto. }
    cbn [bind] in E2. apply bind_ok in E2. destruct E2 as (y1 & Hy1 & E2).
    apply (scatter_sel _ _ _ _ nb _ _ _ _ Gp D L Ry) in Hy1; auto. 2:{ apply rect_map2; auto. }
    destruct Hy1 as (Ry1 & Cy1 & _). injection E2 as <- <-.
    intros k m i v yv Hk Hv Hy.
    assert (Hi : i < s_N s).
    { unfold cell in Hv. destruct (nth_error (s_x s) m) eqn:E; [|discriminate]. rewrite <- (proj2 Rx _ _ E). eapply nth_error_lt; eauto. }
    assert (Hka : k < length (s_active s)) by (eapply nth_error_lt; eauto).
    pose proof (Cy1 _ _ _ Hk Hi) as E4. rewrite (proj2 (co_sel _ _ _ _ _ _ _ _ CO _ _ Hk)) in E4.
    destruct (last_index i (run_selp c o s m)) as [j|] eqn:Ej.
    - pose proof (last_index_Some _ _ _ Ej) as Hj. rewrite <- (proj2 (co_sel _ _ _ _ _ _ _ _ CO _ _ Hk)) in Hj.
      assert (Hjn : j < nb). { rewrite <- (S k Hka). eapply nth_error_lt; eauto. }
      destruct (own_cons _ _ _ _ _ _ _ _ k m W C1 CO Hk) as (cp & Hcp & OC).
      assert (Hdv : cell d k j = Some (c_vsub c v cp)). { apply Cd; auto. rewrite (Cxp _ _ _ _ Hk Hj). auto. }
      unfold U in E4. rewrite cell_map2, (Cyp _ _ _ _ Hk Hj), Hy, (cell_amapi _ _ _ _ _ _ _ Hdv) in E4. cbn [option_map] in E4.
      eexists. split; [exact E4|]. split. { rewrite Ex', cell_map, E4. reflexivity. }
      exists cp. split; auto.
    - exists yv. rewrite Hy in E4. split; auto. split; auto. rewrite Ex', cell_map, E4. reflexivity.
  Qed.

  Theorem mirror_move : forall gc gr (c : cfg) n s y log o s' y', one_consensus_point c -> c_corr c = NoCorr ->
    vexec (mirror_inner gc) (mirror_attr gr) c n (s, y) log -> perms_valid o s ->
    vstep (mirror_inner gc) c o (s, y) = Ok (s', y') ->
    forall k m i v yv, nth_error (s_active s) k = Some m -> cell (s_x s) m i = Some v -> cell y m i = Some yv ->
      exists yv', cell y' m i = Some yv' /\ cell (s_x s') m i = Some (c_pp c (gc yv')) /\
        match last_index i (run_selp c o s m) with
        | None => yv' = yv
        | Some j => exists cp, own_consensus c o s m cp /\
            yv' = c_vadd c yv (c_vadd c (c_vscale c (fmul (fopp (s_lamda s)) (s_dt s)) (c_vsub c v cp)) (kick c s v cp (o_z o k j)))
        end.
  Proof.
    intros gc gr c n s y log o s' y' C1 NC H P HS. destruct (mirror_inv _ _ _ _ _ _ _ H) as [W Ry].
    exact (mirror_move_wf gc c s y o s' y' C1 NC W Ry (perms_valid_ok _ _ P) HS).
  Qed.

  (** a solver that rejects every argument stops the dynamics *)
  Theorem reg_rejected : forall f reg pow la g eps (c : cfg) n s ob log o s' ob', penalised f reg pow la c -> one_consensus_point c ->
    vexec (reg_inner (reg_call f reg pow) (Some g) eps) (reg_attr la) c n (s, ob) log -> perms_valid o s -> 1 <= s_M s -> length (s_active s) = s_M s ->
    (exists m n v, cell (s_x s) m n = Some v) -> (forall fac v xt w, g fac v xt <> Ok w) ->
    vstep (reg_inner (reg_call f reg pow) (Some g) eps) c o (s, ob) <> Ok (s', ob').
  Proof.
    intros f reg pow la g eps c n s ob log o s' ob' PC C1 H P HM HA (m & k & v & Hv) R HS.
    destruct (reg_move _ _ _ _ _ _ _ _ _ _ _ _ _ _ PC C1 H P HM HA HS m k v Hv) as (cp & w & _ & E & _). exact (R _ _ _ _ E).
  Qed.
End VarExact.
