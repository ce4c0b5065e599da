(** * Moves of the variants: dual points, frozen ensembles, cross-run contamination *)
From Coq Require Import String List Arith Bool Permutation Lia.
From Verif Require Import Scalar ScalarFacts Np NpFacts State Pdyn PdynFacts PdynStep PdynRun PdynOk Exec BcFacts StepFrame
  Memory MemSpec MemFacts MemFacts2 MemFacts3 MemMove Variant VarSpec VarFacts.
Import ListNotations.
Open Scope nat_scope.
Open Scope list_scope.

Section VarMove.
  Context {K V : Type} {O : KOps K}.
  Notation F := (fl K).
  Notation st := (st K V).
  Notation cfg := (cfg K V).
  Notation orc := (orc V).

  Lemma post_step_x : forall (c : cfg) (s s' : st), post_step c s = Ok s' ->
    s_x s' = map (map (c_pp c)) (s_x s) /\ s_active s' = s_active s /\ s_it s' = S (s_it s).
  Proof.
    intros c s s' H. unfold post_step in H. cbv zeta in H. apply bind_ok in H. destruct H as (s3 & E3 & H).
    apply bind_ok in H. destruct H as (s5 & E5 & H).
    unfold update_best_cur in E3. apply bind_ok in E3. destruct E3 as (am & _ & E3). cbv zeta in E3.
    apply bind_ok in E3. destruct E3 as (p & _ & E3). apply bind_ok in E3. destruct E3 as (e & _ & E3).
    injection E3 as <-. apply track_frame in E5. destruct E5 as (ti & ts & h & ->). injection H as <-.
    unfold update_best. destruct s as [? ? ? ? ? ? ? ? ? ? ? ? ? ? ? ? ? ? ? ? ? ? ? ? ? ? ? ? ? xo]; 
      repeat (match goal with |- context [match ?x with _ => _ end] => destruct x end; cbn; auto).
  Qed.

  Lemma vstep_inv : forall E (inner : cfg -> orc -> st -> E -> res (st * E)) (c : cfg) o s e s' e',
    vstep inner c o (s, e) = Ok (s', e') -> exists s0 s2, pre_step c o s = Ok s0 /\ inner c o s0 e = Ok (s2, e') /\
      post_step c s2 = Ok s'.
  Proof.
    intros E inner c o s e s' e' H. unfold vstep in H. cbn [fst snd] in H.
    apply bind_ok in H. destruct H as (s0 & E1 & H). apply bind_ok in H. destruct H as ([s2 e2] & E2 & H).
    cbn [fst snd] in H. apply bind_ok in H. destruct H as (s3 & E3 & H). injection H as <- <-. eauto.
  Qed.

  (** an assignment only changes the selected runs *)
  Lemma scatter_unselected : forall A act M N i (X Y X' : arr A) m, gidx act M N i -> rect M N X -> scatter i X Y = Ok X' ->
    ~ In m act -> nth_error X' m = nth_error X m.
  Proof.
    intros A act M N i X Y X' m G R H Hm. pose proof (scatter_shape _ _ _ _ _ _ _ H R) as R'.
    assert (Hmap : forall (f : nat -> list A -> res (list A)), (forall row, f m row = Ok row) -> mapiM f X = Ok X' -> nth_error X' m = nth_error X m).
    { intros f Hf HX. destruct (nth_error X m) as [row|] eqn:E.
      - destruct (mapiM_nth _ _ _ _ _ _ _ HX E) as (b & Eb & E2). rewrite Hf in Eb. injection Eb as <-. auto.
      - apply nth_error_None in E. apply nth_error_None. rewrite (mapiM_length _ _ _ _ _ HX). auto. }
    assert (Hl : forall rs, rs = act -> last_index m rs = None).
    { intros rs ->. destruct (last_index m act) as [k|] eqn:E; auto. apply last_index_Some in E.
      exfalso. apply Hm. eapply nth_error_In; eauto. }
    destruct i as [|rs|rs bs]; cbn [gidx scatter] in *.
    - subst act. assert (M <= m) by (destruct (le_lt_dec M m); auto; exfalso; apply Hm, in_seq; lia).
      rewrite !(proj2 (nth_error_None _ _)); auto; rewrite ?(proj1 R), ?(proj1 R'); auto.
    - subst rs. destruct (forallb _ _); [|discriminate]. apply bind_ok in H. destruct H as (Y1 & _ & H).
      eapply Hmap; [|exact H]. intros row. cbn beta. rewrite (Hl act eq_refl). auto.
    - destruct G as (-> & _). destruct (forallb _ _ && _); [|discriminate]. apply bind_ok in H. destruct H as (Y1 & _ & H).
      eapply Hmap; [|exact H]. intros row. cbn beta. rewrite (Hl act eq_refl). auto.
  Qed.

  (** ** MirrorCBO *)

  Lemma mirror_step_char : forall gc (c : cfg) o s y s' y', wf c s -> perm_ok o s -> rect (s_M s) (s_N s) y ->
    vstep (mirror_inner gc) c o (s, y) = Ok (s', y') ->
    s_x s' = map (map (fun v => c_pp c (gc v))) y' /\ (forall m, ~ In m (s_active s) -> nth_error y' m = nth_error y m).
  Proof.
    intros gc c o s y s' y' W P Ry H. apply vstep_inv in H. destruct H as (s0 & s2 & E1 & E2 & E3).
    destruct (pre_cons_full c o s W P) as (s0' & sc & ci & pi & cp & CO).
    rewrite (co_pre _ _ _ _ _ _ _ _ CO) in E1. injection E1 as <-.
    unfold mirror_inner in E2. rewrite (co_cons _ _ _ _ _ _ _ _ CO) in E2. cbn [bind] in E2.
    rewrite (the_cons_ok _ _ (co_cp _ _ _ _ _ _ _ _ CO)) in E2. cbn [bind] in E2.
    apply bind_ok in E2. destruct E2 as (xp & _ & E2). apply bind_ok in E2. destruct E2 as (d0 & _ & E2).
    apply bind_ok in E2. destruct E2 as ([d s3] & Hc & E2). apply correction_ok in Hc. destruct Hc as (fc & nf & -> & Lnf).
    apply bind_ok in E2. destruct E2 as (yp & _ & E2). apply bind_ok in E2. destruct E2 as (yp' & _ & E2).
    apply bind_ok in E2. destruct E2 as (y2 & Hy & E2). injection E2 as <- <-.
    apply post_step_x in E3. destruct E3 as (E3 & _). sstall. split.
    - rewrite E3. rewrite map_map. apply map_ext. intros row. apply map_map.
    - intros m Hm. rewrite (co_pidx _ _ _ _ _ _ _ _ CO) in Hy.
      exact (scatter_unselected _ _ _ _ _ _ _ _ m (co_gp _ _ _ _ _ _ _ _ CO) Ry Hy Hm).
  Qed.

  Lemma mirror_inv : forall gc gr (c : cfg) n s y log, vexec (mirror_inner gc) (mirror_attr gr) c n (s, y) log ->
    wf c s /\ rect (s_M s) (s_N s) y.
  Proof. intros. eapply (vexec_inv _ _ _ _ (mirror_regular gc) (attr_mirror gr)); eauto. exact I. Qed.

  Theorem mirror_dual : forall gc gr (c : cfg) n s y log, vexec (mirror_inner gc) (mirror_attr gr) c n (s, y) log -> n <> 0 ->
    s_x s = map (map (fun v => c_pp c (gc v))) y.
  Proof.
    intros gc gr c n s y log H. remember (s, y) as p eqn:Ep. revert s y Ep.
    induction H; intros s1 e1 Ep Hn; injection Ep as <- <-.
    - congruence.
    - destruct (mirror_inv _ _ _ _ _ _ _ H) as [W R].
      exact (proj1 (mirror_step_char gc c o s e s' e' W (perms_valid_ok _ _ H0) R H2)).
    - pose proof (IHvexec _ _ eq_refl Hn) as IH. apply terminate_char in H0. destruct H0 as (act & reason & -> & _). sst. auto.
    - pose proof (IHvexec _ _ eq_refl Hn) as IH. destruct H0 as (al & sg & la & d & _ & ->). sst. auto.
    - pose proof (IHvexec _ _ eq_refl Hn) as IH. destruct (reset_char s) as (ts & h & -> & _). sst. auto.
  Qed.

  Theorem mirror_feasible : forall gc gr (c : cfg) n s y log (C : V -> Prop), (forall v, C (gc v)) ->
    vexec (mirror_inner gc) (mirror_attr gr) c n (s, y) log -> n <> 0 ->
    forall m xr v, nth_error (s_x s) m = Some xr -> In v xr -> exists w, C w /\ v = c_pp c w.
  Proof.
    intros gc gr c n s y log C HC H Hn m xr v Hx Hv. rewrite (mirror_dual _ _ _ _ _ _ _ H Hn), nth_error_map in Hx.
    destruct (nth_error y m) as [yr|]; [|discriminate]. injection Hx as <-. apply in_map_iff in Hv. destruct Hv as (w & <- & _). eauto.
  Qed.

  Theorem mirror_frozen : forall gc gr (c : cfg) n s y log o s' y' m, vexec (mirror_inner gc) (mirror_attr gr) c n (s, y) log ->
    perms_valid o s -> s_active s <> [] -> vstep (mirror_inner gc) c o (s, y) = Ok (s', y') -> ~ In m (s_active s) ->
    nth_error y' m = nth_error y m /\ (n <> 0 -> nth_error (s_x s') m = nth_error (s_x s) m).
  Proof.
    intros gc gr c n s y log o s' y' m H P HA HS Hm. destruct (mirror_inv _ _ _ _ _ _ _ H) as [W R].
    destruct (mirror_step_char gc c o s y s' y' W (perms_valid_ok _ _ P) R HS) as [E1 E2]. split. auto.
    intros Hn. rewrite E1, (mirror_dual _ _ _ _ _ _ _ H Hn), !nth_error_map, (E2 _ Hm). auto.
  Qed.

  Lemma mirror_inner_id : forall gc (c : cfg) o s, (forall v, gc v = v) ->
    mirror_inner gc c o s (s_x s) = (s2 <- cbo_step c o s ;; Ok (s2, s_x s2)).
  Proof.
    intros gc c o s Hg.
    assert (Hm : forall X : arr V, map (map gc) X = X).
    { intros X. rewrite <- (map_id X) at 2. apply map_ext. intros r. rewrite <- (map_id r) at 2. apply map_ext. auto. }
    unfold mirror_inner, cbo_step. destruct (compute_consensus c s) as [sc|] eqn:Ec; [|reflexivity]. cbn [bind].
    pose proof (compute_consensus_frame _ _ _ Ec) as (cep & e & cp & fc & nf & Esc).
    assert (Ex : s_x sc = s_x s) by (rewrite Esc; sst; auto).
    unfold the_cons. destruct (s_cons sc) as [cpt|]; [|reflexivity]. cbn [bind].
    destruct (gather (s_pidx sc) (s_x sc)) as [xp|] eqn:Eg; [|reflexivity]. cbn [bind].
    destruct (bc2 (c_vsub c) xp cpt) as [d0|]; [|reflexivity]. cbn [bind].
    destruct (correction c cpt d0 sc) as [[d s2]|] eqn:Ecr; [|reflexivity]. cbn [bind].
    apply correction_ok in Ecr. destruct Ecr as (fc2 & nf2 & -> & _). sst. rewrite <- Ex, Eg. cbn [bind].
    unfold amapi.
    match goal with |- context [iop2 ?f ?a ?b] => destruct (iop2 f a b) as [xp'|]; [|reflexivity] end. cbn [bind].
    destruct (scatter (s_pidx sc) (s_x sc) xp') as [x'|]; [|reflexivity]. cbn [bind]. sst. rewrite Hm. auto.
  Qed.

  (** with the identity map and y = x a step of MirrorCBO is a step of CBO *)
  Theorem mirror_id_step : forall gc (c : cfg) o s s', (forall v, gc v = v) ->
    (step c o s = Ok s' <-> exists y', vstep (mirror_inner gc) c o (s, s_x s) = Ok (s', y')).
  Proof.
    intros gc c o s s' Hg. unfold step, vstep. cbn [fst snd].
    destruct (pre_step c o s) as [s0|] eqn:E0. 2:{ cbn. split; [discriminate|intros (y & H); discriminate]. }
    cbn [bind]. pose proof (pre_step_frame _ _ _ _ E0) as (ci & pi & ind & xo & Es0).
    assert (Ex : s_x s0 = s_x s) by (rewrite Es0; sst; auto). rewrite <- Ex, (mirror_inner_id gc c o s0 Hg).
    destruct (cbo_step c o s0) as [s2|]. 2:{ cbn. split; [discriminate|intros (y & H); discriminate]. }
    cbn [bind fst snd]. destruct (post_step c s2) as [s3|]; cbn.
    - split. { intros H. injection H as ->. eauto. } intros (y & H). injection H as -> _. auto.
    - split; [discriminate|intros (y & H); discriminate].
  Qed.

  (** the whole trajectory, as long as post-processing does not change the points *)
  Theorem mirror_is_cbo : forall gc gr (c : cfg) n s y log, (forall v, gc v = v) -> (forall v, gr v = v) -> (forall v, c_pp c v = v) ->
    vexec (mirror_inner gc) (mirror_attr gr) c n (s, y) log -> exec c s log /\ y = s_x s.
  Proof.
    intros gc gr c n s y log Hg Hr Hp H.
    assert (Hm : forall (f : V -> V) (X : arr V), (forall v, f v = v) -> map (map f) X = X).
    { intros f X Hf. rewrite <- (map_id X) at 2. apply map_ext. intros r. rewrite <- (map_id r) at 2. apply map_ext. auto. }
    remember (s, y) as p eqn:Ep. revert s y Ep.
    induction H; intros s1 e1 Ep; injection Ep as <- <-.
    - split. apply ex_init; auto. unfold mirror_attr. apply Hm; auto.
    - destruct (IHvexec _ _ eq_refl) as [HE Hy]. subst e.
      destruct (mirror_inv _ _ _ _ _ _ _ H) as [W R].
      destruct (mirror_step_char gc c o s _ s' e' W (perms_valid_ok _ _ H0) R H2) as [Ex _].
      split.
      + eapply ex_step; eauto. apply (proj2 (mirror_id_step gc c o s s' Hg)). eauto.
      + rewrite Ex. symmetry. apply Hm. intros v. rewrite Hg, Hp. auto.
    - destruct (IHvexec _ _ eq_refl) as [HE Hy]. split. eapply ex_term; eauto.
      apply terminate_char in H0. destruct H0 as (act & reason & -> & _). sst. auto.
    - destruct (IHvexec _ _ eq_refl) as [HE Hy]. split. eapply ex_params; eauto.
      destruct H0 as (al & sg & la & d & _ & ->). sst. auto.
    - destruct (IHvexec _ _ eq_refl) as [HE Hy]. split. eapply ex_reset; eauto.
      destruct (reset_char s) as (ts & h & -> & _). sst. auto.
  Qed.

  (** ** DriftConstrainedCBO without constraints *)
  Theorem dc_none_frozen : forall eps (c : cfg) o s s' u u', vstep (dc_inner None eps) c o (s, u) = Ok (s', u') ->
    s_x s' = map (map (c_pp c)) (s_x s).
  Proof.
    intros eps c o s s' u u' H. apply vstep_inv in H. destruct H as (s0 & s2 & E1 & E2 & E3).
    apply pre_step_frame in E1. destruct E1 as (ci & pi & ind & xo & ->).
    unfold dc_inner in E2. apply bind_ok in E2. destruct E2 as (sc & Ec & E2).
    apply compute_consensus_frame in Ec. destruct Ec as (cep & e & cp & fc & nf & ->).
    apply bind_ok in E2. destruct E2 as (cpt & _ & E2). apply bind_ok in E2. destruct E2 as (d & _ & E2).
    apply bind_ok in E2. destruct E2 as (xt & _ & E2). injection E2 as <- <-.
    apply post_step_x in E3. destruct E3 as (E3 & _). rewrite E3. sst. auto.
  Qed.

  Theorem dc_none_constant : forall eps (c : cfg) n s u log, (forall v, c_pp c (c_pp c v) = c_pp c v) ->
    vexec (dc_inner None eps) (fun _ => tt) c n (s, u) log ->
    exists s0, constructed c s0 /\ s_x s = (if n =? 0 then s_x s0 else map (map (c_pp c)) (s_x s0)).
  Proof.
    intros eps c n s u log Hpp H. remember (s, u) as p eqn:Ep. revert s u Ep.
    induction H; intros s1 e1 Ep; injection Ep as <- <-.
    - exists s. auto.
    - destruct (IHvexec _ _ eq_refl) as (s0 & C0 & Ex). exists s0. split; auto. cbn [Nat.eqb].
      rewrite (dc_none_frozen _ _ _ _ _ _ _ H2), Ex. destruct (n =? 0); auto.
      rewrite map_map. apply map_ext. intros row. rewrite map_map. apply map_ext. auto.
    - destruct (IHvexec _ _ eq_refl) as (s0 & C0 & Ex). exists s0. split; auto.
      apply terminate_char in H0. destruct H0 as (act & reason & -> & _). sst. auto.
    - destruct (IHvexec _ _ eq_refl) as (s0 & C0 & Ex). exists s0. split; auto.
      destruct H0 as (al & sg & la & d & _ & ->). sst. auto.
    - destruct (IHvexec _ _ eq_refl) as (s0 & C0 & Ex). exists s0. split; [exact C0|].
      destruct (reset_char s) as (ts & h & -> & _). sst. auto.
  Qed.

  (** ** Cross-run contamination *)

  Lemma active_bounds : forall (c : cfg) (s : st), wf c s -> length (s_active s) <= s_M s.
  Proof.
    intros c s W. rewrite <- (seq_length (s_M s) 0). apply NoDup_incl_length. apply incr_NoDup, W.
    intros m Hm. apply in_seq. pose proof (w_actlt _ _ W m Hm). lia.
  Qed.

  Lemma drift_raises : forall (c : cfg) o s s0 sc ci pi cp, wf c s -> cons_ok c o s s0 sc ci pi cp ->
    1 < length (s_active s) < s_M s -> bc2 (c_vsub c) (s_x sc) cp = Err ShapeError.
  Proof.
    intros c o s s0 sc ci pi cp W CO H. apply bc2_incompat_rows. unfold compat.
    rewrite (co_x _ _ _ _ _ _ _ _ CO), (co_lcp _ _ _ _ _ _ _ _ CO), (proj1 (w_x _ _ W)). lia.
  Qed.

  Theorem dc_partial_raises : forall G eps (c : cfg) n s u log o, vexec (dc_inner G eps) (fun _ => tt) c n (s, u) log ->
    perms_valid o s -> 1 < length (s_active s) < s_M s -> vstep (dc_inner G eps) c o (s, u) = Err ShapeError.
  Proof.
    intros G eps c n s u log o H P HA.
    destruct (vexec_inv _ _ _ _ (dc_regular G eps) attr_unit c n s u log I H) as [W _].
    destruct (pre_cons_full c o s W (perms_valid_ok _ _ P)) as (s0 & sc & ci & pi & cp & CO).
    unfold vstep. cbn [fst snd]. rewrite (co_pre _ _ _ _ _ _ _ _ CO). cbn [bind]. unfold dc_inner.
    rewrite (co_cons _ _ _ _ _ _ _ _ CO). cbn [bind]. rewrite (the_cons_ok _ _ (co_cp _ _ _ _ _ _ _ _ CO)). cbn [bind].
    rewrite (drift_raises _ _ _ _ _ _ _ _ W CO HA). auto.
  Qed.

  Theorem hyper_partial_raises : forall S (c : cfg) n s u log o, one_consensus_point c ->
    vexec (hyper_inner S) (fun _ => tt) c n (s, u) log ->
    perms_valid o s -> 1 < length (s_active s) < s_M s -> vstep (hyper_inner S) c o (s, u) = Err ShapeError.
  Proof.
    intros S c n s u log o C1 H P HA.
    destruct (vexec_inv _ _ _ _ (hyper_regular S) attr_unit c n s u log C1 H) as [W _].
    destruct (pre_cons_full c o s W (perms_valid_ok _ _ P)) as (s0 & sc & ci & pi & cp & CO).
    unfold vstep. cbn [fst snd]. rewrite (co_pre _ _ _ _ _ _ _ _ CO). cbn [bind]. unfold hyper_inner.
    rewrite (co_cons _ _ _ _ _ _ _ _ CO). cbn [bind]. rewrite (the_cons_ok _ _ (co_cp _ _ _ _ _ _ _ _ CO)). cbn [bind].
    rewrite (drift_raises _ _ _ _ _ _ _ _ W CO HA). auto.
  Qed.

  Lemma bc2_one : forall A B C (f : A -> B -> C) X b, bc2 f X [[b]] = Ok (map (map (fun a => f a b)) X).
  Proof.
    intros. unfold bc2. rewrite bpairs_one_r. cbn [bind]. rewrite <- mapM_pure.
    induction X as [|row X IH]; cbn [map mapM]; auto. cbn [fst snd]. rewrite bpairs_one_r. cbn [bind]. rewrite map_map.
    cbn [fst snd]. rewrite IH. auto.
  Qed.
  Lemma bc2_one_l : forall A B C (f : A -> B -> C) M N a Y, rect M N Y -> 1 <= M -> 1 <= N ->
    bc2 f [[a]] Y = Ok (map (map (f a)) Y).
  Proof.
    intros A B C f M N a Y [R1 R2] HM HN.
    assert (Hp : forall D (d : D) T (l : list T), 1 <= length l -> bpairs [d] l = Ok (map (pair d) l)).
    { intros D d T l Hl. destruct l as [|t [|t' l]]; [cbn in Hl; lia | reflexivity | reflexivity]. }
    unfold bc2. rewrite Hp by (rewrite R1; auto). cbn [bind].
    assert (R3 : forall row, In row Y -> 1 <= length row).
    { intros row Hr. apply In_nth_error in Hr. destruct Hr as [k Hk]. rewrite (R2 _ _ Hk). auto. }
    clear R1 R2 HM. induction Y as [|row Y IH]; cbn [map mapM]; auto. cbn [fst snd].
    rewrite Hp by (apply R3; cbn; auto). cbn [bind]. rewrite map_map. cbn [fst snd].
    rewrite IH by (intros; apply R3; cbn; auto). auto.
  Qed.

  Lemma mapM_cell : forall A B (f : A -> res B) X Z m n a, mapM (mapM f) X = Ok Z -> cell X m n = Some a ->
    exists b, f a = Ok b /\ cell Z m n = Some b.
  Proof.
    intros A B f X Z m n a H Hc. unfold cell in *. destruct (nth_error X m) as [row|] eqn:E; [|discriminate].
    destruct (mapM_nth _ _ _ _ _ _ _ H E) as (zr & Hz & Ez). rewrite Ez.
    destruct (mapM_nth _ _ _ _ _ _ _ Hz Hc) as (b & Hb & Eb). eauto.
  Qed.
  Lemma mapM_rect : forall A B (f : A -> res B) X Z M N, mapM (mapM f) X = Ok Z -> rect M N X -> rect M N Z.
  Proof.
    intros A B f X Z M N H [R1 R2]. split. { rewrite (mapM_length _ _ _ _ _ H). auto. }
    intros k row Hk. assert (Hl : k < length X) by (rewrite <- (mapM_length _ _ _ _ _ H); eapply nth_error_lt; eauto).
    destruct (nth_error_lt_Some _ _ _ Hl) as [xr Ex]. destruct (mapM_nth _ _ _ _ _ _ _ H Ex) as (zr & Hz & Ez).
    rewrite Hk in Ez. injection Ez as ->. rewrite (mapM_length _ _ _ _ _ Hz). eauto.
  Qed.

  (** the consensus of the only active run *)
  Definition only_consensus (c : cfg) (o : orc) (s : st) (m0 : nat) (cp : V) : Prop :=
    exists xr a xb, nth_error (s_x s) m0 = Some xr /\ nth_error (s_alpha s) m0 = Some [a] /\
      takeM xr (run_sel c o s m0) = Ok xb /\ c_ccrow c (map (c_f c) xb) xb a = [cp].

  Lemma only_cons : forall (c : cfg) o s s0 sc ci pi cps m0, wf c s -> one_consensus_point c ->
    cons_ok c o s s0 sc ci pi cps -> s_active s = [m0] -> exists cp, cps = [[cp]] /\ only_consensus c o s m0 cp.
  Proof.
    intros c o s s0 sc ci pi cps m0 W C1 CO HA.
    assert (Hm : m0 < s_M s) by (apply W; rewrite HA; cbn; auto).
    destruct (row_at_Some c s m0 W Hm) as (r & _ & Ex & _ & Ea & _).
    pose proof (proj2 (w_al _ _ W) _ _ Ea) as La. destruct (r_a r) as [|a [|]] eqn:Era; try discriminate.
    assert (H0 : nth_error (s_active s) 0 = Some m0) by (rewrite HA; auto).
    destruct (co_row _ _ _ _ _ _ _ _ CO _ _ _ _ H0 Ex Ea) as (xb & T & E).
    pose proof (co_lcp _ _ _ _ _ _ _ _ CO) as L. rewrite HA in L. cbn in L.
    destruct cps as [|row [|]]; try discriminate. cbn in E. injection E as ->.
    pose proof (C1 (map (c_f c) xb) xb a) as L1. destruct (c_ccrow c (map (c_f c) xb) xb a) as [|cp [|]] eqn:EC; try discriminate.
    exists cp. split; auto. exists (r_x r), a, xb. auto.
  Qed.

  Theorem dc_contamination : forall g eps (c : cfg) n s u log o s' u' m0, one_consensus_point c ->
    vexec (dc_inner (Some g) eps) (fun _ => tt) c n (s, u) log -> perms_valid o s -> s_active s = [m0] ->
    vstep (dc_inner (Some g) eps) c o (s, u) = Ok (s', u') ->
    exists cp, only_consensus c o s m0 cp /\ forall m n v, cell (s_x s) m n = Some v ->
      exists w, g_solve g (fdiv (s_dt s) eps) v
          (c_vadd c (c_vadd c (c_vscale c (fmul (s_lamda s) (s_dt s)) (c_vsub c v cp)) (c_vscale c (fdiv (s_dt s) eps) (g_grad g v)))
                    (c_vscale c (s_sigma s) (c_noise c (s_dt s) (c_vsub c v cp) (o_z o m n)))) = Ok w /\
        cell (s_x s') m n = Some (c_pp c (c_vsub c v w)).
  Proof.
    intros g eps c n s u log o s' u' m0 C1 H P HA HS.
    destruct (vexec_inv _ _ _ _ (dc_regular (Some g) eps) attr_unit c n s u log I H) as [W _].
    destruct (pre_cons_full c o s W (perms_valid_ok _ _ P)) as (s0 & sc & ci & pi & cps & CO).
    apply vstep_inv in HS. destruct HS as (s0' & s2 & E1 & E2 & E3). rewrite (co_pre _ _ _ _ _ _ _ _ CO) in E1. injection E1 as <-.
    destruct (only_cons _ _ _ _ _ _ _ _ _ W C1 CO HA) as (cp & -> & OC). exists cp. split; auto.
    unfold dc_inner in E2. rewrite (co_cons _ _ _ _ _ _ _ _ CO) in E2. cbn [bind] in E2.
    rewrite (the_cons_ok _ _ (co_cp _ _ _ _ _ _ _ _ CO)) in E2. cbn [bind] in E2.
    rewrite (co_x _ _ _ _ _ _ _ _ CO), (co_la _ _ _ _ _ _ _ _ CO), (co_dt _ _ _ _ _ _ _ _ CO), (co_sg _ _ _ _ _ _ _ _ CO) in E2.
    rewrite bc2_one in E2. cbn [bind] in E2. pose proof (w_x _ _ W) as Rx. clear C1 H.
    set (X := s_x s) in *. set (M := s_M s) in *. set (N := s_N s) in *.
    set (d := map (map (fun a : V => c_vsub c a cp)) X) in *.
    assert (Rd : rect M N d) by (apply rect_map; auto).
    rewrite (bc2_same _ _ _ _ M N) in E2 by (apply rect_map; auto). cbn [bind] in E2.
    rewrite (bc2_same _ _ _ _ M N) in E2 by (first [apply rect_map2; apply rect_map; auto | apply rect_amapi; auto]). cbn [bind] in E2.
    match type of E2 with context [solve_all _ _ ?t] => set (xt := t) in * end.
    assert (Rt : rect M N xt) by (apply rect_map2; [apply rect_map2; apply rect_map; auto | apply rect_amapi; auto]).
    apply bind_ok in E2. destruct E2 as (w & Ew & E2). unfold solve_all in Ew.
    rewrite (bc2_same _ _ _ _ M N) in Ew by auto. cbn [bind] in Ew.
    assert (Rw : rect M N w) by (eapply mapM_rect; [exact Ew|]; apply rect_map2; auto).
    rewrite iop2_same in E2.
    2:{ rewrite (proj1 Rx), (proj1 Rw). auto. }
    2:{ intros k x y Hx Hy. rewrite (proj2 Rx _ _ Hx), (proj2 Rw _ _ Hy). auto. }
    cbn [bind] in E2. injection E2 as <- <-. apply post_step_x in E3. destruct E3 as (E3 & _). sstall.
    intros m k v Hv.
    assert (Hd : cell d m k = Some (c_vsub c v cp)) by (unfold d; rewrite cell_map, Hv; auto).
    assert (Ht : cell xt m k = Some (c_vadd c (c_vadd c (c_vscale c (fmul (s_lamda s) (s_dt s)) (c_vsub c v cp)) (c_vscale c (fdiv (s_dt s) eps) (g_grad g v)))
                    (c_vscale c (s_sigma s) (c_noise c (s_dt s) (c_vsub c v cp) (o_z o m k))))).
    { unfold xt. rewrite !cell_map2, !cell_map, Hd, Hv. cbn [option_map]. rewrite (cell_amapi _ _ _ _ _ _ _ Hd). auto. }
    assert (Hp : cell (map2 (map2 pair) X xt) m k = Some (v, c_vadd c (c_vadd c (c_vscale c (fmul (s_lamda s) (s_dt s)) (c_vsub c v cp)) (c_vscale c (fdiv (s_dt s) eps) (g_grad g v)))
                    (c_vscale c (s_sigma s) (c_noise c (s_dt s) (c_vsub c v cp) (o_z o m k))))).
    { rewrite cell_map2, Hv, Ht. auto. }
    destruct (mapM_cell _ _ _ _ _ _ _ _ Ew Hp) as (wv & Hw & Ecw). cbn [fst snd] in Hw. exists wv. split; auto.
    rewrite E3, cell_map, cell_map2, Hv, Ecw. auto.
  Qed.

  Theorem hyper_contamination : forall S (c : cfg) n s u log o s' u' m0, one_consensus_point c ->
    vexec (hyper_inner S) (fun _ => tt) c n (s, u) log -> perms_valid o s -> s_active s = [m0] ->
    vstep (hyper_inner S) c o (s, u) = Ok (s', u') ->
    exists cp, only_consensus c o s m0 cp /\ forall m n v, cell (s_x s) m n = Some v ->
      cell (s_x s') m n = Some (c_pp c (h_proj S (c_vsub c (c_vadd c v (h_tan S v
          (c_vadd c (c_vscale c (s_dt s) cp) (c_vscale c (s_sigma s) (c_noise c (s_dt s) (c_vsub c v cp) (o_z o m n))))))
          (h_nc S (s_dt s) (s_sigma s) v (c_vsub c v cp))))).
  Proof.
    intros S c n s u log o s' u' m0 C1 H P HA HS.
    destruct (vexec_inv _ _ _ _ (hyper_regular S) attr_unit c n s u log C1 H) as [W _].
    destruct (pre_cons_full c o s W (perms_valid_ok _ _ P)) as (s0 & sc & ci & pi & cps & CO).
    apply vstep_inv in HS. destruct HS as (s0' & s2 & E1 & E2 & E3). rewrite (co_pre _ _ _ _ _ _ _ _ CO) in E1. injection E1 as <-.
    destruct (only_cons _ _ _ _ _ _ _ _ _ W C1 CO HA) as (cp & -> & OC). exists cp. split; auto.
    unfold hyper_inner in E2. rewrite (co_cons _ _ _ _ _ _ _ _ CO) in E2. cbn [bind] in E2.
    rewrite (the_cons_ok _ _ (co_cp _ _ _ _ _ _ _ _ CO)) in E2. cbn [bind] in E2.
    rewrite (co_x _ _ _ _ _ _ _ _ CO), (co_dt _ _ _ _ _ _ _ _ CO), (co_sg _ _ _ _ _ _ _ _ CO) in E2.
    rewrite bc2_one in E2. cbn [bind] in E2. pose proof (w_x _ _ W) as Rx.
    assert (HM : 1 <= s_M s) by (pose proof (w_actlt _ _ W m0) as Q; rewrite HA in Q; specialize (Q (or_introl eq_refl)); lia).
    assert (HN : 1 <= s_N s) by apply W. clear C1 H.
    set (X := s_x s) in *. set (M := s_M s) in *. set (N := s_N s) in *.
    set (d := map (map (fun a : V => c_vsub c a cp)) X) in *.
    assert (Rd : rect M N d) by (apply rect_map; auto).
    cbn [map] in E2. rewrite (bc2_one_l _ _ _ _ M N) in E2 by (auto; apply rect_amapi; auto). cbn [bind] in E2.
    set (a := map (map (c_vadd c (c_vscale c (s_dt s) cp))) (amapi (fun k n v => c_vscale c (s_sigma s) (c_noise c (s_dt s) v (o_z o k n))) d)) in *.
    assert (Ra : rect M N a) by (apply rect_map, rect_amapi; auto).
    rewrite (bc2_same _ _ _ _ M N) in E2 by auto. cbn [bind] in E2.
    set (t := map2 (map2 (h_tan S)) X a) in *. assert (Rt : rect M N t) by (apply rect_map2; auto).
    rewrite (bc2_same _ _ _ _ M N) in E2 by auto. cbn [bind] in E2.
    set (dn := map2 (map2 (c_vadd c)) X t) in *. assert (Rdn : rect M N dn) by (apply rect_map2; auto).
    rewrite (bc2_same _ _ _ _ M N) in E2 by auto. cbn [bind] in E2.
    set (nc := map2 (map2 (h_nc S (s_dt s) (s_sigma s))) X d) in *. assert (Rnc : rect M N nc) by (apply rect_map2; auto).
    rewrite (bc2_same _ _ _ _ M N) in E2 by auto. cbn [bind] in E2.
    injection E2 as <- <-. apply post_step_x in E3. destruct E3 as (E3 & _). sstall.
    intros m k v Hv.
    assert (Hd : cell d m k = Some (c_vsub c v cp)) by (unfold d; rewrite cell_map, Hv; auto).
    rewrite E3, !cell_map, cell_map2. unfold dn, nc, t, a. rewrite !cell_map2, cell_map, Hv, Hd, (cell_amapi _ _ _ _ _ _ _ Hd). auto.
  Qed.

  (** after a step every particle of every run is the projection of some point (then post-processed) *)
  Theorem hyper_on_surface : forall S (c : cfg) n s u log, vexec (hyper_inner S) (fun _ => tt) c n (s, u) log -> n <> 0 ->
    forall m k v, cell (s_x s) m k = Some v -> exists w, v = c_pp c (h_proj S w).
  Proof.
    intros S c n s u log H. remember (s, u) as p eqn:Ep. revert s u Ep.
    induction H; intros s1 e1 Ep Hn; injection Ep as <- <-.
    - congruence.
    - apply vstep_inv in H2. destruct H2 as (s0 & s2 & E1 & E2 & E3). unfold hyper_inner in E2.
      apply bind_ok in E2. destruct E2 as (sc & _ & E2). apply bind_ok in E2. destruct E2 as (cpt & _ & E2).
      apply bind_ok in E2. destruct E2 as (d & _ & E2). apply bind_ok in E2. destruct E2 as (a & _ & E2).
      apply bind_ok in E2. destruct E2 as (t & _ & E2). apply bind_ok in E2. destruct E2 as (dn & _ & E2).
      apply bind_ok in E2. destruct E2 as (nc & _ & E2). apply bind_ok in E2. destruct E2 as (xt & _ & E2). injection E2 as <- <-.
      apply post_step_x in E3. destruct E3 as (E3 & _). intros m k v Hv. rewrite E3 in Hv. sstall. rewrite !cell_map in Hv.
      destruct (cell xt m k) as [w|]; [|discriminate]. injection Hv as <-. eauto.
    - pose proof (IHvexec _ _ eq_refl Hn) as IH. apply terminate_char in H0. destruct H0 as (act & reason & -> & _). sst. auto.
    - pose proof (IHvexec _ _ eq_refl Hn) as IH. destruct H0 as (al & sg & la & d & _ & ->). sst. auto.
    - pose proof (IHvexec _ _ eq_refl Hn) as IH. destruct (reset_char s) as (ts & h & -> & _). sst. auto.
  Qed.
End VarMove.
