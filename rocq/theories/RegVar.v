(** * RegCombinationCBO: the penalised objective, best particle, and what happens when a run terminates *)
From Coq Require Import String List Arith Bool Permutation Lia Reals.
From Verif Require Import Scalar ScalarFacts RFacts Np NpFacts State Pdyn PdynFacts PdynStep PdynRun PdynOk Exec BcFacts StepFrame
  Memory MemSpec MemFacts MemFacts2 MemFacts3 RegSched RegFacts Variant VarSpec VarFacts VarMove.
Import ListNotations.
Open Scope nat_scope.
Open Scope list_scope.

Section RegVar.
  Context {K V : Type} {O : KOps K}.
  Notation F := (fl K).
  Notation st := (st K V).
  Notation cfg := (cfg K V).
  Notation orc := (orc V).

  (** RegCombinationCBO.__init__, regcombinationcbo.py:18-22: [la] is 1/nu *)
  Definition reg_attr (la : F) (s : st) : regobj K := mkregobj la None.

  Variables (f reg : V -> F) (pow : F -> F) (la : F) (solve : option (F -> V -> V -> res V)) (eps : F).
  Notation inner := (reg_inner (reg_call f reg pow) solve eps).

  (** the configuration has the penalised objective *)
  Definition penalised (c : cfg) : Prop := forall v, c_f c v = fadd (f v) (fmul la (pow (reg v))).

  Definition reg_state (M N : nat) (o : regobj K) : Prop :=
    o_scalar o = la /\ (o_lamda o = None \/ exists A, 1 <= A <= M /\ o_lamda o = Some (repeat [la] A)).

  Lemma cell_ext : forall A M N (X Y : arr A), rect M N X -> rect M N Y -> (forall m n a, cell X m n = Some a -> cell Y m n = Some a) -> X = Y.
  Proof.
    intros A M N X Y RX RY H. apply nth_error_ext. intros m. destruct (nth_error X m) as [xr|] eqn:Ex.
    - assert (Hm : m < length Y). { rewrite (proj1 RY), <- (proj1 RX). eapply nth_error_lt; eauto. }
      destruct (nth_error_lt_Some _ _ _ Hm) as [yr Ey]. rewrite Ey. f_equal. apply nth_error_ext. intros n.
      destruct (nth_error xr n) as [a|] eqn:En.
      + specialize (H m n a). unfold cell in H. rewrite Ex, Ey in H. rewrite (H En). auto.
      + symmetry. apply nth_error_None. apply nth_error_None in En. rewrite (proj2 RY _ _ Ey), <- (proj2 RX _ _ Ex). auto.
    - symmetry. apply nth_error_None. apply nth_error_None in Ex. rewrite (proj1 RY), <- (proj1 RX). auto.
  Qed.

  Lemma nth_repeat_Some : forall A (a : A) n k, k < n -> nth_error (repeat a n) k = Some a.
  Proof. intros A a n. induction n; intros k Hk; [lia|]. destruct k; cbn; auto. apply IHn. lia. Qed.

  Lemma reg_call_same : forall (c : cfg) A N (xs : arr V) o, penalised c -> rect A N xs -> 1 <= N -> o_scalar o = la ->
    (o_lamda o = None \/ o_lamda o = Some (repeat [la] A)) ->
    reg_call f reg pow xs o = Ok (mkregobj la (Some (repeat [la] A)), map (map (c_f c)) xs).
  Proof.
    intros c A N xs [s l] PC Rx HN Es Hl. cbn [o_scalar o_lamda] in *. subst s.
    destruct (reg_call_pointwise f reg pow A N xs la l Rx HN) as (e & l' & E & Rl & H1 & H2 & Re & Hc).
    { destruct Hl as [->| ->]; auto. right. eexists. split; [reflexivity|]. apply broadcast_rect. }
    assert (El : l' = repeat [la] A). { destruct Hl as [Hl|Hl]. apply H2; auto. apply (H1 _ Hl). }
    rewrite E, El. f_equal. f_equal. apply (cell_ext _ A N); auto. apply rect_map; auto.
    intros m n a Ha. pose proof (cell_lt _ _ _ _ _ _ _ Re Ha) as [Hm Hn].
    destruct (cell_rect _ _ _ xs m n Rx Hm Hn) as [v Hv]. rewrite cell_map, Hv. cbn [option_map]. unfold cell in Hv, Ha.
    destruct (nth_error xs m) as [row|] eqn:Er; [|discriminate].
    assert (Hla : nth_error l' m = Some [la]) by (rewrite El; apply nth_repeat_Some; auto).
    destruct (Hc m n row v la Er Hv Hla) as (erow & Ee & En). rewrite Ee in Ha. rewrite En in Ha. rewrite PC. auto.
  Qed.

  Lemma reg_call_one : forall (c : cfg) A N (xs : arr V) o, penalised c -> rect A N xs -> 1 <= A -> 1 <= N -> o_scalar o = la ->
    o_lamda o = Some [[la]] -> reg_call f reg pow xs o = Ok (mkregobj la (Some [[la]]), map (map (c_f c)) xs).
  Proof.
    intros c A N xs [s l] PC Rx HA HN Es Hl. cbn [o_scalar o_lamda] in *. subst s l. unfold reg_call, broadcast_lamda. cbn [o_lamda o_scalar].
    rewrite (bc2_one_l _ _ _ _ A N) by (auto; apply rect_map; auto). cbn [bind].
    rewrite (bc2_same _ _ _ _ A N) by (repeat apply rect_map; auto). cbn [bind]. f_equal. f_equal.
    apply (cell_ext _ A N). { apply rect_map2; repeat apply rect_map; auto. } { apply rect_map; auto. }
    intros m n a Ha. rewrite cell_map2, !cell_map in Ha. rewrite cell_map. destruct (cell xs m n) as [v|]; [|discriminate].
    cbn [option_map] in *. rewrite PC. auto.
  Qed.

  Lemma msp_frame : forall (c : cfg) (s s0 : st), maybe_save_points c s = Ok s0 -> exists cep, s0 = set_cep cep s.
  Proof.
    intros c s s0 Es. unfold maybe_save_points in Es. destruct (c_savepts c). 2:{ injection Es as <-. exists (s_cep s). destruct s; auto. }
    destruct (s_cep s). 2:{ injection Es as <-. eauto. }
    apply bind_ok in Es. destruct Es as (a1 & _ & Es). apply bind_ok in Es. destruct Es as (a2 & _ & Es). injection Es as <-. eauto.
  Qed.

  Lemma cc_with_same : forall (c : cfg) s o xs A N sc, penalised c -> compute_consensus c s = Ok sc ->
    gather (s_cidx s) (s_x s) = Ok xs -> rect A N xs -> 1 <= A -> 1 <= N -> o_scalar o = la ->
    (o_lamda o = None \/ o_lamda o = Some (repeat [la] A) \/ o_lamda o = Some [[la]]) ->
    exists A1, (A1 = A \/ A1 = 1) /\ (o_lamda o = None -> A1 = A) /\ (forall l, o_lamda o = Some l -> l = repeat [la] A1) /\
      compute_consensus_with (reg_call f reg pow) c s o = Ok (sc, mkregobj la (Some (repeat [la] A1))).
  Proof.
    intros c s o xs A N sc PC Hc Hg Rx HA HN Eo Hl.
    assert (HR : exists A1, (A1 = A \/ A1 = 1) /\ (o_lamda o = None -> A1 = A) /\ (forall l, o_lamda o = Some l -> l = repeat [la] A1) /\
              reg_call f reg pow xs o = Ok (mkregobj la (Some (repeat [la] A1)), map (map (c_f c)) xs)).
    { destruct Hl as [Hl|[Hl|Hl]].
      - exists A. split; auto. split; auto. split. { intros l E. congruence. } apply (reg_call_same c A N); auto.
      - exists A. split; auto. split; auto. split. { intros l E. congruence. } apply (reg_call_same c A N); auto.
      - exists 1. split; auto. split. { congruence. } split. { intros l E. cbn. congruence. } apply (reg_call_one c A N); auto. }
    destruct HR as (A1 & H1 & H2 & H3 & HR). exists A1. split; auto. split; auto. split; auto.
    unfold compute_consensus in Hc. unfold compute_consensus_with.
    destruct (maybe_save_points c s) as [s0|] eqn:Es; [|discriminate]. cbn [bind] in *.
    destruct (msp_frame _ _ _ Es) as [cep ->]. sstall. rewrite Hg in *. cbn [bind] in *.
    rewrite HR. cbn [bind fst snd]. unfold eval_f in Hc. cbv zeta in Hc. sstall.
    destruct (takeM _ _) as [al|]; [|discriminate]. cbn [bind] in *.
    destruct (cc_call _ _ _ _) as [cpt|]; [|discriminate]. cbn [bind] in *.
    destruct (scatter _ _ _) as [en|]; [|discriminate]. cbn [bind] in *. injection Hc as <-. auto.
  Qed.

  Lemma os_cc : forall (c : cfg) e (xs : arr V) al, only_shape (cc_call c e xs al).
  Proof.
    intros. unfold cc_call. apply os_bind. apply os_bpairs. intros ea _. apply os_bind. apply os_bpairs. intros rows _.
    apply os_mapM. intros [[er ar] xr] _. intros e0 E0. destruct ar as [|a [|]]; try congruence.
    destruct (length er =? length xr); try congruence. destruct xr as [|v [|]]; congruence.
  Qed.

  (** after lamda has been broadcast to A0 >= 2 runs, the objective cannot be used with any other number of runs *)
  Lemma cc_with_raises : forall (c : cfg) o s s0 sc ci pi cp ob A0, wf c s -> perm_ok o s -> s_active s <> [] ->
    cons_ok c o s s0 sc ci pi cp -> o_lamda ob = Some (repeat [la] A0) -> 2 <= A0 <= s_M s -> A0 <> length (s_active s) ->
    compute_consensus_with (reg_call f reg pow) c s0 ob = Err ShapeError.
  Proof.
    intros c o s s0 sc ci pi cp ob A0 W P HA CO Hl HA0 Hne.
    pose proof (co_pre _ _ _ _ _ _ _ _ CO) as Epre. pose proof (co_cons _ _ _ _ _ _ _ _ CO) as Ecc.
    assert (E0 : s_active s0 = s_active s /\ s_x s0 = s_x s /\ s_energy s0 = s_energy s /\ s_alpha s0 = s_alpha s).
    { apply pre_step_frame in Epre. destruct Epre as (ci' & pi' & ind & xo & ->). sst. auto. }
    assert (Eci : s_cidx s0 = ci).
    { rewrite <- (co_cidx _ _ _ _ _ _ _ _ CO). apply compute_consensus_frame in Ecc. destruct Ecc as (cep & e & cp' & fc & nf & ->). sst. auto. }
    destruct E0 as (E0a & E0x & E0e & E0al).
    unfold compute_consensus in Ecc. unfold compute_consensus_with.
    destruct (maybe_save_points c s0) as [s1|] eqn:Es; [|discriminate]. cbn [bind] in *.
    destruct (msp_frame _ _ _ Es) as [cep ->]. sstall.
    destruct (gather_rect _ (s_active s) (s_M s) (s_N s) (c_bsize c) ci (s_x s)) as (xs & Exs & Rxs).
    { apply CO. } { apply W. } { apply W. }
    { intros k Hk. destruct (nth_error_lt_Some _ _ _ Hk) as [m Hm]. rewrite (proj1 (co_sel _ _ _ _ _ _ _ _ CO _ _ Hm)).
      apply run_sel_length; auto. apply W. eapply nth_error_In; eauto. }
    rewrite Eci, E0x, Exs in *. cbn [bind] in *. destruct ob as [sc' lm]. cbn [o_lamda] in Hl. subst lm.
    pose proof (active_bounds _ _ W) as HB. assert (HA1 : 1 <= length (s_active s)) by (destruct (s_active s); cbn; [congruence|lia]).
    assert (Hb : 1 <= c_bsize c) by apply W.
    destruct (reg_call_fewer f reg pow A0 (length (s_active s)) (c_bsize c) xs sc' (repeat [la] A0) (broadcast_rect A0 la) Rxs Hb) as [R1 R2].
    destruct (Nat.eq_dec (length (s_active s)) 1) as [E1|E1].
    - destruct (R2 E1) as (e & Er & Re). { lia. } match goal with |- bind ?r _ = _ => replace r with (Ok (mkregobj sc' (Some (repeat [la] A0)), e)) by (symmetry; exact Er) end. cbn [bind fst snd]. unfold eval_f in Ecc. cbv zeta in Ecc. sstall.
      destruct (takeM _ _) as [al|]; [|discriminate]. cbn [bind] in *. sstall.
      destruct (cc_call c e xs al) as [cpt|er] eqn:Ecp; [|cbn [bind]; f_equal; exact (os_cc c e xs al er Ecp)]. cbn [bind].
      rewrite E0e.
      assert (OS : only_shape (scatter ci (s_energy s) e)). { eapply os_scatter; [apply CO| |]; apply W. }
      destruct (scatter ci (s_energy s) e) as [en|er] eqn:En; [|cbn [bind]; f_equal; auto].
      exfalso. pose proof (scatter_ok_rows _ _ _ _ _ _ _ _ (co_gc _ _ _ _ _ _ _ _ CO) (w_e _ _ W) En) as [Q|Q]; rewrite (proj1 Re) in Q; lia.
    - assert (RB : reg_call f reg pow xs (mkregobj sc' (Some (repeat [la] A0))) = Err ShapeError).
      { unfold reg_call, broadcast_lamda. cbn [o_lamda]. rewrite bc2_incompat_rows; auto.
        rewrite repeat_length, map_length, (proj1 Rxs). unfold compat. lia. }
      match goal with |- bind ?r _ = _ => replace r with (Err (A := regobj K * arr F) ShapeError) by (symmetry; exact RB) end. auto.
  Qed.

  Definition reg_cond (c : cfg) : Prop := penalised c /\ one_consensus_point c.

  Lemma cons_gather : forall (c : cfg) o s s0 sc ci pi cp, wf c s -> perm_ok o s -> cons_ok c o s s0 sc ci pi cp ->
    exists xs, gather (s_cidx s0) (s_x s0) = Ok xs /\ rect (length (s_active s)) (c_bsize c) xs.
  Proof.
    intros c o s s0 sc ci pi cp W P CO.
    pose proof (co_pre _ _ _ _ _ _ _ _ CO) as Epre. pose proof (co_cons _ _ _ _ _ _ _ _ CO) as Ecc.
    assert (E0x : s_x s0 = s_x s).
    { apply pre_step_frame in Epre. destruct Epre as (ci' & pi' & ind & xo & ->). sst. auto. }
    assert (Eci : s_cidx s0 = ci).
    { rewrite <- (co_cidx _ _ _ _ _ _ _ _ CO). apply compute_consensus_frame in Ecc. destruct Ecc as (cep & e & cp' & fc & nf & ->). sst. auto. }
    rewrite Eci, E0x. apply (gather_rect _ (s_active s) (s_M s) (s_N s)).
    { apply CO. } { apply W. } { apply W. }
    intros k Hk. destruct (nth_error_lt_Some _ _ _ Hk) as [m Hm]. rewrite (proj1 (co_sel _ _ _ _ _ _ _ _ CO _ _ Hm)).
    apply run_sel_length; auto. apply W. eapply nth_error_In; eauto.
  Qed.

  Lemma reg_cc_ok : forall (c : cfg) o s s0 sc ci pi cp ob r, penalised c -> wf c s -> perm_ok o s -> s_active s <> [] ->
    cons_ok c o s s0 sc ci pi cp -> reg_state (s_M s) (s_N s) ob ->
    compute_consensus_with (reg_call f reg pow) c s0 ob = Ok r ->
    exists A1, 1 <= A1 <= s_M s /\ (o_lamda ob = None -> A1 = length (s_active s)) /\ (forall l, o_lamda ob = Some l -> l = repeat [la] A1) /\
      r = (sc, mkregobj la (Some (repeat [la] A1))).
  Proof.
    intros c o s s0 sc ci pi cp ob r PC W P HA CO [Es Hl] H.
    pose proof (active_bounds _ _ W) as HB. assert (HA1 : 1 <= length (s_active s)) by (destruct (s_active s); cbn; [congruence|lia]).
    destruct (cons_gather _ _ _ _ _ _ _ _ W P CO) as (xs & Exs & Rxs). assert (Hb : 1 <= c_bsize c) by apply W.
    assert (HC : o_lamda ob = None \/ o_lamda ob = Some (repeat [la] (length (s_active s))) \/ o_lamda ob = Some [[la]]).
    { destruct Hl as [Hl|(A0 & HA0 & Hl)]; auto. destruct (Nat.eq_dec A0 1) as [->|N1]; auto.
      destruct (Nat.eq_dec A0 (length (s_active s))) as [->|N2]; auto.
      rewrite (cc_with_raises _ _ _ _ _ _ _ _ _ A0 W P HA CO Hl) in H; auto; try lia. discriminate. }
    destruct (cc_with_same c s0 ob xs (length (s_active s)) (c_bsize c) sc PC (co_cons _ _ _ _ _ _ _ _ CO) Exs Rxs HA1 Hb Es HC)
      as (A1 & H1 & H2 & H3 & H4).
    rewrite H in H4. injection H4 as ->. exists A1. split. lia. auto.
  Qed.

  Lemma reg_regular : regular inner reg_state reg_cond.
  Proof.
    intros c o s s0 sc ci pi cp ob s2 ob2 [PC C1] W P HA CO HQ H. unfold reg_inner in H.
    apply bind_ok in H. destruct H as ([sc' ob'] & HC & H).
    destruct (reg_cc_ok _ _ _ _ _ _ _ _ _ _ PC W P HA CO HQ HC) as (A1 & HA1 & _ & _ & E). injection E as -> ->. clear HC.
    rewrite (the_cons_ok _ _ (co_cp _ _ _ _ _ _ _ _ CO)) in H. cbn [bind] in H. rewrite (co_x _ _ _ _ _ _ _ _ CO) in H.
    pose proof (cons_rect _ _ _ _ _ _ _ _ W P C1 CO) as Rc.
    assert (Rx : rect (s_M s) (s_N s) (s_x s)) by apply W.
    assert (HB1 : 1 <= length (s_active s)) by (destruct (s_active s); cbn; [congruence | lia]).
    pose proof (active_bounds _ _ W) as HB2. assert (HN : 1 <= s_N s) by apply W.
    set (A := length (s_active s)) in *. set (M := s_M s) in *. set (N := s_N s) in *.
    assert (E5 : forall a, bdim a a = a) by (intros; unfold bdim; destruct (_ =? _); auto).
    apply bind_ok in H. destruct H as (d & Hd & H).
    destruct (bc2_ok_inv _ _ _ _ _ _ _ M N A 1 Rx Rc ltac:(lia) HB1 Hd) as (CM & _ & Rd).
    destruct (compat_le M A ltac:(lia) CM) as [E1 E2]. rewrite E1 in Rd.
    assert (E3 : bdim N 1 = N) by (unfold bdim; destruct (Nat.eqb_spec N 1); auto). rewrite E3 in Rd.
    apply bind_ok in H. destruct H as (a & Ha & H).
    apply (bc2_ok_inv _ _ _ _ _ _ _ M N M N) in Ha; try lia; auto; [|apply rect_map; auto]. destruct Ha as (_ & _ & Ra). rewrite !E5 in Ra.
    apply bind_ok in H. destruct H as (xt & Hxt & H).
    apply (bc2_ok_inv _ _ _ _ _ _ _ M N M N) in Hxt; try lia; auto; [|apply rect_amapi; auto]. destruct Hxt as (_ & _ & Rxt). rewrite !E5 in Rxt.
    apply bind_ok in H. destruct H as (x' & Hx' & H). injection H as <- <-.
    assert (Rx' : rect M N x').
    { destruct solve as [g|].
      - unfold solve_all in Hx'. rewrite (bc2_same _ _ _ _ M N) in Hx' by auto. cbn [bind] in Hx'.
        eapply mapM_rect; [exact Hx'|]. apply rect_map2; auto.
      - injection Hx' as <-. auto. }
    exists x', d, (s_fcalls sc), (s_nfe sc). rewrite set_same. split; auto. split; auto. split; auto.
    split; auto. right. exists A1. auto.
  Qed.

  Lemma reg_attr_ok : forall (c : cfg) (s : st), wf c s -> reg_state (s_M s) (s_N s) (reg_attr la s).
  Proof. intros. split; auto. Qed.

  Theorem reg_best : forall {OL : KOrd K} (c : cfg) n s ob log m be bp, no_nan c -> penalised c -> one_consensus_point c ->
    vexec inner (reg_attr la) c n (s, ob) log -> nth_error (s_be s) m = Some be -> nth_error (s_bp s) m = Some bp ->
    (be = PInf \/ (In (m, bp) log /\ be = c_f c bp)) /\ is_minimum be (values_of c m log).
  Proof. intros. eapply (vexec_best_pair _ _ _ _ reg_regular reg_attr_ok); eauto. split; auto. Qed.

  (** once lamda has been broadcast, a step with fewer active runs raises *)
  Theorem reg_raises : forall (c : cfg) n s ob log o l, penalised c -> one_consensus_point c ->
    vexec inner (reg_attr la) c n (s, ob) log -> o_lamda ob = Some l -> length l = s_M s -> 2 <= s_M s ->
    1 <= length (s_active s) < s_M s -> perms_valid o s ->
    vstep inner c o (s, ob) = Err ShapeError.
  Proof.
    intros c n s ob log o l PC C1 H Hl HM H2 HA P.
    destruct (vexec_inv _ _ _ _ reg_regular reg_attr_ok c n s ob log (conj PC C1) H) as [W [Es HQ]].
    destruct HQ as [HQ|(A0 & HA0 & HQ)]; [congruence|]. rewrite HQ in Hl. injection Hl as <-. rewrite repeat_length in HM.
    destruct (pre_cons_full c o s W (perms_valid_ok _ _ P)) as (s0 & sc & ci & pi & cp & CO).
    assert (HA' : s_active s <> []) by (destruct (s_active s); cbn in HA; [lia|discriminate]).
    unfold vstep. cbn [fst snd]. rewrite (co_pre _ _ _ _ _ _ _ _ CO). cbn [bind]. unfold reg_inner.
    rewrite (cc_with_raises _ _ _ _ _ _ _ _ _ A0 W (perms_valid_ok _ _ P) HA' CO HQ); auto; lia.
  Qed.

  (** the first step broadcasts lamda to the number of active runs, and it never changes again *)
  Theorem reg_lamda : forall (c : cfg) n s ob log o s' ob', penalised c -> one_consensus_point c ->
    vexec inner (reg_attr la) c n (s, ob) log -> perms_valid o s -> s_active s <> [] ->
    vstep inner c o (s, ob) = Ok (s', ob') ->
    exists l, o_lamda ob' = Some l /\ (forall l0, o_lamda ob = Some l0 -> l = l0) /\
      (o_lamda ob = None -> length l = length (s_active s)) /\ (n = 0 -> o_lamda ob = None).
  Proof.
    intros c n s ob log o s' ob' PC C1 H P HA HS.
    destruct (vexec_inv _ _ _ _ reg_regular reg_attr_ok c n s ob log (conj PC C1) H) as [W HQ].
    destruct (pre_cons_full c o s W (perms_valid_ok _ _ P)) as (s0 & sc & ci & pi & cp & CO).
    apply vstep_inv in HS. destruct HS as (s0' & s2 & E1 & E2 & E3). rewrite (co_pre _ _ _ _ _ _ _ _ CO) in E1. injection E1 as <-.
    unfold reg_inner in E2. apply bind_ok in E2. destruct E2 as ([sc' ob1] & HC & E2).
    destruct (reg_cc_ok _ _ _ _ _ _ _ _ _ _ PC W (perms_valid_ok _ _ P) HA CO HQ HC) as (A1 & HA1 & F1 & F2 & E). injection E as -> ->.
    apply bind_ok in E2. destruct E2 as (cpt & _ & E2). apply bind_ok in E2. destruct E2 as (d & _ & E2).
    apply bind_ok in E2. destruct E2 as (a & _ & E2). apply bind_ok in E2. destruct E2 as (xt & _ & E2).
    apply bind_ok in E2. destruct E2 as (x' & _ & E2). injection E2 as <- <-. cbn [o_lamda].
    exists (repeat [la] A1). split; auto. split. { intros l0 E. symmetry. auto. }
    split. { intros E. rewrite repeat_length. auto. }
    clear - H. intros ->. remember 0 as n0. remember (s, ob) as p eqn:Ep. revert s ob Ep.
    induction H; intros s1 e1 Ep; injection Ep as <- <-; auto; try discriminate; eapply IHvexec; eauto.
  Qed.
End RegVar.
