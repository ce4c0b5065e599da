(** * What the variants of CBO have in common *)
From Coq Require Import String List Arith Bool Permutation Lia.
From Verif Require Import Scalar ScalarFacts Np NpFacts State Pdyn PdynFacts PdynStep PdynRun PdynOk Exec BcFacts BestFacts
  Memory MemFacts MemFacts2 Variant VarSpec.
Import ListNotations.
Open Scope nat_scope.
Open Scope list_scope.

Section VarFacts.
  Context {K V : Type} {O : KOps K}.
  Notation F := (fl K).
  Notation st := (st K V).
  Notation cfg := (cfg K V).
  Notation orc := (orc V).

  (** the state when the inner step starts *)
  Definition pre_state (ci pi : idx) (ind : list (list nat)) (s : st) : st :=
    set_pidx pi (set_cidx ci (set_ind ind (set_xold (Some (s_x s)) s))).
  (** the state after compute_consensus *)
  Definition cons_state (ci pi : idx) ind cep en (cp : arr V) nb (xs : arr V) (s : st) : st :=
    set_energy en (set_cons (Some cp) (set_fcalls (s_fcalls s + npoints xs)
      (set_nfe (add_at (s_active s) nb (s_nfe s)) (set_cep cep (pre_state ci pi ind s))))).

  Record cons_ok (c : cfg) (o : orc) (s s0 sc : st) (ci pi : idx) (cp : arr V) : Prop := {
    co_pre : pre_step c o s = Ok s0;
    co_cons : compute_consensus c s0 = Ok sc;
    co_x : s_x sc = s_x s; co_M : s_M sc = s_M s; co_N : s_N sc = s_N s;
    co_al : s_alpha sc = s_alpha s; co_sg : s_sigma sc = s_sigma s; co_la : s_lamda sc = s_lamda s; co_dt : s_dt sc = s_dt s;
    co_it : s_it sc = s_it s; co_act : s_active sc = s_active s; co_pidx : s_pidx sc = pi; co_cidx : s_cidx sc = ci;
    co_cp : s_cons sc = Some cp; co_xold : s_xold sc = Some (s_x s);
    co_gc : gidx (s_active s) (s_M s) (s_N s) ci; co_gp : gidx (s_active s) (s_M s) (s_N s) pi;
    co_sel : forall k m, nth_error (s_active s) k = Some m ->
         sel ci k (s_N s) = run_sel c o s m /\ sel pi k (s_N s) = run_selp c o s m;
    co_lcp : length cp = length (s_active s);
    co_row : forall k m xr a, nth_error (s_active s) k = Some m -> nth_error (s_x s) m = Some xr ->
         nth_error (s_alpha s) m = Some [a] ->
         exists xb, takeM xr (run_sel c o s m) = Ok xb /\ nth_error cp k = Some (c_ccrow c (map (c_f c) xb) xb a)
  }.

  Lemma pre_cons_full : forall (c : cfg) (o : orc) (s : st), wf c s -> perm_ok o s ->
    exists s0 sc ci pi cp, cons_ok c o s s0 sc ci pi cp.
  Proof.
    intros c o s W P.
    destruct (pre_step_char c o s W P) as (ci & pi & ind & Epre & Gc & Gp & Hsel & Hind1 & Hind2).
    pose proof (incr_NoDup _ (w_act _ _ W)) as Hnd.
    assert (Hsl : forall k, k < length (s_active s) -> length (sel ci k (s_N s)) = c_bsize c).
    { intros k Hk. destruct (nth_error_lt_Some _ _ _ Hk) as [m Hm]. rewrite (proj1 (Hsel _ _ Hm)).
      apply run_sel_length; auto. apply W. eapply nth_error_In; eauto. }
    fold (pre_state ci pi ind s) in Epre.
    destruct (compute_consensus_char c (pre_state ci pi ind s)) as
      (cep' & en & cp & nb & xs & Ecc & Exs & Esv & Ren & Hcep & Lcp & Hnb & Hrow & Hinact);
      unfold pre_state in *; sstall; auto; try apply W.
    { intros. rewrite !Hsl; auto. }
    eexists _, _, ci, pi, cp. constructor; try exact Epre; try exact Ecc; sst; auto.
    intros k m xr a Hk Hx Ha.
    assert (Hm : m < s_M s) by (apply W; eapply nth_error_In; eauto).
    assert (exists er, nth_error (s_energy s) m = Some er) as [er He].
    { apply nth_error_lt_Some. rewrite (proj1 (w_e _ _ W)). auto. }
    destruct (Hrow k m xr er a Hk Hx He Ha) as (xb & er' & T1 & T2 & T3 & T4 & T5).
    rewrite (proj1 (Hsel _ _ Hk)) in T1. eauto.
  Qed.

  (** the shape of the consensus *)
  Lemma cons_rect : forall (c : cfg) o s s0 sc ci pi cp, wf c s -> perm_ok o s -> one_consensus_point c ->
    cons_ok c o s s0 sc ci pi cp -> rect (length (s_active s)) 1 cp.
  Proof.
    intros c o s s0 sc ci pi cp W P C1 H. split. { apply H. }
    intros k row Hk. assert (Hka : k < length (s_active s)) by (rewrite <- (co_lcp _ _ _ _ _ _ _ _ H); eapply nth_error_lt; eauto).
    destruct (nth_error_lt_Some _ _ _ Hka) as [m Em].
    assert (Hm : m < s_M s) by (apply W; eapply nth_error_In; eauto).
    destruct (row_at_Some c s m W Hm) as (r & _ & Ex & _ & Ea & _).
    pose proof (proj2 (w_al _ _ W) _ _ Ea) as La. destruct (r_a r) as [|a [|]] eqn:Era; try discriminate.
    destruct (co_row _ _ _ _ _ _ _ _ H _ _ _ _ Em Ex Ea) as (xb & _ & E). rewrite Hk in E. injection E as ->. apply C1.
  Qed.

  Section Generic.
    Context {E : Type} (inner : cfg -> orc -> st -> E -> res (st * E)) (attr : st -> E)
      (Q : nat -> nat -> E -> Prop) (G : cfg -> Prop).

    (** the inner step computes the consensus first, and changes x, drift and the evaluation counters only *)
    Definition regular : Prop := forall (c : cfg) o s s0 sc ci pi cp e s2 e2,
      G c -> wf c s -> perm_ok o s -> s_active s <> [] -> cons_ok c o s s0 sc ci pi cp -> Q (s_M s) (s_N s) e ->
      inner c o s0 e = Ok (s2, e2) ->
      exists x' d fc nf, s2 = set_x x' (set_drift (Some d) (set_fcalls fc (set_nfe nf sc))) /\
        length nf = length (s_nfe sc) /\ rect (s_M s) (s_N s) x' /\ Q (s_M s) (s_N s) e2.

    Hypothesis REG : regular.
    Hypothesis QA : forall (c : cfg) (s : st), wf c s -> Q (s_M s) (s_N s) (attr s).

    Lemma vstep_good : forall (c : cfg) o s e s' e', G c -> wf c s -> perm_ok o s -> s_active s <> [] -> Q (s_M s) (s_N s) e ->
      vstep inner c o (s, e) = Ok (s', e') -> good_step c o s s' /\ Q (s_M s) (s_N s) e'.
    Proof.
      intros c o s e s' e' HG W P HA HQ HS. unfold vstep in HS. cbn [fst snd] in HS.
      destruct (pre_cons_full c o s W P) as (s0 & sc & ci & pi & cp & CO).
      rewrite (co_pre _ _ _ _ _ _ _ _ CO) in HS. cbn [bind] in HS.
      apply bind_ok in HS. destruct HS as ([s2 e2] & HI & HS). cbn [fst snd] in HS.
      apply bind_ok in HS. destruct HS as (s3 & HP & HS). injection HS as <- <-.
      destruct (REG c o s s0 sc ci pi cp e s2 e2 HG W P HA CO HQ HI) as (x' & d & fc & nf & -> & L & R & HQ').
      split; auto.
      exact (inner_ok_char c o s s0 sc x' d fc nf s3 W P (co_pre _ _ _ _ _ _ _ _ CO) (co_cons _ _ _ _ _ _ _ _ CO) L R HP).
    Qed.

    Lemma vexec_inv : forall (c : cfg) n s e log, G c -> vexec inner attr c n (s, e) log -> wf c s /\ Q (s_M s) (s_N s) e.
    Proof.
      intros c n s e log HG H. remember (s, e) as p eqn:Ep. revert s e Ep.
      induction H; intros s1 e1 Ep; injection Ep as <- <-.
      - pose proof (constructed_wf _ _ H) as W. split; auto. apply (QA c); auto.
      - destruct (IHvexec _ _ eq_refl) as [W HQ].
        destruct (vstep_good c o s e s' e' HG W (perms_valid_ok _ _ H0) H1 HQ H2) as [GS HQ'].
        destruct GS as (W' & (EM & EN & _) & _). rewrite EM, EN. auto.
      - destruct (IHvexec _ _ eq_refl) as [W HQ]. split. eapply terminate_wf; eauto.
        apply terminate_char in H0. destruct H0 as (act & reason & -> & _). sst. auto.
      - destruct (IHvexec _ _ eq_refl) as [W HQ]. split. eapply params_wf; eauto.
        destruct H0 as (al & sg & la & d & _ & ->). sst. auto.
      - destruct (IHvexec _ _ eq_refl) as [W HQ]. split. apply reset_wf; auto.
        destruct (reset_char s) as (ts & h & -> & _). sst. auto.
    Qed.

    Lemma vexec_best : forall {OL : KOrd K} (c : cfg) n s e log, G c -> no_nan c -> vexec inner attr c n (s, e) log -> best_inv c s log.
    Proof.
      intros OL c n s e log HG NN H. remember (s, e) as p eqn:Ep. revert s e Ep.
      induction H; intros s1 e1 Ep; injection Ep as <- <-.
      - apply best_inv_init; auto.
      - destruct (vexec_inv _ _ _ _ _ HG H) as [W HQ].
        destruct (vstep_good c o s e s' e' HG W (perms_valid_ok _ _ H0) H1 HQ H2) as [GS _].
        eapply best_inv_step; eauto. apply perms_valid_ok; auto.
      - eapply best_inv_term; eauto.
      - destruct (vexec_inv _ _ _ _ _ HG H) as [W HQ]. eapply best_inv_params; eauto.
      - apply best_inv_reset; eauto.
    Qed.

    Lemma vexec_best_pair : forall {OL : KOrd K} (c : cfg) n s e log m be bp, G c -> no_nan c -> vexec inner attr c n (s, e) log ->
      nth_error (s_be s) m = Some be -> nth_error (s_bp s) m = Some bp ->
      (be = PInf \/ (In (m, bp) log /\ be = c_f c bp)) /\ is_minimum be (values_of c m log).
    Proof.
      intros OL c n s e log m be bp HG NN H H1 H2. destruct (vexec_inv _ _ _ _ _ HG H) as [W _].
      pose proof (vexec_best c n s e log HG NN H) as B. split.
      - eapply best_inv_pair; eauto.
      - eapply best_inv_min; eauto.
    Qed.
  End Generic.

  (** ** The inner steps are regular *)

  Definition no_cond (c : cfg) : Prop := True.
  Lemma the_cons_ok : forall (sc : st) cp, s_cons sc = Some cp -> the_cons sc = Ok cp.
  Proof. intros. unfold the_cons. rewrite H. auto. Qed.

  Lemma mirror_regular : forall gc, regular (mirror_inner gc) (fun M N (y : arr V) => rect M N y) no_cond.
  Proof.
    intros gc c o s s0 sc ci pi cp y s2 y2 _ W P HA CO HQ H. unfold mirror_inner in H.
    rewrite (co_cons _ _ _ _ _ _ _ _ CO) in H. cbn [bind] in H. rewrite (the_cons_ok _ _ (co_cp _ _ _ _ _ _ _ _ CO)) in H. cbn [bind] in H.
    apply bind_ok in H. destruct H as (xp & _ & H). apply bind_ok in H. destruct H as (d0 & _ & H).
    apply bind_ok in H. destruct H as ([d s3] & Hc & H). apply correction_ok in Hc. destruct Hc as (fc & nf & -> & Lnf).
    apply bind_ok in H. destruct H as (yp & _ & H). apply bind_ok in H. destruct H as (yp' & _ & H).
    apply bind_ok in H. destruct H as (y' & Hy & H). injection H as <- <-.
    apply scatter_shape with (M := s_M s) (N := s_N s) in Hy; auto.
    exists (map (map gc) y'), d, fc, nf. split; auto. split; auto. split; auto. apply rect_map; auto.
  Qed.

  Lemma set_same : forall (sc : st), set_fcalls (s_fcalls sc) (set_nfe (s_nfe sc) sc) = sc.
  Proof. destruct sc; auto. Qed.

  Lemma adam_regular : forall vsq vquot p,
    regular (adam_inner vsq vquot p) (fun M N (mv : arr V * arr V) => rect M N (fst mv) /\ rect M N (snd mv)) no_cond.
  Proof.
    intros vsq vquot p c o s s0 sc ci pi cp [m v] s2 [m2 v2] _ W P HA CO [Qm Qv] H. cbn [fst snd] in *. unfold adam_inner in H.
    rewrite (co_cons _ _ _ _ _ _ _ _ CO) in H. cbn [bind] in H. rewrite (the_cons_ok _ _ (co_cp _ _ _ _ _ _ _ _ CO)) in H. cbn [bind] in H.
    apply bind_ok in H. destruct H as (xp & _ & H). apply bind_ok in H. destruct H as (d & _ & H).
    apply bind_ok in H. destruct H as (mp & _ & H). apply bind_ok in H. destruct H as (mp' & _ & H).
    apply bind_ok in H. destruct H as (m' & Hm & H). apply bind_ok in H. destruct H as (vp & _ & H).
    apply bind_ok in H. destruct H as (vp' & _ & H). apply bind_ok in H. destruct H as (v' & Hv & H).
    apply bind_ok in H. destruct H as (mq & _ & H). apply bind_ok in H. destruct H as (vq & _ & H).
    apply bind_ok in H. destruct H as (q & _ & H). apply bind_ok in H. destruct H as (u & _ & H).
    apply bind_ok in H. destruct H as (xp' & _ & H). apply bind_ok in H. destruct H as (x' & Hx & H). injection H as <- <- <-.
    apply scatter_shape with (M := s_M s) (N := s_N s) in Hm; auto.
    apply scatter_shape with (M := s_M s) (N := s_N s) in Hv; auto.
    apply scatter_shape with (M := s_M s) (N := s_N s) in Hx. 2:{ rewrite (co_x _ _ _ _ _ _ _ _ CO). apply W. }
    exists x', d, (s_fcalls sc), (s_nfe sc). rewrite set_same. auto.
  Qed.

  Lemma dc_regular : forall G eps, regular (dc_inner G eps) (fun _ _ (u : unit) => True) no_cond.
  Proof.
    intros G eps c o s s0 sc ci pi cp u s2 u2 _ W P HA CO _ H. unfold dc_inner in H.
    rewrite (co_cons _ _ _ _ _ _ _ _ CO) in H. cbn [bind] in H. rewrite (the_cons_ok _ _ (co_cp _ _ _ _ _ _ _ _ CO)) in H. cbn [bind] in H.
    apply bind_ok in H. destruct H as (d & _ & H). destruct G as [g|].
    - apply bind_ok in H. destruct H as (a & _ & H). apply bind_ok in H. destruct H as (xt & _ & H).
      apply bind_ok in H. destruct H as (w & _ & H). apply bind_ok in H. destruct H as (x' & Hx & H). injection H as <- <-.
      exists x', d, (s_fcalls sc), (s_nfe sc). rewrite set_same. split; auto. split; auto. split; auto.
      eapply iop2_shape; eauto. rewrite (co_x _ _ _ _ _ _ _ _ CO). apply W.
    - apply bind_ok in H. destruct H as (xt & _ & H). injection H as <- <-.
      exists (s_x sc), d, (s_fcalls sc), (s_nfe sc). rewrite set_same. split. { destruct sc; auto. } split; auto. split; auto.
      rewrite (co_x _ _ _ _ _ _ _ _ CO). apply W.
  Qed.

  Lemma compat_le : forall M A, 1 <= A <= M -> compat M A -> bdim M A = M /\ (A = M \/ A = 1).
  Proof. unfold compat, bdim. intros M A H1 H2. destruct (Nat.eqb_spec M 1); lia. Qed.

  Lemma hyper_regular : forall S, regular (hyper_inner S) (fun _ _ (u : unit) => True) one_consensus_point.
  Proof.
    intros S c o s s0 sc ci pi cp u s2 u2 C1 W P HA CO _ H. unfold hyper_inner in H.
    rewrite (co_cons _ _ _ _ _ _ _ _ CO) in H. cbn [bind] in H. rewrite (the_cons_ok _ _ (co_cp _ _ _ _ _ _ _ _ CO)) in H. cbn [bind] in H.
    rewrite (co_x _ _ _ _ _ _ _ _ CO) in H.
    pose proof (cons_rect _ _ _ _ _ _ _ _ W P C1 CO) as Rc.
    assert (Rx : rect (s_M s) (s_N s) (s_x s)) by apply W.
    assert (HA1 : 1 <= length (s_active s)) by (destruct (s_active s); cbn; [congruence | lia]).
    assert (HA2 : length (s_active s) <= s_M s).
    { rewrite <- (seq_length (s_M s) 0). apply NoDup_incl_length. apply incr_NoDup, W.
      intros m Hm. apply in_seq. pose proof (w_actlt _ _ W m Hm). lia. }
    assert (HN : 1 <= s_N s) by apply W.
    set (A := length (s_active s)) in *. set (M := s_M s) in *. set (N := s_N s) in *.
    apply bind_ok in H. destruct H as (d & Hd & H).
    destruct (bc2_ok_inv _ _ _ _ _ _ _ M N A 1 Rx Rc ltac:(lia) HA1 Hd) as (CM & _ & Rd).
    destruct (compat_le M A ltac:(lia) CM) as [E1 E2]. rewrite E1 in Rd.
    assert (E3 : bdim N 1 = N) by (unfold bdim; destruct (Nat.eqb_spec N 1); auto). rewrite E3 in Rd.
    apply bind_ok in H. destruct H as (a & Ha & H).
    apply (bc2_ok_inv _ _ _ _ _ _ _ A 1 M N) in Ha; try lia; [| apply rect_map; auto | apply rect_amapi; auto].
    destruct Ha as (_ & _ & Ra). assert (E4 : bdim A M = M) by (unfold bdim; destruct (Nat.eqb_spec A 1); lia).
    rewrite E4 in Ra. change (bdim 1 N) with N in Ra.
    assert (E5 : forall a, bdim a a = a) by (intros; unfold bdim; destruct (_ =? _); auto).
    apply bind_ok in H. destruct H as (t & Ht & H).
    apply (bc2_ok_inv _ _ _ _ _ _ _ M N M N) in Ht; try lia; auto. destruct Ht as (_ & _ & Rt). rewrite !E5 in Rt.
    apply bind_ok in H. destruct H as (dn & Hdn & H).
    apply (bc2_ok_inv _ _ _ _ _ _ _ M N M N) in Hdn; try lia; auto. destruct Hdn as (_ & _ & Rdn). rewrite !E5 in Rdn.
    apply bind_ok in H. destruct H as (nc & Hnc & H).
    apply (bc2_ok_inv _ _ _ _ _ _ _ M N M N) in Hnc; try lia; auto. destruct Hnc as (_ & _ & Rnc). rewrite !E5 in Rnc.
    apply bind_ok in H. destruct H as (xt & Hxt & H).
    apply (bc2_ok_inv _ _ _ _ _ _ _ M N M N) in Hxt; try lia; auto. destruct Hxt as (_ & _ & Rxt). rewrite !E5 in Rxt.
    injection H as <- <-.
    exists (map (map (h_proj S)) xt), d, (s_fcalls sc), (s_nfe sc). rewrite set_same. split; auto. split; auto. split; auto.
    apply rect_map; auto.
  Qed.

  Lemma attr_unit : forall (c : cfg) (s : st), wf c s -> (fun _ _ (u : unit) => True) (s_M s) (s_N s) ((fun _ : st => tt) s).
  Proof. intros. exact I. Qed.
  Lemma attr_mirror : forall gr (c : cfg) (s : st), wf c s -> rect (s_M s) (s_N s) (mirror_attr gr s).
  Proof. intros. apply rect_map. apply H. Qed.
  Lemma attr_adam : forall z (c : cfg) (s : st), wf c s -> rect (s_M s) (s_N s) (fst (adam_attr z s)) /\ rect (s_M s) (s_N s) (snd (adam_attr z s)).
  Proof. intros. split; apply rect_map; apply H. Qed.

  (** ** The best particle of the variants *)
  Theorem mirror_best : forall {OL : KOrd K} gc gr (c : cfg) n s y log m be bp, no_nan c ->
    vexec (mirror_inner gc) (mirror_attr gr) c n (s, y) log -> nth_error (s_be s) m = Some be -> nth_error (s_bp s) m = Some bp ->
    (be = PInf \/ (In (m, bp) log /\ be = c_f c bp)) /\ is_minimum be (values_of c m log).
  Proof. intros. eapply (vexec_best_pair _ _ _ _ (mirror_regular gc) (attr_mirror gr)); eauto. exact I. Qed.
  Theorem adam_best : forall {OL : KOrd K} vsq vquot p z (c : cfg) n s mv log m be bp, no_nan c ->
    vexec (adam_inner vsq vquot p) (adam_attr z) c n (s, mv) log -> nth_error (s_be s) m = Some be -> nth_error (s_bp s) m = Some bp ->
    (be = PInf \/ (In (m, bp) log /\ be = c_f c bp)) /\ is_minimum be (values_of c m log).
  Proof. intros. eapply (vexec_best_pair _ _ _ _ (adam_regular vsq vquot p) (attr_adam z)); eauto. exact I. Qed.
  Theorem dc_best : forall {OL : KOrd K} G eps (c : cfg) n s u log m be bp, no_nan c ->
    vexec (dc_inner G eps) (fun _ => tt) c n (s, u) log -> nth_error (s_be s) m = Some be -> nth_error (s_bp s) m = Some bp ->
    (be = PInf \/ (In (m, bp) log /\ be = c_f c bp)) /\ is_minimum be (values_of c m log).
  Proof. intros. eapply (vexec_best_pair _ _ _ _ (dc_regular G eps) attr_unit); eauto. exact I. Qed.
  Theorem hyper_best : forall {OL : KOrd K} S (c : cfg) n s u log m be bp, no_nan c -> one_consensus_point c ->
    vexec (hyper_inner S) (fun _ => tt) c n (s, u) log -> nth_error (s_be s) m = Some be -> nth_error (s_bp s) m = Some bp ->
    (be = PInf \/ (In (m, bp) log /\ be = c_f c bp)) /\ is_minimum be (values_of c m log).
  Proof. intros. eapply (vexec_best_pair _ _ _ _ (hyper_regular S) attr_unit); eauto. Qed.
End VarFacts.
