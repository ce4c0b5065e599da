(** * The steps of MirrorCBO, AdamCBO, DriftConstrainedCBO and RegCombinationCBO do not fail *)
From Coq Require Import String List Arith Bool Permutation Lia.
From Verif Require Import Scalar ScalarFacts Np NpFacts State Pdyn PdynFacts PdynStep PdynRun PdynOk Exec BcFacts BestFacts
  Memory MemFacts MemFacts2 RegSched Variant VarSpec VarFacts VarMove RegVar HeaviFacts AdamFacts VarExact HyperTotal.
Import ListNotations.
Open Scope nat_scope.
Open Scope list_scope.

Section Total.
  Context {K V : Type} {O : KOps K}.
  Notation F := (fl K).
  Notation st := (st K V).
  Notation cfg := (cfg K V).
  Notation orc := (orc V).

  Lemma vstep_from_inner : forall E (inner : cfg -> orc -> st -> E -> res (st * E)) (c : cfg) o s s0 sc ci pi cp e x' d e2,
    wf c s -> perm_ok o s -> cons_ok c o s s0 sc ci pi cp -> inner c o s0 e = Ok (set_x x' (set_drift (Some d) sc), e2) ->
    rect (s_M s) (s_N s) x' -> exists s', vstep inner c o (s, e) = Ok (s', e2).
  Proof.
    intros E inner c o s s0 sc ci pi cp e x' d e2 W P CO HI Rx.
    unfold vstep. cbn [fst snd]. rewrite (co_pre _ _ _ _ _ _ _ _ CO). cbn [bind]. rewrite HI. cbn [bind fst snd].
    destruct (post_total c o s s0 sc ci pi cp x' d (s_fcalls sc) (s_nfe sc) W P CO Rx) as (s' & E').
    rewrite set_same in E'. rewrite E'. cbn [bind]. eauto.
  Qed.

  (** particles minus a consensus point per run *)
  Lemma drift_col : forall (f : V -> V -> V) M N X C, rect M N X -> rect M 1 C -> 1 <= N ->
    exists d, bc2 f X C = Ok d /\ rect M N d.
  Proof.
    intros f M N X C RX RC HN. destruct (bc2_compat _ _ _ f X C _ _ _ _ RX RC) as (d & Hd & Rd); [left; auto|right; right; auto|].
    exists d. split; auto.
    replace (bdim M M) with M in Rd by (unfold bdim; destruct (M =? 1); auto).
    replace (bdim N 1) with N in Rd by (unfold bdim; destruct (Nat.eqb_spec N 1); lia). auto.
  Qed.
  Lemma selp_positive : forall (c : cfg) o s s0 sc ci pi cp, wf c s -> perm_ok o s -> cons_ok c o s s0 sc ci pi cp ->
    exists nb, 1 <= nb /\ selects (s_active s) (s_N s) nb pi.
  Proof.
    intros c o s s0 sc ci pi cp W P CO. exists (if c_bsize c =? s_N s then s_N s else if c_partial c then c_bsize c else s_N s). split.
    - pose proof (w_N _ _ W). pose proof (w_bs _ _ W). destruct (_ =? _); auto. destruct (c_partial c); auto. lia.
    - intros k Hk. destruct (nth_error_lt_Some _ _ _ Hk) as [r Hr]. rewrite (proj2 (co_sel _ _ _ _ _ _ _ _ CO _ _ Hr)).
      apply selp_len; auto. apply (w_actlt _ _ W). eapply nth_error_In; eauto.
  Qed.
  Lemma iop2_rect : forall A B (f : A -> B -> A) M N X Y, rect M N X -> rect M N Y -> iop2 f X Y = Ok (map2 (map2 f) X Y).
  Proof.
    intros A B f M N X Y RX RY. apply iop2_same. { rewrite (proj1 RX), (proj1 RY). auto. }
    intros k x y Hx Hy. rewrite (proj2 RX _ _ Hx), (proj2 RY _ _ Hy). auto.
  Qed.

  Theorem mirror_total : forall gc gr (c : cfg) n s y log o, one_consensus_point c -> c_corr c = NoCorr ->
    vexec (mirror_inner gc) (mirror_attr gr) c n (s, y) log -> perms_valid o s ->
    exists s' y', vstep (mirror_inner gc) c o (s, y) = Ok (s', y').
  Proof.
    intros gc gr c n s y log o C1 NC H P0. pose proof (perms_valid_ok _ _ P0) as P.
    destruct (mirror_inv _ _ _ _ _ _ _ H) as [W Ry].
    destruct (pre_cons_full c o s W P) as (s0 & sc & ci & pi & cps & CO).
    pose proof (cons_rect _ _ _ _ _ _ _ _ W P C1 CO) as Rc. pose proof (w_x _ _ W) as Rx.
    destruct (selp_positive _ _ _ _ _ _ _ _ W P CO) as (nb & Hnb & S).
    pose proof (co_gp _ _ _ _ _ _ _ _ CO) as Gp.
    assert (L : forall r, In r (s_active s) -> r < s_M s) by apply W.
    assert (D : NoDup (s_active s)) by (apply incr_NoDup, W).
    destruct (gather_sel _ _ _ _ _ _ _ Gp L Rx S) as (xp & Exp & Rxp & _).
    destruct (gather_sel _ _ _ _ _ _ _ Gp L Ry S) as (yp & Eyp & Ryp & _).
    destruct (drift_col (c_vsub c) _ _ _ _ Rxp Rc Hnb) as (d & Ed & Rd).
    set (upd := amapi (fun k n v => cbo_update c v (s_lamda sc) (s_dt sc) (s_sigma sc) (c_noise c (s_dt sc) v (o_z o k n))) d).
    assert (RU : rect (length (s_active s)) nb upd) by (apply rect_amapi; auto).
    destruct (scatter_rect _ _ _ _ _ _ y (map2 (map2 (c_vadd c)) yp upd) Gp D L Ry S (rect_map2 _ _ _ _ _ _ _ _ Ryp RU)) as (y' & Ey' & Ry').
    assert (HI : mirror_inner gc c o s0 y = Ok (set_x (map (map gc) y') (set_drift (Some d) sc), y')).
    { unfold mirror_inner. rewrite (co_cons _ _ _ _ _ _ _ _ CO). cbn [bind]. rewrite (the_cons_ok _ _ (co_cp _ _ _ _ _ _ _ _ CO)). cbn [bind].
      rewrite (co_pidx _ _ _ _ _ _ _ _ CO), (co_x _ _ _ _ _ _ _ _ CO), Exp. cbn [bind]. rewrite Ed. cbn [bind].
      unfold correction. rewrite NC. cbn [bind]. rewrite (co_pidx _ _ _ _ _ _ _ _ CO), Eyp. cbn [bind].
      rewrite (iop2_rect _ _ _ _ _ _ _ Ryp RU). cbn [bind]. rewrite Ey'. reflexivity. }
    destruct (vstep_from_inner _ _ _ _ _ _ _ _ _ _ _ _ _ _ W P CO HI) as (s' & E'). { apply rect_map; auto. } eauto.
  Qed.

  Theorem adam_total : forall vsq vquot p z (c : cfg) n s mv log o, one_consensus_point c ->
    vexec (adam_inner vsq vquot p) (adam_attr z) c n (s, mv) log -> perms_valid o s ->
    exists s' mv', vstep (adam_inner vsq vquot p) c o (s, mv) = Ok (s', mv').
  Proof.
    intros vsq vquot p z c n s [mm vv] log o C1 H P0. pose proof (perms_valid_ok _ _ P0) as P.
    destruct (vexec_inv _ _ _ _ (adam_regular vsq vquot p) (attr_adam z) c n s _ log I H) as [W [Rm Rv]]. cbn [fst snd] in *.
    destruct (pre_cons_full c o s W P) as (s0 & sc & ci & pi & cps & CO).
    pose proof (cons_rect _ _ _ _ _ _ _ _ W P C1 CO) as Rc. pose proof (w_x _ _ W) as Rx.
    destruct (selp_positive _ _ _ _ _ _ _ _ W P CO) as (nb & Hnb & S).
    pose proof (co_gp _ _ _ _ _ _ _ _ CO) as Gp.
    assert (L : forall r, In r (s_active s) -> r < s_M s) by apply W.
    assert (D : NoDup (s_active s)) by (apply incr_NoDup, W).
    destruct (gather_sel _ _ _ _ _ _ _ Gp L Rx S) as (xp & Exp & Rxp & _).
    destruct (gather_sel _ _ _ _ _ _ _ Gp L Rm S) as (mp & Emp & Rmp & _).
    destruct (gather_sel _ _ _ _ _ _ _ Gp L Rv S) as (vp & Evp & Rvp & _).
    destruct (drift_col (c_vsub c) _ _ _ _ Rxp Rc Hnb) as (d & Ed & Rd).
    set (A := length (s_active s)) in *.
    set (mp' := map2 (map2 (c_vadd c)) (map (map (c_vscale c (a_b0 p))) mp) (map (map (c_vscale c (fsub (Fin k1) (a_b0 p)))) d)).
    assert (Rmp' : rect A nb mp') by (apply rect_map2; apply rect_map; auto).
    set (vp' := map2 (map2 (c_vadd c)) (map (map (c_vscale c (a_b1 p))) vp) (map (map (fun dr => c_vscale c (fsub (Fin k1) (a_b1 p)) (vsq dr))) d)).
    assert (Rvp' : rect A nb vp') by (apply rect_map2; apply rect_map; auto).
    destruct (scatter_rect _ _ _ _ _ _ mm mp' Gp D L Rm S Rmp') as (m' & Em' & Rm').
    destruct (scatter_rect _ _ _ _ _ _ vv vp' Gp D L Rv S Rvp') as (v' & Ev' & Rv').
    destruct (gather_sel _ _ _ _ _ _ _ Gp L Rm' S) as (mq & Emq & Rmq & _).
    destruct (gather_sel _ _ _ _ _ _ _ Gp L Rv' S) as (vq & Evq & Rvq & _).
    set (mf := fdiv (Fin k1) (fsub (Fin k1) (fpow (a_b0 p) (Datatypes.S (s_it sc))))).
    set (vf := fdiv (Fin k1) (fsub (Fin k1) (fpow (a_b1 p) (Datatypes.S (s_it sc))))).
    set (q := map2 (map2 (vquot (a_eps p))) (map (map (c_vscale c mf)) mq) (map (map (c_vscale c vf)) vq)).
    assert (Rq : rect A nb q) by (apply rect_map2; apply rect_map; auto).
    set (noise := amapi (fun k n dr => c_vscale c (s_sigma sc) (c_noise c (s_dt sc) dr (o_z o k n))) d).
    assert (Rn : rect A nb noise) by (apply rect_amapi; auto).
    set (u := map2 (map2 (c_vsub c)) (map (map (c_vscale c (s_lamda sc))) q) noise).
    assert (Ru : rect A nb u) by (apply rect_map2; [apply rect_map|]; auto).
    destruct (scatter_rect _ _ _ _ _ _ (s_x s) (map2 (map2 (c_vsub c)) xp u) Gp D L Rx S (rect_map2 _ _ _ _ _ _ _ _ Rxp Ru)) as (x' & Ex' & Rx').
    assert (HI : adam_inner vsq vquot p c o s0 (mm, vv) = Ok (set_x x' (set_drift (Some d) sc), (m', v'))).
    { unfold adam_inner. rewrite (co_cons _ _ _ _ _ _ _ _ CO). cbn [bind]. rewrite (the_cons_ok _ _ (co_cp _ _ _ _ _ _ _ _ CO)). cbn [bind].
      rewrite (co_pidx _ _ _ _ _ _ _ _ CO), (co_x _ _ _ _ _ _ _ _ CO), Exp. cbn [bind]. rewrite Ed. cbn [bind]. rewrite Emp. cbn [bind].
      rewrite (bc2_same _ _ _ _ A nb) by (apply rect_map; auto). cbn [bind]. fold mp'. rewrite Em'. cbn [bind]. rewrite Evp. cbn [bind].
      rewrite (bc2_same _ _ _ _ A nb) by (apply rect_map; auto). cbn [bind]. fold vp'. rewrite Ev'. cbn [bind]. rewrite Emq. cbn [bind]. rewrite Evq. cbn [bind].
      fold mf vf. rewrite (bc2_same _ _ _ _ A nb) by (apply rect_map; auto). cbn [bind]. fold q. fold noise.
      rewrite (bc2_same _ _ _ _ A nb) by (auto; apply rect_map; auto). cbn [bind]. fold u.
      rewrite (iop2_rect _ _ _ _ _ _ _ Rxp Ru). cbn [bind]. rewrite Ex'. reflexivity. }
    destruct (vstep_from_inner _ _ _ _ _ _ _ _ _ _ _ _ _ _ W P CO HI Rx') as (s' & E'). eauto.
  Qed.

  Lemma mapM_total : forall A B (f : A -> res B) l, (forall a, exists b, f a = Ok b) -> exists r, mapM f l = Ok r.
  Proof.
    intros A B f l Hf. induction l as [|a l (r & IH)]; [eexists; reflexivity|]. destruct (Hf a) as (b & Hb). cbn [mapM]. rewrite Hb. cbn [bind]. rewrite IH. cbn [bind]. eauto.
  Qed.
  Lemma solve_all_total : forall (g : V -> V -> res V) M N X Y, rect M N X -> rect M N Y -> (forall x y, exists w, g x y = Ok w) ->
    exists Z, solve_all g X Y = Ok Z /\ rect M N Z.
  Proof.
    intros g M N X Y RX RY Hg. unfold solve_all. rewrite (bc2_same _ _ _ _ M N) by auto. cbn [bind].
    destruct (mapM_total _ _ (mapM (fun p => g (fst p) (snd p))) (map2 (map2 pair) X Y)) as (Z & HZ).
    { intros row. apply mapM_total. intros [x y]. apply Hg. }
    exists Z. split; auto. eapply mapM_rect; [exact HZ|]. apply rect_map2; auto.
  Qed.

  Theorem dc_total : forall G eps (c : cfg) n s u log o, one_consensus_point c ->
    (forall g, G = Some g -> forall x y, exists w, g_solve g (fdiv (s_dt s) eps) x y = Ok w) ->
    vexec (dc_inner G eps) (fun _ => tt) c n (s, u) log -> perms_valid o s -> length (s_active s) = s_M s ->
    exists s', vstep (dc_inner G eps) c o (s, u) = Ok (s', u).
  Proof.
    intros G eps c n s u log o C1 HG H P0 HA. pose proof (perms_valid_ok _ _ P0) as P.
    destruct (vexec_inv _ _ _ _ (dc_regular G eps) attr_unit c n s u log I H) as [W _].
    destruct (pre_cons_full c o s W P) as (s0 & sc & ci & pi & cps & CO).
    pose proof (cons_rect _ _ _ _ _ _ _ _ W P C1 CO) as Rc. rewrite HA in Rc. pose proof (w_x _ _ W) as Rx.
    destruct (drift_col (c_vsub c) _ _ _ _ Rx Rc (w_N _ _ W)) as (d & Ed & Rd).
    assert (HI : exists x', dc_inner G eps c o s0 u = Ok (set_x x' (set_drift (Some d) sc), u) /\ rect (s_M s) (s_N s) x').
    { unfold dc_inner. rewrite (co_cons _ _ _ _ _ _ _ _ CO). cbn [bind]. rewrite (the_cons_ok _ _ (co_cp _ _ _ _ _ _ _ _ CO)). cbn [bind].
      rewrite (co_x _ _ _ _ _ _ _ _ CO), Ed. cbn [bind]. set (noise := amapi _ d). assert (Rn : rect (s_M s) (s_N s) noise) by (apply rect_amapi; auto).
      destruct G as [g|].
      - rewrite (bc2_same _ _ _ _ (s_M s) (s_N s)) by (apply rect_map; auto). cbn [bind].
        match goal with |- context [bc2 _ ?a noise] => set (a' := a) end. assert (Ra : rect (s_M s) (s_N s) a') by (apply rect_map2; apply rect_map; auto).
        rewrite (bc2_same _ _ _ _ (s_M s) (s_N s)) by auto. cbn [bind].
        destruct (solve_all_total (g_solve g (fdiv (s_dt sc) eps)) (s_M s) (s_N s) (s_x s) (map2 (map2 (c_vadd c)) a' noise) Rx (rect_map2 _ _ _ _ _ _ _ _ Ra Rn)) as (w & Ew & Rw).
        { intros x y. rewrite (co_dt _ _ _ _ _ _ _ _ CO). apply (HG g eq_refl). }
        rewrite Ew. cbn [bind]. rewrite (iop2_rect _ _ _ _ _ _ _ Rx Rw). cbn [bind]. eexists. split; [reflexivity|]. apply rect_map2; auto.
      - rewrite (bc2_same _ _ _ _ (s_M s) (s_N s)) by (auto; apply rect_map; auto). cbn [bind]. exists (s_x sc). split.
        { destruct sc; reflexivity. } rewrite (co_x _ _ _ _ _ _ _ _ CO). auto. }
    destruct HI as (x' & HI & Rx').
    exact (vstep_from_inner _ _ _ _ _ _ _ _ _ _ _ _ _ _ W P CO HI Rx').
  Qed.

  Theorem reg_total : forall f reg pow la solve eps (c : cfg) n s ob log o, penalised f reg pow la c -> one_consensus_point c ->
    (forall g, solve = Some g -> forall x y, exists w, g (fdiv (s_dt s) eps) x y = Ok w) ->
    vexec (reg_inner (reg_call f reg pow) solve eps) (reg_attr la) c n (s, ob) log -> perms_valid o s -> 1 <= s_M s -> length (s_active s) = s_M s ->
    (forall lm, o_lamda ob = Some lm -> length lm = s_M s) ->
    exists s' ob', vstep (reg_inner (reg_call f reg pow) solve eps) c o (s, ob) = Ok (s', ob') /\ forall lm, o_lamda ob' = Some lm -> length lm = s_M s.
  Proof.
    intros f reg pow la solve eps c n s ob log o PC C1 HG H P0 HM HA Hob. pose proof (perms_valid_ok _ _ P0) as P.
    destruct (vexec_inv _ _ _ _ (reg_regular f reg pow la solve eps) (reg_attr_ok la) c n s ob log (conj PC C1) H) as [W [Hsc Hlm]].
    destruct (pre_cons_full c o s W P) as (s0 & sc & ci & pi & cps & CO).
    pose proof (cons_rect _ _ _ _ _ _ _ _ W P C1 CO) as Rc. rewrite HA in Rc. pose proof (w_x _ _ W) as Rx.
    destruct (drift_col (c_vsub c) _ _ _ _ Rx Rc (w_N _ _ W)) as (d & Ed & Rd).
    destruct (cons_gather _ _ _ _ _ _ _ _ W P CO) as (xs & Exs & Rxs). rewrite HA in Rxs.
    assert (HC : o_lamda ob = None \/ o_lamda ob = Some (repeat [la] (s_M s)) \/ o_lamda ob = Some [[la]]).
    { destruct Hlm as [Hl|(A0 & HA0 & Hl)]; auto. pose proof (Hob _ Hl) as E. rewrite repeat_length in E. subst A0. auto. }
    assert (Hb : 1 <= c_bsize c) by apply W.
    destruct (cc_with_same f reg pow la c s0 ob xs (s_M s) (c_bsize c) sc PC (co_cons _ _ _ _ _ _ _ _ CO) Exs Rxs HM Hb Hsc HC) as (A1 & _ & Hn1 & Hn2 & Ecc).
    assert (HA1 : A1 = s_M s). { destruct (o_lamda ob) as [lm|] eqn:El; [|auto]. rewrite <- (Hob _ eq_refl), (Hn2 _ eq_refl), repeat_length. auto. } subst A1. clear Hn1 Hn2.
    assert (HI : exists x' ob', reg_inner (reg_call f reg pow) solve eps c o s0 ob = Ok (set_x x' (set_drift (Some d) sc), ob') /\ rect (s_M s) (s_N s) x' /\ forall lm, o_lamda ob' = Some lm -> length lm = s_M s).
    { unfold reg_inner. rewrite Ecc. cbn [bind]. rewrite (the_cons_ok _ _ (co_cp _ _ _ _ _ _ _ _ CO)). cbn [bind].
      rewrite (co_x _ _ _ _ _ _ _ _ CO), Ed. cbn [bind]. set (noise := amapi _ d). assert (Rn : rect (s_M s) (s_N s) noise) by (apply rect_amapi; auto).
      rewrite (bc2_same _ _ _ _ (s_M s) (s_N s)) by (auto; apply rect_map; auto). cbn [bind].
      match goal with |- context [bc2 _ ?a noise] => set (a' := a) end. assert (Ra : rect (s_M s) (s_N s) a') by (apply rect_map2; [|apply rect_map]; auto).
      rewrite (bc2_same _ _ _ _ (s_M s) (s_N s)) by auto. cbn [bind].
      destruct solve as [g|].
      - destruct (solve_all_total (g (fdiv (s_dt sc) eps)) (s_M s) (s_N s) (s_x s) (map2 (map2 (c_vadd c)) a' noise) Rx (rect_map2 _ _ _ _ _ _ _ _ Ra Rn)) as (w & Ew & Rw).
        { intros x y. rewrite (co_dt _ _ _ _ _ _ _ _ CO). apply (HG g eq_refl). }
        rewrite Ew. cbn [bind]. eexists _, _. split; [reflexivity|]. split; auto. intros lm E. injection E as <-. apply repeat_length.
      - cbn [bind]. eexists _, _. split; [reflexivity|]. split; [apply rect_map2; auto|]. intros lm E. injection E as <-. apply repeat_length. }
    destruct HI as (x' & ob' & HI & Rx' & Hob').
    destruct (vstep_from_inner _ _ _ _ _ _ _ _ _ _ _ _ _ _ W P CO HI Rx') as (s' & E'). eauto.
  Qed.
End Total.
