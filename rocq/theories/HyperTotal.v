(** * The steps of HyperSurfaceCBO do not fail while all runs are active *)
From Coq Require Import String List Arith Bool Permutation Lia.
From Verif Require Import Scalar ScalarFacts Np NpFacts State Pdyn PdynFacts PdynStep PdynRun PdynOk Exec BcFacts BestFacts
  Memory MemFacts MemFacts2 Variant VarSpec VarFacts VarMove VarExactSpec VarExact.
Import ListNotations.
Open Scope nat_scope.
Open Scope list_scope.

Section Total.
  Context {K V : Type} {O : KOps K}.
  Notation F := (fl K).
  Notation st := (st K V).
  Notation cfg := (cfg K V).
  Notation orc := (orc V).

  Lemma post_total : forall (c : cfg) (o : orc) (s s0 sc : st) ci pi cp x' d fc nf,
    wf c s -> perm_ok o s -> cons_ok c o s s0 sc ci pi cp -> rect (s_M s) (s_N s) x' ->
    exists s', post_step c (set_x x' (set_drift (Some d) (set_fcalls fc (set_nfe nf sc)))) = Ok s'.
  Proof.
    intros c o s s0 sc ci0 pi0 cp0 x' d fc nf W P CO Hx'.
    destruct (pre_step_char c o s W P) as (ci & pi & ind & Epre & Gc & Gp & Hsel & Hind1 & Hind2).
    pose proof (co_pre _ _ _ _ _ _ _ _ CO) as Epre0. pose proof (co_cons _ _ _ _ _ _ _ _ CO) as Ecc0.
    rewrite Epre in Epre0. injection Epre0 as <-. clear Epre CO.
    set (s1 := set_pidx pi (set_cidx ci (set_ind ind (set_xold (Some (s_x s)) s)))) in *.
    pose proof (incr_NoDup _ (w_act _ _ W)) as Hnd.
    assert (Hact : forall k, k < length (s_active s) -> exists m, nth_error (s_active s) k = Some m /\ m < s_M s).
    { intros k Hk. destruct (nth_error_lt_Some _ _ _ Hk) as [m Hm]. exists m. split; auto.
      apply W. eapply nth_error_In; eauto. }
    assert (Hsl : forall k, k < length (s_active s) -> length (sel ci k (s_N s)) = c_bsize c).
    { intros k Hk. destruct (Hact k Hk) as (m & E & Hm). rewrite (proj1 (Hsel _ _ E)).
      apply run_sel_length; auto. }
    destruct (compute_consensus_char c s1) as
      (cep' & en & cp & nb & xs & Ecc & Exs & Esv & Ren & Hcep & Lcp & Hnb & Hrow & Hinact);
      unfold s1 in *; sstall; auto; try apply W.
    { intros. rewrite !Hsl; auto. }
    rewrite Ecc in Ecc0. injection Ecc0 as <-. clear Ecc.
    match goal with |- exists s', post_step c ?z = _ => set (s2 := z) in * end.
    destruct (post_step_char c s2 (s_x s)) as (s'' & Ep & R); subst s2; sstall; auto; try apply W; eauto. discriminate.
  Qed.

  Theorem hyper_total : forall S (c : cfg) n s u log o, one_consensus_point c ->
    vexec (hyper_inner S) (fun _ => tt) c n (s, u) log -> perms_valid o s -> length (s_active s) = s_M s ->
    exists s', vstep (hyper_inner S) c o (s, u) = Ok (s', u).
  Proof.
    intros S c n s u log o C1 H P0 HA. pose proof (perms_valid_ok _ _ P0) as P.
    destruct (vexec_inv _ _ _ _ (hyper_regular S) attr_unit c n s u log C1 H) as [W _].
    destruct (pre_cons_full c o s W P) as (s0 & sc & ci & pi & cps & CO).
    pose proof (cons_rect _ _ _ _ _ _ _ _ W P C1 CO) as Rc. rewrite HA in Rc. pose proof (w_x _ _ W) as Rx.
    pose proof (w_N _ _ W) as HN.
    unfold vstep. cbn [fst snd]. rewrite (co_pre _ _ _ _ _ _ _ _ CO). cbn [bind].
    unfold hyper_inner. rewrite (co_cons _ _ _ _ _ _ _ _ CO). cbn [bind].
    rewrite (the_cons_ok _ _ (co_cp _ _ _ _ _ _ _ _ CO)). cbn [bind].
    rewrite (co_x _ _ _ _ _ _ _ _ CO), (co_dt _ _ _ _ _ _ _ _ CO), (co_sg _ _ _ _ _ _ _ _ CO).
    destruct (bc2_compat _ _ _ (c_vsub c) (s_x s) cps _ _ _ _ Rx Rc) as (d & Hd & Rd); [left; auto|right; right; auto|].
    replace (bdim (s_M s) (s_M s)) with (s_M s) in Rd by (unfold bdim; destruct (s_M s =? 1) eqn:E1; auto).
    replace (bdim (s_N s) 1) with (s_N s) in Rd by (unfold bdim; destruct (Nat.eqb_spec (s_N s) 1); lia).
    rewrite Hd. cbn [bind].
    set (ns := amapi _ d). assert (Rn : rect (s_M s) (s_N s) ns) by (apply rect_amapi; auto).
    destruct (bc2_compat _ _ _ (c_vadd c) (map (map (c_vscale c (s_dt s))) cps) ns _ _ _ _ (rect_map _ _ _ _ _ _ Rc) Rn) as (a & Ha & Ra); [left; auto|right; left; auto|].
    replace (bdim (s_M s) (s_M s)) with (s_M s) in Ra by (unfold bdim; destruct (s_M s =? 1) eqn:E1; auto).
    replace (bdim 1 (s_N s)) with (s_N s) in Ra by (unfold bdim; auto).
    rewrite Ha. cbn [bind].
    rewrite (bc2_same _ _ _ _ (s_M s) (s_N s)) by auto. cbn [bind].
    set (t := map2 (map2 (h_tan S)) (s_x s) a) in *. assert (Rt : rect (s_M s) (s_N s) t) by (apply rect_map2; auto).
    rewrite (bc2_same _ _ _ _ (s_M s) (s_N s)) by auto. cbn [bind].
    set (dn := map2 (map2 (c_vadd c)) (s_x s) t) in *. assert (Rdn : rect (s_M s) (s_N s) dn) by (apply rect_map2; auto).
    rewrite (bc2_same _ _ _ _ (s_M s) (s_N s)) by auto. cbn [bind].
    set (nc := map2 (map2 (h_nc S (s_dt s) (s_sigma s))) (s_x s) d) in *. assert (Rnc : rect (s_M s) (s_N s) nc) by (apply rect_map2; auto).
    rewrite (bc2_same _ _ _ _ (s_M s) (s_N s)) by auto. cbn [bind fst snd].
    set (xt := map2 (map2 (c_vsub c)) dn nc) in *.
    assert (Rxt : rect (s_M s) (s_N s) (map (map (h_proj S)) xt)) by (apply rect_map, rect_map2; auto).
    destruct (post_total c o s s0 sc ci pi cps _ d (s_fcalls sc) (s_nfe sc) W P CO Rxt) as (s' & E').
    replace (set_fcalls (s_fcalls sc) (set_nfe (s_nfe sc) sc)) with sc in E' by (destruct sc; reflexivity).
    rewrite E'. cbn [bind]. eauto.
  Qed.
End Total.
