(** * Concrete sessions of the variants of CBO *)
From Coq Require Import String List Arith Bool Reals Permutation Lia Lra.
From Verif Require Import Scalar Np NpFacts State Pdyn PdynFacts PdynStep PdynOk PdynRun Exec RunFacts Script TermSpec TermFacts RVec RVecFacts Consensus ConsSpec ConsFacts PostProc Cbo CboSpec CboFacts RegFacts ExCbo
  Memory MemSpec TwinSpec RegSched Variant VarSpec VarFacts RegVar HyperTotal VarTotal MirrorMaps HyperMaps AdamSpec SimSpec MemSymSpec SessSpec VarSessSpec ExMemRun ExMemSym ExCoord.
Import ListNotations.
Open Scope R_scope.

Definition vsession {E} (inner : cfg R vec -> orc vec -> st R vec -> E -> res (st R vec * E)) (attr : st R vec -> E) (c : cfg R vec) (x : arr vec) (l : list (call (K := R) (V := vec))) : res (st R vec * E) :=
  var_session inner attr c x false (Fin 5) (Fin 1) (Fin 1) (Fin (/ 10)) (fun _ => [2; 0; 1]%nat) (Some ["x"; "energy"]%string) [] None l.

Section Runs.
  Context {E : Type}.
  Variables (inner : cfg R vec -> orc vec -> st R vec -> E -> res (st R vec * E)) (attr : st R vec -> E) (Q : nat -> nat -> E -> Prop) (G : cfg R vec -> Prop) (J : E -> Prop).
  Variables (c : cfg R vec) (o : orc vec).
  Hypothesis REG : regular inner Q G.
  Hypothesis HG : G c.
  Hypothesis QA : forall (c : cfg R vec) (s : st R vec), wf c s -> Q (s_M s) (s_N s) (attr s).
  Hypothesis JA : forall s, J (attr s).
  Hypothesis Hb : Forall builtin (c_crit c).
  Hypothesis Hbs : c_bsize c = 2%nat.
  Hypothesis Ho : forall m, Permutation (o_perm o m) (seq 0 3).
  Hypothesis TOT : forall n s e log, vexec inner attr c n (s, e) log -> perms_valid o s -> s_M s = 2%nat -> s_active s = [0; 1]%nat -> s_dt s = Fin (/ 5) -> J e ->
    exists s' e', vstep inner c o (s, e) = Ok (s', e') /\ J e'.

  Lemma vsteps_run : forall n k s e log, vexec inner attr c k (s, e) log -> s_N s = 3%nat -> s_M s = 2%nat -> s_active s = [0; 1]%nat -> s_dt s = Fin (/ 5) -> J e ->
    forall l, (forall k' s' e' log', vexec inner attr c k' (s', e') log' -> exists r, var_play inner c l (s', e') = Ok r) -> exists r, var_play inner c (repeat (CaStep o) n ++ l) (s, e) = Ok r.
  Proof.
    induction n as [|n IH]; intros k s e log X HN HM HA HD HJ l Hl; [apply (Hl _ _ _ _ X)|].
    cbn [repeat app var_play var_do fst]. rewrite HA.
    assert (P : perms_valid o s). { intros m _. rewrite HN. apply Ho. }
    destruct (TOT _ _ _ _ X P HM HA HD HJ) as (s' & e' & HS & HJ'). rewrite HS. cbn [bind].
    destruct (vexec_inv _ _ _ _ REG QA c _ _ _ _ HG X) as [W HQ].
    assert (NE : s_active s <> []) by (rewrite HA; discriminate).
    destruct (vstep_good _ _ _ REG c o s e s' e' HG W (perms_valid_ok _ _ P) NE HQ HS) as [(_ & (EM & EN & _ & _ & _ & ED & _ & _ & EA & _) & _) _].
    eapply (IH (S k) s' e'); [eapply vx_step; eauto| | | | |auto|auto]; congruence.
  Qed.
  Lemma vruns : forall a1 a2 a3 a4 a5 a6 n, exists p, vsession inner attr c [[a1; a2; a3]; [a4; a5; a6]] (bcalls o n) = Ok p.
  Proof.
    intros a1 a2 a3 a4 a5 a6 n. set (x0 := [[a1; a2; a3]; [a4; a5; a6]]). unfold vsession, var_session.
    assert (Hi : exists s, init c x0 false (Fin 5) (Fin 1) (Fin 1) (Fin (/ 10)) (fun _ => [2; 0; 1]%nat) (Some ["x"; "energy"]%string) [] None = Ok s /\ s_M s = 2%nat /\ s_N s = 3%nat /\ s_active s = [0; 1]%nat).
    { eexists. split; [reflexivity|]. split; [reflexivity|]. split; reflexivity. }
    destruct Hi as (s & Ei & HM & HN & HA). rewrite Ei. cbn [bind bcalls var_play var_do cbo_do fst snd].
    eapply vsteps_run.
    - eapply vx_params; [apply vx_init|].
      + exists x0, false, (Fin 5), (Fin 1), (Fin 1), (Fin (/ 10)), (fun _ => [2; 0; 1]%nat), (Some ["x"; "energy"]%string), [], None.
        rewrite Hbs. split; [split; [reflexivity|repeat constructor]|]. split; [cbn; lia|]. split; [cbn; lia|].
        split; [intros; apply (perm_b_ok 3); reflexivity|]. split; [discriminate|exact Ei].
      + eexists _, _, _, _. split; [|reflexivity].
        split; [apply repeat_length|]. apply Forall_forall. intros r Hr. apply repeat_spec in Hr. subst. reflexivity.
    - sst. auto.
    - sst. auto.
    - sst. auto.
    - sst. auto.
    - apply JA.
    - intros k' s' e' log' X. cbn [var_play var_do cbo_do fst snd].
      destruct (vexec_inv _ _ _ _ REG QA c _ _ _ _ HG X) as [W _].
      destruct (terminate_total c s' W Hb) as (bb & s2 & ->). cbn [bind snd]. eauto.
  Qed.
End Runs.

Section Variants.
  Variables (f : vec -> fl R) (k : noise_model) (n : nat).
  Local Notation c := (bcfg f k scrit).
  Let Ho : forall m, Permutation (o_perm corc m) (seq 0 3).
  Proof. intros; apply (perm_b_ok 3); reflexivity. Qed.

  Lemma mirror_runs : forall gc gr, exists p, vsession (mirror_inner gc) (mirror_attr gr) c cx0 (bcalls corc n) = Ok p.
  Proof.
    intros gc gr. apply (vruns _ _ _ no_cond (fun _ => True)) with (1 := mirror_regular gc); auto; [exact I|apply attr_mirror|apply scrit_builtin|].
    intros i s e log X P _ _ _ _. destruct (mirror_total gc gr c i s e log corc ltac:(intros ? ? ?; reflexivity) eq_refl X P) as (s' & y' & E). eauto.
  Qed.
  Lemma adam_runs : forall p z, exists r, vsession (adam_inner np_sq np_quot p) (adam_attr z) c cx0 (bcalls corc n) = Ok r.
  Proof.
    intros p z. apply (vruns _ _ _ no_cond (fun _ => True)) with (1 := adam_regular np_sq np_quot p); auto; [exact I|apply attr_adam|apply scrit_builtin|].
    intros i s e log X P _ _ _ _. destruct (adam_total np_sq np_quot p z c i s e log corc ltac:(intros ? ? ?; reflexivity) X P) as (s' & y' & E). eauto.
  Qed.
  Lemma dc_runs : forall (G : multi (K := R) (V := vec)) eps, (forall x y, exists w, g_solve G (fdiv (Fin (/ 5)) eps) x y = Ok w) ->
    exists r, vsession (dc_inner (Some G) eps) (fun _ => tt) c cx0 (bcalls corc n) = Ok r.
  Proof.
    intros G eps HG. apply (vruns _ _ _ no_cond (fun _ => True)) with (1 := dc_regular (Some G) eps); auto; [exact I|apply scrit_builtin|].
    intros i s [] log X P HM HA HD _. destruct (dc_total (Some G) eps c i s tt log corc ltac:(intros ? ? ?; reflexivity) ltac:(intros g E; injection E as <-; rewrite HD; auto) X P) as (s' & E). { rewrite HM, HA. reflexivity. } eauto.
  Qed.
  Lemma hyper_runs : forall S, exists r, vsession (hyper_inner S) (fun _ => tt) c cx0 (bcalls corc n) = Ok r.
  Proof.
    intros S. apply (vruns _ _ _ one_consensus_point (fun _ => True)) with (1 := hyper_regular S); auto; [intros ? ? ?; reflexivity|apply scrit_builtin|].
    intros i s [] log X P HM HA HD _. destruct (hyper_total S c i s tt log corc ltac:(intros ? ? ?; reflexivity) X P) as (s' & E). { rewrite HM, HA. reflexivity. } eauto.
  Qed.
  Lemma reg_runs : forall f0 reg pow la solve eps, (forall v, f v = fadd (f0 v) (fmul (Fin la) (pow (reg v)))) -> (forall g, solve = Some g -> forall x y, exists w, g (fdiv (Fin (/ 5)) eps) x y = Ok w) ->
    exists r, vsession (reg_inner (reg_call f0 reg pow) solve eps) (reg_attr (Fin la)) c cx0 (bcalls corc n) = Ok r.
  Proof.
    intros f0 reg pow la solve eps Hp HG.
    assert (C1 : one_consensus_point c) by (intros ? ? ?; reflexivity). assert (PC : penalised f0 reg pow (Fin la) c) by exact Hp.
    apply (vruns _ _ _ (reg_cond f0 reg pow (Fin la)) (fun ob => forall lm, o_lamda ob = Some lm -> length lm = 2%nat)) with (1 := reg_regular f0 reg pow (Fin la) solve eps); auto; [split; auto|apply reg_attr_ok|discriminate|apply scrit_builtin|].
    intros i s ob log X P HM HA HD HJ. destruct (reg_total f0 reg pow (Fin la) solve eps c i s ob log corc PC C1 ltac:(rewrite HD; exact HG) X P) as (s' & ob' & E & H); try (rewrite ?HM, ?HA; cbn; lia). { intros lm El. rewrite HM. auto. }
    rewrite HM in H. eauto.
  Qed.
End Variants.

(** ** mirror maps: the elastic net keeps finite points finite; L2 commutes with the quarter turn *)
Lemma fsign_fin : forall a, exists r, fsign (Fin a) = Fin r.
Proof. intros a. unfold fsign. destruct (Rltb 0 a); eauto. destruct (Rltb a 0); eauto. Qed.
Lemma map_real : forall (g : fl R -> fl R) d p, (forall a, exists r, g (Fin a) = Fin r) -> length p = d -> real_point d (map g (floats p)).
Proof.
  intros g d p Hg. revert d. induction p as [|a p IH]; intros d Hp. { exists []. auto. }
  destruct d as [|d]; [discriminate|]. destruct (IH d) as (q & E & L). { cbn in Hp. lia. } destruct (Hg a) as (r & Er).
  exists (r :: q). split; [|cbn; lia]. unfold floats in *. cbn [map]. rewrite Er, E. reflexivity.
Qed.
Lemma ex_mirror_shift : forall n, (forall p, length p = 2%nat -> real_point 2 (mm_conj (ElasticNet (/ 2) 1) (floats p))) /\
  (forall row v, In row cx0 -> In v row -> real_point 2 (mm_grad (ElasticNet (/ 2) 1) v)) /\
  exists p, vsession (mirror_inner (mm_conj (ElasticNet (/ 2) 1))) (mirror_attr (mm_grad (ElasticNet (/ 2) 1))) (bcfg sqf NAniso scrit) cx0 (bcalls corc n) = Ok p.
Proof.
  intros n. split; [|split; [|apply mirror_runs]].
  - intros p Hp. apply map_real; auto. intros a. destruct (fsign_fin a) as (r & ->). cbn [fmul fabs fsub]. unfold fmax. cbn. destruct (Rltb _ _); cbn; eauto.
  - intros row v H1 H2. destruct (cx0_real row v H1 H2) as (p & -> & Hp). apply map_real; auto. intros a. destruct (fsign_fin a) as (r & ->).
    rewrite fdiv_fin by lra. cbn. eauto.
Qed.
Lemma ex_mirror_rotation : forall n, (forall p, length p = 2%nat -> exists q, mm_conj (L2 2) (floats p) = floats q /\ length q = 2%nat /\ mm_conj (L2 2) (floats (map (fun r => dot r p) turn)) = floats (map (fun r => dot r q) turn)) /\
  (forall row v, In row cx0 -> In v row -> exists q, mm_grad (L2 2) v = floats q /\ length q = 2%nat /\ mm_grad (L2 2) (rotate turn v) = floats (map (fun r => dot r q) turn)) /\
  exists p, vsession (mirror_inner (mm_conj (L2 2))) (mirror_attr (mm_grad (L2 2))) (bcfg sqf NIso scrit) cx0 (bcalls corc n) = Ok p.
Proof.
  intros n. split; [|split; [|apply mirror_runs]].
  - intros [|a [|b [|]]] Hp; try discriminate. exists [1 / 2 * a; 1 / 2 * b]. unfold mm_conj. rewrite fdiv_fin by lra. unfold floats, turn, dot. cbn [map map2 Rsum fold_right fmul kmul KOps_R].
    split; [reflexivity|]. split; [reflexivity|]. repeat (f_equal; try lra).
  - intros row v H1 H2. destruct (cx0_real row v H1 H2) as (p & -> & Hp). destruct p as [|a [|b [|]]]; try discriminate. exists [2 * a; 2 * b].
    split; [reflexivity|]. split; [reflexivity|]. unfold mm_grad, rotate, fdot, floats, turn, dot. cbn [map map2 Rsum fold_right fmul fadd kmul kadd KOps_R]. repeat (f_equal; try lra).
Qed.

(** ** one constraint x_0 = 0, moved to x_0 = 5 and turned to x_1 = 0 *)
Definition line_solve (i : nat) (a : fl R) (x y : vec) : res vec :=
  match a with
  | Fin r => if Req_EM_T (1 + 2 * r) 0 then Err RuntimeErr (* singular *) else Ok (mapi (fun j t => if Nat.eqb j i then fdiv t (Fin (1 + 2 * r)) else t) y)
  | _ => Err RuntimeErr
  end.
Definition line_grad (i : nat) (b : R) (x : vec) : vec := mapi (fun j t => if Nat.eqb j i then fmul (Fin 2) (fsub t (Fin b)) else Fin 0) x.
Definition line (i : nat) (b : R) : multi (K := R) (V := vec) := mkmulti (line_grad i b) (line_solve i).

Lemma line_real : forall i b p, length p = 2%nat -> real_point 2 (line_grad i b (floats p)).
Proof.
  intros i b [|x [|y [|]]] Hp; try discriminate.
  exists [if Nat.eqb 0 i then 2 * (x - b) else 0; if Nat.eqb 1 i then 2 * (y - b) else 0]. split; [|reflexivity].
  unfold line_grad, mapi, floats. cbn [mapi_from map fsub fmul ksub kmul KOps_R]. destruct (Nat.eqb 0 i), (Nat.eqb 1 i); reflexivity.
Qed.
Lemma line_solve_real : forall i a p u w, length u = 2%nat -> line_solve i (Fin a) p (floats u) = Ok w -> real_point 2 w.
Proof.
  intros i a p [|x [|y [|]]] w Hu H; try discriminate. unfold line_solve in H. destruct (Req_EM_T (1 + 2 * a) 0) as [|N]; [discriminate|]. injection H as <-.
  exists [if Nat.eqb 0 i then x / (1 + 2 * a) else x; if Nat.eqb 1 i then y / (1 + 2 * a) else y]. split; [|reflexivity].
  unfold mapi, floats. cbn [mapi_from map]. rewrite !fdiv_fin by auto. destruct (Nat.eqb 0 i), (Nat.eqb 1 i); reflexivity.
Qed.
Lemma line_runs : forall f k i b n, exists p, vsession (dc_inner (Some (line i b)) (Fin (/ 10))) (fun _ => tt) (bcfg f k scrit) cx0 (bcalls corc n) = Ok p.
Proof.
  intros f k i b n. apply dc_runs. intros x y. rewrite fdiv_fin by lra. cbn [line g_solve]. unfold line_solve. destruct (Req_EM_T _ _) as [E|_]; [|eauto]. exfalso. lra.
Qed.
Lemma ex_dc_shift : forall n, (/ 10 <> 0) /\ (forall p, length p = 2%nat -> real_point 2 (g_grad (line 0 0) (floats p))) /\
  (forall a p u w, length p = 2%nat -> length u = 2%nat -> g_solve (line 0 0) (Fin a) (floats p) (floats u) = Ok w -> real_point 2 w) /\
  exists p, vsession (dc_inner (Some (line 0 0)) (Fin (/ 10))) (fun _ => tt) (bcfg sqf NAniso scrit) cx0 (bcalls corc n) = Ok p.
Proof.
  intros n. split; [lra|]. split; [intros; apply line_real; auto|]. split; [intros a p u w _ Hu H; exact (line_solve_real 0 a (floats p) u w Hu H)|]. apply line_runs.
Qed.
Lemma ex_dc_translation : / 10 <> 0 /\
  (forall p, length p = 2%nat -> real_point 2 (g_grad (line 0 0) (floats p)) /\ g_grad (line 0 5) (floats (vadd p [5; 6])) = g_grad (line 0 0) (floats p)) /\
  (forall a p u, length p = 2%nat -> length u = 2%nat ->
    same_outcome (fun w w' => real_point 2 w /\ w' = w) (g_solve (line 0 0) (Fin a) (floats p) (floats u)) (g_solve (line 0 5) (Fin a) (floats (vadd p [5; 6])) (floats u))).
Proof.
  split; [lra|]. split.
  - intros p Hp. split; [apply line_real; auto|]. destruct p as [|x [|y [|]]]; try discriminate.
    unfold line, line_grad, mapi, vadd, floats. cbn [g_grad mapi_from map map2 Nat.eqb fsub fmul ksub kmul KOps_R]. repeat (f_equal; try lra).
  - intros a p u Hp Hu. cbn [line g_solve]. pose proof (line_solve_real 0 a (floats p) u) as H. unfold line_solve in *. destruct (Req_EM_T (1 + 2 * a) 0); cbn [same_outcome]; auto.
Qed.
Lemma ex_dc_rotation : / 10 <> 0 /\
  (forall p, length p = 2%nat -> exists q, g_grad (line 0 0) (floats p) = floats q /\ length q = 2%nat /\ g_grad (line 1 0) (floats (map (fun r => dot r p) turn)) = floats (map (fun r => dot r q) turn)) /\
  (forall a p u, length p = 2%nat -> length u = 2%nat ->
    same_outcome (fun w w' => real_point 2 w /\ w' = rotate turn w) (g_solve (line 0 0) (Fin a) (floats p) (floats u)) (g_solve (line 1 0) (Fin a) (floats (map (fun r => dot r p) turn)) (floats (map (fun r => dot r u) turn)))).
Proof.
  split; [lra|]. split.
  - intros [|x [|y [|]]] Hp; try discriminate. exists [2 * (x - 0); 0]. split; [reflexivity|]. split; [reflexivity|].
    unfold line, line_grad, mapi, floats, turn, dot. cbn [g_grad mapi_from map map2 Rsum fold_right Nat.eqb fsub fmul ksub kmul KOps_R]. repeat (f_equal; try lra).
  - intros a p [|x [|y [|]]] Hp Hu; try discriminate. cbn [line g_solve]. pose proof (line_solve_real 0 a (floats p) [x; y]) as H. unfold line_solve in *.
    destruct (Req_EM_T (1 + 2 * a) 0) as [|N]; cbn [same_outcome]; auto. split; [auto|].
    unfold rotate, fdot, mapi, floats, turn, dot. cbn [mapi_from map map2 Rsum fold_right Nat.eqb]. rewrite !fdiv_fin by auto. cbn [fmul fadd kmul kadd KOps_R fold_right]. repeat (f_equal; try (field; lra)).
Qed.

(** ** the line x_0 = 0 as a surface, turned to x_1 = 0 *)
Lemma unit_norms : vnorm [1; 0] = 1 /\ vnorm [0; 1] = 1.
Proof. unfold vnorm, sqnorm, dot. cbn. rewrite <- sqrt_1 at 3 6. split; f_equal; ring. Qed.
Lemma line_tan : forall p z, length z = 2%nat -> sdf_tan (PlaneD [1; 0] 0) p (floats z) = floats [0; nth 1 z 0] /\ sdf_tan (PlaneD [0; 1] 0) p (floats z) = floats [nth 0 z 0; 0].
Proof.
  intros p [|x [|y [|]]] Hz; try discriminate. unfold sdf_tan, sdf_grad. destruct unit_norms as [-> ->]. unfold fsum, floats. cbn.
  split; repeat (f_equal; try field).
Qed.
Lemma line_proj : forall p, length p = 2%nat -> sdf_proj (PlaneD [1; 0] 0) (floats p) = floats [0; nth 1 p 0] /\ sdf_proj (PlaneD [0; 1] 0) (floats p) = floats [nth 0 p 0; 0].
Proof.
  intros [|x [|y [|]]] Hp; try discriminate. unfold sdf_proj. destruct unit_norms as [-> ->]. rewrite pow1. unfold fsum, floats. cbn [map map2 fold_right fmul fadd fsub kmul kadd ksub KOps_R nth]. rewrite !fdiv_fin by lra.
  cbn [map map2 fold_right fmul fadd fsub kmul kadd ksub KOps_R nth]. split; repeat (f_equal; try field).
Qed.
Lemma line_nc : forall t sg p u, length u = 2%nat -> nc_iso (PlaneD [1; 0] 0) (Fin t) (Fin sg) p (floats u) = floats [0; 0] /\ nc_iso (PlaneD [0; 1] 0) (Fin t) (Fin sg) p (floats u) = floats [0; 0].
Proof.
  intros t sg p u Hu. unfold nc_iso, sdf_lap, sdf_grad. destruct unit_norms as [-> ->]. cbn [fmul kmul KOps_R]. rewrite fdiv_fin by lra.
  rewrite !fnorm_floats. unfold floats. cbn. split; repeat (f_equal; try field).
Qed.
Lemma ex_hyper_shift : forall n, (forall p u, length p = 2%nat -> length u = 2%nat -> real_point 2 (h_tan (surface_of (PlaneD [1; 0] 0) NIso) (floats p) (floats u))) /\
  (forall p, length p = 2%nat -> real_point 2 (h_proj (surface_of (PlaneD [1; 0] 0) NIso) (floats p))) /\
  (forall t sg p u, length p = 2%nat -> length u = 2%nat -> real_point 2 (h_nc (surface_of (PlaneD [1; 0] 0) NIso) (Fin t) (Fin sg) (floats p) (floats u))) /\
  exists p, vsession (hyper_inner (surface_of (PlaneD [1; 0] 0) NIso)) (fun _ => tt) (bcfg sqf NIso scrit) cx0 (bcalls corc n) = Ok p.
Proof.
  intros n. unfold surface_of. cbn [h_tan h_proj h_nc].
  split; [intros p u _ Hu; rewrite (proj1 (line_tan _ _ Hu)); eexists; split; reflexivity|].
  split; [intros p Hp; rewrite (proj1 (line_proj _ Hp)); eexists; split; reflexivity|].
  split; [intros t sg p u _ Hu; rewrite (proj1 (line_nc _ _ _ _ Hu)); eexists; split; reflexivity|]. apply hyper_runs.
Qed.
Lemma ex_hyper_rotation :
  (forall p u, length p = 2%nat -> length u = 2%nat -> exists q, h_tan (surface_of (PlaneD [1; 0] 0) NIso) (floats p) (floats u) = floats q /\ length q = 2%nat /\
    h_tan (surface_of (PlaneD [0; 1] 0) NIso) (floats (map (fun r => dot r p) turn)) (floats (map (fun r => dot r u) turn)) = floats (map (fun r => dot r q) turn)) /\
  (forall p, length p = 2%nat -> exists q, h_proj (surface_of (PlaneD [1; 0] 0) NIso) (floats p) = floats q /\ length q = 2%nat /\
    h_proj (surface_of (PlaneD [0; 1] 0) NIso) (floats (map (fun r => dot r p) turn)) = floats (map (fun r => dot r q) turn)) /\
  (forall t sg p u, length p = 2%nat -> length u = 2%nat -> exists q, h_nc (surface_of (PlaneD [1; 0] 0) NIso) (Fin t) (Fin sg) (floats p) (floats u) = floats q /\ length q = 2%nat /\
    h_nc (surface_of (PlaneD [0; 1] 0) NIso) (Fin t) (Fin sg) (floats (map (fun r => dot r p) turn)) (floats (map (fun r => dot r u) turn)) = floats (map (fun r => dot r q) turn)).
Proof.
  unfold surface_of. cbn [h_tan h_proj h_nc].
  split; [|split].
  - intros p u _ Hu. rewrite (proj1 (line_tan _ _ Hu)), (proj2 (line_tan _ (map (fun r => dot r u) turn) eq_refl)). eexists. split; [reflexivity|]. split; [reflexivity|].
    destruct u as [|x [|y [|]]]; try discriminate. unfold turn, dot, floats. cbn. repeat (f_equal; try lra).
  - intros p Hp. rewrite (proj1 (line_proj _ Hp)), (proj2 (line_proj (map (fun r => dot r p) turn) eq_refl)). eexists. split; [reflexivity|]. split; [reflexivity|].
    destruct p as [|x [|y [|]]]; try discriminate. unfold turn, dot, floats. cbn. repeat (f_equal; try lra).
  - intros t sg p u _ Hu. rewrite (proj1 (line_nc _ _ _ _ Hu)), (proj2 (line_nc t sg _ (map (fun r => dot r u) turn) eq_refl)). eexists. split; [reflexivity|]. split; [reflexivity|].
    unfold turn, dot, floats. cbn. repeat (f_equal; try lra).
Qed.

(** ** objective sqf, penalty 2 * sqf^2, the solver returns the midpoint *)
Definition psq (a : fl R) : fl R := fmul a a.
Definition pen (f : vec -> fl R) (v : vec) : fl R := fadd (f v) (fmul (Fin 2) (psq (f v))).
Definition mid (a : fl R) (x y : vec) : res vec := Ok (map2 (fun s t => fmul (Fin (/ 2)) (fadd s t)) x y).
Lemma psq_finite : finite_obj 2 (fun v => psq (sqf v)).
Proof. intros p Hp. destruct (sqf_finite 2%nat p Hp) as (r & ->). exists (r * r). reflexivity. Qed.
Lemma pen_finite : finite_obj 2 (pen sqf).
Proof. intros p Hp. unfold pen. destruct (sqf_finite 2%nat p Hp) as (r & ->). eexists. reflexivity. Qed.
Lemma mid_real : forall a p u w, length p = 2%nat -> length u = 2%nat -> mid (Fin a) (floats p) (floats u) = Ok w -> real_point 2 w.
Proof. intros a [|x [|y [|]]] [|x' [|y' [|]]] w Hp Hu H; try discriminate. injection H as <-. exists [/ 2 * (x + x'); / 2 * (y + y')]. split; reflexivity. Qed.
Lemma mid_runs : forall f k n, exists p, vsession (reg_inner (reg_call f f psq) (Some mid) (Fin (/ 10))) (reg_attr (Fin 2)) (bcfg (pen f) k scrit) cx0 (bcalls corc n) = Ok p.
Proof. intros f k n. apply reg_runs; [reflexivity|]. intros g E. injection E as <-. intros x y. unfold mid. eauto. Qed.
Lemma ex_reg_shift : forall n, finite_obj 2 (pen sqf) /\ finite_obj 2 sqf /\ finite_obj 2 (fun v => psq (sqf v)) /\ (forall v, pen sqf v = fadd (sqf v) (fmul (Fin 2) (psq (sqf v)))) /\
  (/ 10 <> 0 /\ forall a p u w, length p = 2%nat -> length u = 2%nat -> mid (Fin a) (floats p) (floats u) = Ok w -> real_point 2 w) /\
  exists p, vsession (reg_inner (reg_call sqf sqf psq) (Some mid) (Fin (/ 10))) (reg_attr (Fin 2)) (bcfg (pen sqf) NAniso scrit) cx0 (bcalls corc n) = Ok p.
Proof.
  intros n. split; [apply pen_finite|]. split; [apply sqf_finite|]. split; [apply psq_finite|]. split; [reflexivity|]. split; [|apply mid_runs]. split; [lra|apply mid_real].
Qed.
Lemma ex_reg_translation : (forall p, length p = 2%nat -> pen moved_sqf (floats (vadd p [5; 6])) = pen sqf (floats p)) /\
  (forall a p u, length p = 2%nat -> length u = 2%nat ->
    same_outcome (fun w w' => real_point 2 w /\ w' = translate [5; 6] w) (mid (Fin a) (floats p) (floats u)) (mid (Fin a) (floats (vadd p [5; 6])) (floats (vadd u [5; 6])))).
Proof.
  destruct ex_translation as (_ & H & _). split. { intros p Hp. unfold pen. rewrite H by auto. reflexivity. }
  intros a p u Hp Hu. pose proof (mid_real a p u _ Hp Hu eq_refl) as M. cbn [same_outcome mid]. split; auto.
  destruct p as [|x [|y [|]]], u as [|x' [|y' [|]]]; try discriminate. unfold translate, vadd, floats. cbn [map map2 fmul fadd kmul kadd KOps_R]. repeat (f_equal; try lra).
Qed.
Lemma ex_reg_rotation : (forall p, length p = 2%nat -> pen sqf (floats (map (fun r => dot r p) turn)) = pen sqf (floats p)) /\
  (forall a p u, length p = 2%nat -> length u = 2%nat ->
    same_outcome (fun w w' => real_point 2 w /\ w' = rotate turn w) (mid (Fin a) (floats p) (floats u)) (mid (Fin a) (floats (map (fun r => dot r p) turn)) (floats (map (fun r => dot r u) turn)))).
Proof.
  destruct ex_rotation as (_ & H & _). split. { intros p Hp. unfold pen. rewrite H by auto. reflexivity. }
  intros a p u Hp Hu. pose proof (mid_real a p u _ Hp Hu eq_refl) as M. cbn [same_outcome mid]. split; auto.
  destruct p as [|x [|y [|]]], u as [|x' [|y' [|]]]; try discriminate. unfold rotate, fdot, turn, dot, floats. cbn [map map2 Rsum fold_right fmul fadd kmul kadd KOps_R]. repeat (f_equal; try lra).
Qed.
