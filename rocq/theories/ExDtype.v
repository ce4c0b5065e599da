(** * Integer ensembles: concrete cases *)
From Coq Require Import String List Arith Bool Reals ZArith Lia Lra.
From Flocq Require Import Core.Raux.
From Verif Require Import Scalar Np NpFacts State Pdyn PdynFacts PdynOk Exec RVec ConsSpec PostProc Cbo CboFacts ExCbo TolFacts Memory MemSpec MemRaise ExMemR Dtype DtypeSpec DtypeFacts.
Import ListNotations.
Open Scope R_scope.

(** f(x) = (x+1)^2 in one dimension, the consensus given as the point 2 (compute_consensus is an argument), no noise *)
Definition shifted (v : vec) : fl R := match v with [Fin r] => Fin ((r + 1) * (r + 1)) | _ => NaN end.
Definition icfg : cfg R vec :=
  {| c_f := shifted; c_vadd := map2 fadd; c_vsub := map2 fsub; c_vscale := fun a => map (fmul a);
     c_norm := fun _ => Fin 0; c_dmean := fun _ => Fin 0;
     c_ccrow := fun _ _ _ => [[Fin 2]]; c_noise := fun _ _ _ => [Fin 0]; c_pp := fun v => v;
     c_corr := NoCorr; c_bsize := 2; c_partial := false; c_concat := false; c_crit := []; c_savepts := false |}.
Definition ipar : mpar R := mkmpar (Fin 0) (Fin 0) (Fin 0) (Fin 1).
Definition ix0 (a b : R) : arr vec := [[[Fin a]; [Fin b]]].
Definition iorc : orc vec := {| o_z := fun _ _ => [Fin 0]; o_perm := fun _ => [0; 1]%nat |}.
Definition iinit (d : dtype) (a b la : R) : res tst := pso_init_t d icfg (ix0 a b) false (Fin (1 / 2)) (Fin 0) (Fin la) (Fin (1 / 4)) (fun _ => [0; 1]%nat) (Some []) [] None.

Lemma trunc_dec : forall r z, (IZR z <= r < IZR z + 1 /\ (0 <= z)%Z) \/ (IZR z - 1 < r <= IZR z /\ (z <= 0)%Z) -> Ztrunc r = z.
Proof.
  intros r z [[H Hz] | [H Hz]]; unfold Ztrunc.
  - rewrite Rlt_bool_false by (apply IZR_le in Hz; lra). apply Zfloor_imp. rewrite plus_IZR. lra.
  - destruct (Rlt_bool_spec r 0) as [G|G].
    + apply Zceil_imp. rewrite minus_IZR. lra.
    + apply IZR_le in Hz. assert (IZR z = 0) by lra. assert (z = 0%Z) by (apply eq_IZR; lra). subst z. apply Zfloor_imp. cbn. lra.
Qed.
Lemma ltb_yes : forall a b, a < b -> fltb (Fin a) (Fin b) = true. Proof. intros. cbn. now apply Rltb_true. Qed.
Lemma ltb_no : forall a b, b <= a -> fltb (Fin a) (Fin b) = false. Proof. intros. cbn. destruct (Rltb a b) eqn:E; [apply Rltb_true in E; lra|reflexivity]. Qed.
Lemma q4 : fdiv (Fin 1) (fadd (Fin 0) (fmul (Fin 1) (Fin (1 / 4)))) = Fin 4.
Proof. change (fdiv (Fin 1) (Fin (0 + 1 * (1 / 4))) = Fin 4). rewrite fdiv_real by lra. f_equal. field. Qed.
Lemma icoord : forall la v a y, fmul (Fin 4)
  (fadd (fadd (fadd (fadd (fmul (fmul (Fin 0) (Fin (1 / 4))) (Fin v)) (fmul (fmul (Fin la) (Fin (1 / 4))) (fsub (Fin a) (Fin 2)))) (fmul (fmul (Fin 0) (Fin (1 / 4))) (fsub (Fin a) (Fin y))))
  (fmul (Fin 0) (Fin 0))) (fmul (Fin 0) (Fin 0))) = Fin (la * (a - 2)).
Proof. intros. cbn. f_equal. field. Qed.

(** inner_step on an unbatched state with two particles *)
Lemma istep : forall dv dx la (s : st R vec) (ev : arr vec) y1 y2 v1 v2 a b al e1 e2 va vb xa xb, s_x s = [[[Fin a]; [Fin b]]] -> s_pidx s = IAll -> s_cidx s = IAll -> s_alpha s = [[al]] -> s_active s = [0%nat] ->
  s_dt s = Fin (1 / 4) -> s_lamda s = Fin la -> s_sigma s = Fin 0 -> s_energy s = [[Fin e1; Fin e2]] ->
  cast1 dv (Fin (la * (a - 2))) = Fin va -> cast1 dv (Fin (la * (b - 2))) = Fin vb -> cast1 dx (Fin (a + 1 / 4 * va)) = Fin xa -> cast1 dx (Fin (b + 1 / 4 * vb)) = Fin xb ->
  exists ms', pso_inner_t dv dx icfg ipar iorc (fun _ _ => [Fin 0]) (mkmst s [[[Fin y1]; [Fin y2]]] [[[Fin v1]; [Fin v2]]] ev) = Ok ms' /\
    m_v ms' = [[[Fin va]; [Fin vb]]] /\ s_x (m_s ms') = [[[Fin xa]; [Fin xb]]] /\ m_ev ms' = [[[Fin xa]; [Fin xb]]] /\
    m_y ms' = [[[cast1 dv (fadd (Fin y1) (fmul (if fltb (Fin ((xa + 1) * (xa + 1))) (Fin e1) then Fin 1 else Fin 0) (fsub (Fin xa) (Fin y1))))];
                [cast1 dv (fadd (Fin y2) (fmul (if fltb (Fin ((xb + 1) * (xb + 1))) (Fin e2) then Fin 1 else Fin 0) (fsub (Fin xb) (Fin y2))))]]] /\
    s_energy (m_s ms') = [[fmin (Fin e1) (Fin ((xa + 1) * (xa + 1))); fmin (Fin e2) (Fin ((xb + 1) * (xb + 1)))]] /\
    exists dr nf fc, m_s ms' = set_energy (s_energy (m_s ms')) (set_fcalls fc (set_nfe nf (set_x [[[Fin xa]; [Fin xb]]] (set_drift dr (set_cons (Some [[[Fin 2]]]) s))))).
Proof.
  intros dv dx la s ev y1 y2 v1 v2 a b al e1 e2 va vb xa xb Hx Hp Hc Ha Hac Hdt Hla Hsg He Va Vb Xa Xb.
  unfold pso_inner_t, pso_consensus, correction. cbv zeta. cbn [m_s m_y m_v]. rewrite Hc, He, Ha, Hac. cbn [gather bind takeM mapM take1 nth_error].
  cbn [cc_call bpairs Nat.eqb length combine mapM icfg c_ccrow bind c_corr]. sst. rewrite Hp, Hx, Hdt, Hla, Hsg.
  cbn [gather bind bc2 bpairs Nat.eqb length combine mapM map fst snd c_vsub c_vadd c_vscale icfg map2 amapi mapi mapi_from c_noise p_m p_lm p_sm p_gamma ipar].
  change (@k1 R _) with 1. rewrite q4, !icoord. unfold scatter_t at 1. cbn [casta castv map]. rewrite Va, Vb. sst.
  cbn [scatter iop2 bto Nat.eqb length bind combine mapM fst snd map2 gather map bc2 bpairs].
  change (fadd (Fin a) (fmul (Fin (1 / 4)) (Fin va))) with (Fin (a + 1 / 4 * va)). change (fadd (Fin b) (fmul (Fin (1 / 4)) (Fin vb))) with (Fin (b + 1 / 4 * vb)).
  sst. unfold scatter_t at 1. cbn [casta castv map]. rewrite Xa, Xb. sst.
  cbn [scatter iop2 bto Nat.eqb length bind combine mapM fst snd map2 gather map bc2 bpairs]. unfold memorize_t. sst. rewrite He, Hp. 
  cbn [c_f icfg shifted bc2 bpairs Nat.eqb length bind combine mapM fst snd map2 gather map c_vsub c_vadd vmask c_vscale scatter_t casta castv scatter iop2 bto].
  eexists. split; [reflexivity|]. cbn [m_v m_s m_ev m_y]. sst. repeat (split; [reflexivity|]). eexists _, _, _. reflexivity.
Qed.
Definition istate (la : R) (x : arr vec) (e : arr (fl R)) (s : st R vec) : Prop :=
  s_M s = 1%nat /\ s_N s = 2%nat /\ s_x s = x /\ s_energy s = e /\ s_alpha s = [[Fin 0]] /\ s_active s = [0%nat] /\ s_dt s = Fin (1 / 4) /\ s_lamda s = Fin la /\ s_sigma s = Fin 0 /\
  (exists be, s_be s = [be]) /\ (exists bp, s_bp s = [bp]) /\ s_tracks s = [] /\ s_save s = 1%nat.
Lemma ipre : forall la x e s, istate la x e s -> exists s', pre_step icfg iorc s = Ok s' /\ istate la x e s' /\ s_pidx s' = IAll /\ s_cidx s' = IAll /\ s_xold s' = Some x.
Proof.
  intros la x e s (H1 & H2 & H3 & H4 & H5 & H6 & H7 & H8 & H9 & H10 & H11 & H12 & H13). unfold pre_step, set_batch_idx. sst. rewrite H2. cbn [icfg c_bsize Nat.eqb].
  unfold set_batch_idx_unbatched. sst. rewrite H1, H6. cbn [length Nat.eqb]. eexists. split; [reflexivity|]. unfold istate. sst. rewrite H3. repeat split; auto.
Qed.
Lemma ipost : forall la a b e1 e2 o1 o2 s, istate la [[a; b]] [[Fin e1; Fin e2]] s -> s_xold s = Some [[o1; o2]] -> exists s', mem_post_step Pso icfg s = Ok s' /\ istate la [[a; b]] [[Fin e1; Fin e2]] s'.
Proof.
  intros la a b e1 e2 o1 o2 s (H1 & H2 & H3 & H4 & H5 & H6 & H7 & H8 & H9 & (be & H10) & (bp & H11) & H12 & H13) Ho. unfold mem_post_step. sst. rewrite Ho, H3.
  cbn [map icfg c_pp]. cbv zeta. unfold update_best_cur. sst. rewrite H4. cbn [mapM argmin argmin_from]. rewrite Ho.
  unfold argmin, argmin_from. cbn [is_nan].
  assert (F : forall j q w (Hj : pick [[o1; o2]] [j] = Ok [q]) (Hw : pick [[Fin e1; Fin e2]] [j] = Ok [w]) m ud, exists s',
    (s5 <- track icfg (update_best (set_bce [w] (set_bcp [q] (set_fmin m (set_udiff ud (set_x [[a; b]] s)))))) ;;
     Ok (set_it (S (s_it s5)) (set_t (fadd (s_t s5) (s_dt s5)) s5))) = Ok s' /\ istate la [[a; b]] [[Fin e1; Fin e2]] s').
  { intros j q w _ _ m ud. unfold track, update_best. sst. rewrite H13, H12, H10, H11. cbn [trks_update bind map2 select]. rewrite Nat.mod_1_r. cbn [Nat.eqb bind fst snd].
    eexists. split; [reflexivity|]. unfold istate. sst. destruct (fltb w be); repeat split; eauto. }
  destruct (fltb (Fin e2) (Fin e1)); cbn [bind map fst snd pick mapM combine Nat.eqb length take1 nth_error]; [apply (F 1%nat)|apply (F 0%nat)]; reflexivity.
Qed.

Definition iz2 : nat -> nat -> vec := fun _ _ => [Fin 0].
(** one whole step *)
Lemma iwhole : forall dv dx la t a b y1 y2 v1 v2 e1 e2 va vb xa xb, t_d t = dv -> t_x t = dx -> istate la [[[Fin a]; [Fin b]]] [[Fin e1; Fin e2]] (m_s (t_ms t)) ->
  m_y (t_ms t) = [[[Fin y1]; [Fin y2]]] -> m_v (t_ms t) = [[[Fin v1]; [Fin v2]]] ->
  cast1 dv (Fin (la * (a - 2))) = Fin va -> cast1 dv (Fin (la * (b - 2))) = Fin vb -> cast1 dx (Fin (a + 1 / 4 * va)) = Fin xa -> cast1 dx (Fin (b + 1 / 4 * vb)) = Fin xb ->
  exists t' f1 f2, pso_step_t pp_default_dtype icfg ipar iorc iz2 t = Ok t' /\ t_d t' = dv /\ t_x t' = DFloat /\
    fmin (Fin e1) (Fin ((xa + 1) * (xa + 1))) = Fin f1 /\ fmin (Fin e2) (Fin ((xb + 1) * (xb + 1))) = Fin f2 /\
    istate la [[[Fin xa]; [Fin xb]]] [[Fin f1; Fin f2]] (m_s (t_ms t')) /\ m_v (t_ms t') = [[[Fin va]; [Fin vb]]] /\
    m_y (t_ms t') = [[[cast1 dv (fadd (Fin y1) (fmul (if fltb (Fin ((xa + 1) * (xa + 1))) (Fin e1) then Fin 1 else Fin 0) (fsub (Fin xa) (Fin y1))))];
                [cast1 dv (fadd (Fin y2) (fmul (if fltb (Fin ((xb + 1) * (xb + 1))) (Fin e2) then Fin 1 else Fin 0) (fsub (Fin xb) (Fin y2))))]]].
Proof.
  intros dv dx la [d0 d1 [s y v ev]] a b y1 y2 v1 v2 e1 e2 va vb xa xb. cbn [t_d t_x t_ms m_s m_y m_v]. intros -> -> Is -> -> Va Vb Xa Xb.
  destruct (ipre _ _ _ _ Is) as (s1 & E1 & I1 & Hp & Hc & Ho). pose proof I1 as (J1 & J2 & J3 & J4 & J5 & J6 & J7 & J8 & J9 & J10 & J11 & J12 & J13).
  destruct (istep dv dx la s1 ev y1 y2 v1 v2 a b (Fin 0) e1 e2 va vb xa xb J3 Hp Hc J5 J6 J7 J8 J9 J4 Va Vb Xa Xb) as (ms' & Em & Ev & Ex & _ & Ey & Ee & dr & nf & fc & Es).
  assert (M : forall p q : R, exists r, fmin (Fin p) (Fin q) = Fin r) by (intros p q; unfold fmin; cbn; destruct (Rltb _ _); eauto).
  destruct (M e1 ((xa + 1) * (xa + 1))) as (f1 & F1). destruct (M e2 ((xb + 1) * (xb + 1))) as (f2 & F2). rewrite F1, F2 in Ee.
  assert (I2 : istate la [[[Fin xa]; [Fin xb]]] [[Fin f1; Fin f2]] (m_s ms')) by (rewrite Es, Ee; unfold istate; sst; repeat split; assumption).
  destruct (ipost la [Fin xa] [Fin xb] f1 f2 [Fin a] [Fin b] (m_s ms') I2) as (s3 & E3 & I3); [rewrite Es; exact Ho|].
  eexists (mktst dv DFloat (mkmst s3 (m_y ms') (m_v ms') (m_ev ms'))), f1, f2. split.
  { unfold pso_step_t. cbn [t_ms m_s m_y m_v m_ev t_d t_x]. rewrite E1. cbn [bind]. unfold iz2. rewrite Em. cbn [bind]. rewrite E3. reflexivity. }
  cbn [t_d t_x t_ms m_s m_y m_v]. repeat (split; [solve [auto]|]). exact Ey.
Qed.
Lemma cast_half : cast1 DInt (Fin (1 / 2)) = Fin 0.
Proof. cbn. f_equal. apply f_equal. apply trunc_dec. left. split; [lra|lia]. Qed.
Lemma iinit_ok : forall i j la, exists t, iinit DInt (IZR i) (IZR j) la = Ok t /\ pso_exec_t pp_default_dtype icfg DInt t /\ t_d t = DInt /\ t_x t = DInt /\
  istate la [[[Fin (IZR i)]; [Fin (IZR j)]]] [[Fin ((IZR i + 1) * (IZR i + 1)); Fin ((IZR j + 1) * (IZR j + 1))]] (m_s (t_ms t)) /\
  m_y (t_ms t) = [[[Fin (IZR i)]; [Fin (IZR j)]]] /\ m_v (t_ms t) = [[[Fin (0 * IZR i)]; [Fin (0 * IZR j)]]].
Proof.
  intros i j la. eexists. split; [reflexivity|]. split.
  - eapply (pt_init _ _ _ (ix0 (IZR i) (IZR j)) false (Fin (1 / 2)) (Fin 0) (Fin la) (Fin (1 / 4)) (fun _ => [0; 1]%nat) (Some []) [] None); [| |reflexivity].
    + split; [reflexivity|repeat constructor].
    + intros _ row v [<-|[]] Hv x Hx. destruct Hv as [<-|[<-|[]]]; destruct Hx as [<-|[]]; eauto.
  - cbn [t_d t_x t_ms m_s m_y m_v]. split; [reflexivity|]. split; [reflexivity|]. split; [|split; reflexivity].
    unfold istate. cbn -[cast1]. rewrite cast_half. repeat split; eauto.
Qed.
Lemma cast_int : forall z, cast1 DInt (Fin (IZR z)) = Fin (IZR z). Proof. intros. cbn. now rewrite Ztrunc_IZR. Qed.
Lemma cast_to : forall r z, (IZR z <= r < IZR z + 1 /\ (0 <= z)%Z) \/ (IZR z - 1 < r <= IZR z /\ (z <= 0)%Z) -> cast1 DInt (Fin r) = Fin (IZR z).
Proof. intros r z H. cbn. f_equal. f_equal. now apply trunc_dec. Qed.

(** two steps of PSO on integers after which the memory does not have the stored value *)
Lemma int_memory : exists t, pso_exec_t pp_default_dtype icfg DInt t /\ m_y (t_ms t) = [[[Fin 0]; [Fin 4]]] /\ s_energy (m_s (t_ms t)) = [[Fin (1 / 4); Fin 25]] /\ c_f icfg [Fin 0] = Fin 1.
Proof.
  destruct (iinit_ok 0 4 1) as (t0 & _ & X0 & D0 & E0 & I0 & Y0 & V0).
  destruct (iwhole DInt DInt 1 t0 _ _ _ _ _ _ _ _ (IZR (-2)) (IZR 2) (IZR 0) (IZR 4) D0 E0 I0 Y0 V0) as (t1 & f1 & f2 & S1 & D1 & E1 & F1 & F2 & I1 & V1 & Y1).
  { apply cast_to. right. split; [lra|lia]. } { apply cast_to. left. split; [lra|lia]. } { apply cast_to. right. split; [lra|lia]. } { apply cast_to. left. split; [lra|lia]. }
  rewrite !ltb_no in Y1 by lra. unfold fmin in F1, F2. cbn [is_nan orb] in F1, F2. rewrite ltb_no in F1, F2 by lra. injection F1 as <-. injection F2 as <-.
  assert (Y1' : m_y (t_ms t1) = [[[Fin 0]; [Fin 4]]]).
  { rewrite Y1. do 2 f_equal; [|f_equal]; f_equal; apply (cast_to _ _); cbn [fadd fsub fmul fopp kadd kmul kopp KOps_R]; [right|left]; (split; [cbn; lra|lia]). }
  clear Y1.
  destruct (iwhole DInt DFloat 1 t1 _ _ _ _ _ _ _ _ (IZR (-2)) (IZR 2) (-1 / 2) (9 / 2) D1 E1 I1 Y1' V1) as (t2 & f1 & f2 & S2 & D2 & E2 & F1 & F2 & I2 & V2 & Y2).
  { apply cast_to. right. split; [lra|lia]. } { apply cast_to. left. split; [lra|lia]. } { cbn. f_equal. lra. } { cbn. f_equal. lra. }
  rewrite ltb_yes in Y2 by lra. rewrite ltb_no in Y2 by lra. unfold fmin in F1, F2. cbn [is_nan orb] in F1, F2. rewrite ltb_yes in F1 by lra. rewrite ltb_no in F2 by lra. injection F1 as <-. injection F2 as <-.
  exists t2. split; [|split; [|split]].
  - eapply pt_step; [eapply pt_step; [exact X0|exact S1]|exact S2].
  - rewrite Y2. do 2 f_equal; [|f_equal]; f_equal; apply (cast_to _ _); cbn [fadd fsub fmul fopp kadd kmul kopp KOps_R]; [right|left]; (split; [cbn; lra|lia]).
  - destruct I2 as (_ & _ & _ & -> & _). do 2 f_equal; [|f_equal]; f_equal; lra.
  - cbn. f_equal. lra.
Qed.

(** a step of PSO on integers which moves nothing *)
Lemma int_frozen : exists t t' msf, vector_ops icfg /\ pso_exec_t pp_default_dtype icfg DInt t /\ pso_step_t pp_default_dtype icfg ipar iorc iz2 t = Ok t' /\
  mem_step Pso icfg ipar iorc iz2 (t_ms t) = Ok msf /\ all_below_one 1 (m_v msf) /\ all_points 1 (s_x (m_s (t_ms t))) /\ s_dt (m_s (t_ms t)) = Fin (1 / 4) /\
  m_v msf = [[[Fin (- 1 / 2)]; [Fin (1 / 2)]]].
Proof.
  destruct (iinit_ok 1 3 (1 / 2)) as (t0 & _ & X0 & D0 & E0 & I0 & Y0 & V0).
  destruct (iwhole DInt DInt (1 / 2) t0 _ _ _ _ _ _ _ _ (IZR 0) (IZR 0) (IZR 1) (IZR 3) D0 E0 I0 Y0 V0) as (t1 & f1 & f2 & S1 & D1 & E1 & F1 & F2 & I1 & V1 & Y1).
  { apply cast_to. right. split; [lra|lia]. } { apply cast_to. left. split; [lra|lia]. } { apply cast_to. left. split; [lra|lia]. } { apply cast_to. left. split; [lra|lia]. }
  destruct (iwhole DFloat DFloat (1 / 2) (mktst DFloat DFloat (t_ms t0)) _ _ _ _ _ _ _ _ (- 1 / 2) (1 / 2) (7 / 8) (25 / 8) eq_refl eq_refl I0 Y0 V0) as (t2 & g1 & g2 & S2 & D2 & E2 & G1 & G2 & I2 & V2 & Y2).
  { cbn. f_equal. lra. } { cbn. f_equal. lra. } { cbn. f_equal. lra. } { cbn. f_equal. lra. }
  exists t0, t1, (t_ms t2). split; [repeat split|]. split; [exact X0|]. split; [exact S1|]. split.
  { rewrite pso_step_float in S2. destruct (mem_step Pso icfg ipar iorc iz2 (t_ms t0)) as [m2|]; [|discriminate]. cbn [rmap] in S2. injection S2 as <-. reflexivity. }
  split; [|split; [|split; [apply I0|exact V2]]].
  - rewrite V2. intros row v [<-|[]] Hv. destruct Hv as [<-|[<-|[]]]; (split; [reflexivity|]); intros a [<-|[]]; (eexists; split; [reflexivity|]); apply Rabs_def1; lra.
  - destruct I0 as (_ & _ & -> & _). intros row v [<-|[]] Hv. destruct Hv as [<-|[<-|[]]]; (split; [reflexivity|]); intros a [<-|[]]; eauto.
Qed.

(** CBO and CBOMemory on integers *)
Lemma init_it : forall (c : cfg R vec) x0 ch a sg la dt pm nm ex sv s, init c x0 ch a sg la dt pm nm ex sv = Ok s -> s_it s = 0%nat /\ s_active s = seq 0 (s_M s).
Proof.
  intros c x0 ch a sg la dt pm nm ex sv s H. unfold init in H. apply bind_ok in H. destruct H as (bp & Ebp & H).
  match type of H with Ok (init_history _ _ _ ?s1) = _ => set (s0 := s1) in * end.
  destruct (init_history_char nm ex sv s0) as (ts & h & E & _). rewrite E in H. injection H as <-. subst s0. sst. auto.
Qed.
Lemma int_cbo : exists s, exec rpso s [] /\ plain rpso (s_N s) /\ perms_valid corc s /\ all_integral (s_x s) /\ exists s', terminate rpso s = Ok (false, s').
Proof.
  destruct (cinit_ok rpso 5 1 (/ 10) 0) as (s & Hs & E & H1 & H2 & H3 & H4 & H5 & H6 & H7 & H8 & H9 & H10); [cbn; lia|lra|].
  exists s. split; [exact E|]. split; [apply cbo_plain|]. split; [exact H4|]. split.
  - rewrite H10. intros row v Hr Hv a Ha. destruct Hr as [<-|[<-|[]]]; destruct Hv as [<-|[<-|[<-|[]]]]; destruct Ha as [<-|[<-|[]]]; eexists; reflexivity.
  - assert (I : s_it s = 0%nat) by (unfold cinit in Hs; exact (proj1 (init_it _ _ _ _ _ _ _ _ _ _ _ _ Hs))).
    unfold terminate, select_active_runs. cbn [rpso cbo_cfg c_crit mapM crit_eval]. rewrite H1, I. cbn [bto length Nat.eqb repeat bind map seq nth count_occ Bool.bool_dec np_where Nat.leb].
    eexists. reflexivity.
Qed.
Lemma int_mem : exists ms, mem_exec CBOMem rpso ms (mem_evaluated ms) /\ perms_valid corc (m_s ms) /\ one_consensus_point rpso /\ s_active (m_s ms) <> [] /\
  length (s_active (m_s ms)) = s_M (m_s ms) /\ c_bsize rpso = s_N (m_s ms).
Proof.
  destruct pso_case as (ms & ms' & HC & P & _ & _ & HN & HM & _). exists ms. split; [now constructor|]. split; [exact P|]. split; [exact (cbo_one_point _ _ _ _ _ _ _ _)|].
  assert (A : s_active (m_s ms) = [0; 1]%nat).
  { destruct HC as (x0 & ch & a & sg & la & dt & pm & nm & ex & sv & A1 & A2 & A3 & A4 & A5 & Hi). unfold mem_init in Hi.
    apply bind_ok in Hi as (s & Hs & Hi). injection Hi as <-. cbn [m_s] in *. sst. sstall. destruct (init_it _ _ _ _ _ _ _ _ _ _ _ _ Hs) as [_ ->]. now rewrite HM. }
  rewrite A, HM, <- HN. repeat split; discriminate.
Qed.
