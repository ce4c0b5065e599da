(** * Proofs for integer ensembles *)
From Coq Require Import String List Arith Bool Reals ZArith Lia Lra.
From Flocq Require Import Core.Raux.
From Verif Require Import Scalar Np NpFacts State Pdyn PdynOk Exec TermSpec TermFacts RunFacts PdynFacts StepFrame RVec RVecFacts Consensus ConsSpec ConsFacts Sched SchedFacts Cbo Memory MemSpec MemRaise Dtype DtypeSpec.
Import ListNotations.
Open Scope R_scope.

(** ** casts *)
Lemma cast1_float : forall a, cast1 DFloat a = a. Proof. destruct a; reflexivity. Qed.
Lemma castv_float : forall v, castv DFloat v = v. Proof. intros v. unfold castv. rewrite <- (map_id v) at 2. apply map_ext. exact cast1_float. Qed.
Lemma casta_float : forall X, casta DFloat X = X.
Proof.
  intros X. unfold casta. rewrite <- (map_id X) at 2. apply map_ext. intros r. rewrite <- (map_id r) at 2. apply map_ext. exact castv_float.
Qed.
Lemma cast1_int : forall a, exists z, cast1 DInt a = Fin (IZR z).
Proof. intros [r| | |]; eexists; reflexivity. Qed.
Lemma castv_int : forall v, integral (castv DInt v).
Proof. intros v a H. apply in_map_iff in H as (b & <- & _). apply cast1_int. Qed.
Lemma casta_int : forall X, all_integral (casta DInt X).
Proof. intros X row v H1 H2. apply in_map_iff in H1 as (r & <- & _). apply in_map_iff in H2 as (w & <- & _). apply castv_int. Qed.
Lemma castv_fix : forall v, integral v -> castv DInt v = v.
Proof.
  induction v as [|a v IH]; intros H; [reflexivity|]. cbn [castv map]. f_equal.
  - destruct (H a (or_introl eq_refl)) as (z & ->). cbn. now rewrite Ztrunc_IZR.
  - apply IH. intros b Hb. apply H. now right.
Qed.
Lemma casta_fix : forall X, all_integral X -> casta DInt X = X.
Proof.
  intros X H. unfold casta. rewrite <- (map_id X) at 2. apply map_ext_in. intros r Hr. rewrite <- (map_id r) at 2. apply map_ext_in.
  intros v Hv. apply castv_fix. exact (H r v Hr Hv).
Qed.
Lemma casta_fix_d : forall d X, (d = DInt -> all_integral X) -> casta d X = X.
Proof. intros [] X H; [apply casta_fix; auto|apply casta_float]. Qed.

(** ** assignment commutes with a map over the cells *)
Definition rmap {A B} (f : A -> B) (r : res A) : res B := match r with Ok a => Ok (f a) | Err e => Err e end.
Lemma bto_map : forall A B (f : A -> B) n l, bto n (map f l) = rmap (map f) (bto n l).
Proof.
  intros A B f n l. unfold bto. rewrite map_length. destruct (length l =? n)%nat; [reflexivity|]. destruct l as [|a [|b l]]; try reflexivity.
  cbn. f_equal. induction n; cbn; congruence.
Qed.
Lemma mapM_rmap : forall A A' B B' (f : A -> res B) (f' : A' -> res B') (g : A -> A') (h : B -> B') l,
  (forall a, In a l -> f' (g a) = rmap h (f a)) -> mapM f' (map g l) = rmap (map h) (mapM f l).
Proof.
  induction l as [|a l IH]; intros H; [reflexivity|]. cbn [map mapM]. rewrite (H a (or_introl eq_refl)). destruct (f a); cbn; auto.
  rewrite IH by (intros; apply H; now right). destruct (mapM f l); reflexivity.
Qed.
Lemma combine_map2 : forall A A' B B' (f : A -> A') (g : B -> B') l l', combine (map f l) (map g l') = map (fun p => (f (fst p), g (snd p))) (combine l l').
Proof. induction l as [|a l IH]; intros [|b l']; cbn; auto. now rewrite IH. Qed.
Lemma map2_snd_map : forall A B (f : A -> B) l l', map2 (fun _ b => b) (map f l) (map f l') = map f (map2 (fun _ b : A => b) l l').
Proof. induction l as [|a l IH]; intros [|b l']; cbn; auto. now rewrite IH. Qed.
Lemma mapiM_rmap : forall A A' B B' (f : nat -> A -> res B) (f' : nat -> A' -> res B') (g : A -> A') (h : B -> B') l,
  (forall i a, f' i (g a) = rmap h (f i a)) -> mapiM f' (map g l) = rmap (map h) (mapiM f l).
Proof.
  intros. unfold mapiM. rewrite map_length.
  replace (combine (seq 0 (length l)) (map g l)) with (map (fun p : nat * A => (fst p, g (snd p))) (combine (seq 0 (length l)) l)).
  - apply mapM_rmap. intros a _. cbn. apply H.
  - clear. generalize 0%nat as k. induction l as [|a l IH]; intros k; cbn; auto. now rewrite IH.
Qed.
Lemma nth_map_nil : forall A B (f : A -> B) (Y : arr A) k, nth k (map (map f) Y) [] = map f (nth k Y []).
Proof. intros. change (@nil B) with (map f []) at 1. apply map_nth. Qed.
Lemma mapi_from_map : forall A B (h : A -> B) (F : nat -> A -> A) (G : nat -> B -> B) l i, (forall i a, G i (h a) = h (F i a)) ->
  mapi_from i G (map h l) = map h (mapi_from i F l).
Proof. induction l as [|a l IH]; intros i H; cbn; auto. rewrite H. f_equal. apply IH, H. Qed.
Lemma put1_map : forall A B (f : A -> B) ix old vals, put1 ix (map f old) (map f vals) = rmap (map f) (put1 ix old vals).
Proof.
  intros. unfold put1. rewrite map_length. destruct (forallb _ ix); [|reflexivity]. rewrite bto_map. destruct (bto (length ix) vals) as [v|]; [|reflexivity].
  cbn. f_equal. apply mapi_from_map. intros i a. destruct (last_index i ix); auto. apply map_nth.
Qed.
Lemma scatter_map : forall A B (f : A -> B) i X Y, scatter i (map (map f) X) (map (map f) Y) = rmap (map (map f)) (scatter i X Y).
Proof.
  intros A B f [|rs|rs bs] X Y; cbn [scatter].
  - unfold iop2. rewrite bto_map, map_length. destruct (bto (length X) Y) as [Y1|]; [|reflexivity]. cbn [rmap bind]. rewrite combine_map2.
    apply mapM_rmap. intros [x y] _. cbn. rewrite map_length, bto_map. destruct (bto (length x) y); cbn; auto. f_equal. apply map2_snd_map.
  - rewrite map_length. destruct (forallb _ rs); [|reflexivity]. rewrite bto_map. destruct (bto (length rs) Y) as [Y1|]; [|reflexivity]. cbn [rmap bind].
    apply mapiM_rmap. intros k a. destruct (last_index k rs) as [j|]; [|reflexivity]. rewrite map_length, nth_map_nil. apply bto_map.
  - rewrite map_length. destruct (forallb _ rs && _)%bool; [|reflexivity]. rewrite bto_map. destruct (bto (length rs) Y) as [Y1|]; [|reflexivity]. cbn [rmap bind].
    apply mapiM_rmap. intros k a. destruct (last_index k rs) as [j|]; [|reflexivity]. rewrite nth_map_nil. apply put1_map.
Qed.
Lemma scatter_t_eq : forall d i X Y, (d = DInt -> all_integral X) -> scatter_t d i X Y = rmap (casta d) (scatter i X Y).
Proof. intros d i X Y H. unfold scatter_t. rewrite <- (casta_fix_d d X H) at 1. apply (scatter_map _ _ (castv d)). Qed.
Lemma scatter_t_int : forall i X Y Z, all_integral X -> scatter_t DInt i X Y = Ok Z -> all_integral Z.
Proof.
  intros i X Y Z H E. rewrite scatter_t_eq in E by auto. destruct (scatter i X Y) as [W|]; [|discriminate]. cbn in E.
  injection E as <-. apply casta_int.
Qed.

(** ** alpha *)
Lemma alpha_number : forall d M r act, (forall m, In m act -> (m < M)%nat) -> alpha_rows (init_alpha d M (ANum r)) act = Ok (repeat [cast1 d (Fin r)] (length act)).
Proof.
  intros d M r act. induction act as [|m act IH]; intros H; [reflexivity|]. cbn [alpha_rows init_alpha] in *. unfold takeM in *. cbn [mapM]. unfold take1 at 1. rewrite nth_error_repeat.
  destruct (Nat.ltb_spec m M) as [_|G]; [|specialize (H m (or_introl eq_refl)); lia]. cbn [bind]. rewrite IH; [reflexivity|].
  intros k Hk. apply H. now right.
Qed.
Lemma trunc_small : forall r, Rabs r < 1 -> IZR (Ztrunc r) = 0.
Proof.
  intros r H. apply Rabs_def2 in H as [H1 H2]. unfold Ztrunc. destruct (Rlt_bool_spec r 0) as [G|G].
  - replace (Zceil r) with 0%Z; [reflexivity|]. symmetry. apply Zceil_imp. cbn. lra.
  - replace (Zfloor r) with 0%Z; [reflexivity|]. symmetry. apply Zfloor_imp. cbn. lra.
Qed.
Lemma alpha_int_small : forall M r act, Rabs r < 1 -> (forall m, In m act -> (m < M)%nat) ->
  alpha_rows (init_alpha DInt M (ANum r)) act = Ok (repeat [Fin 0] (length act)).
Proof. intros M r act H Ha. rewrite alpha_number by auto. cbn. now rewrite trunc_small. Qed.
Lemma alpha_float : forall M r act, (forall m, In m act -> (m < M)%nat) -> alpha_rows (init_alpha DFloat M (ANum r)) act = Ok (repeat [Fin r] (length act)).
Proof. intros. now apply alpha_number. Qed.
Lemma alpha_scalar : forall d M r act, alpha_rows (init_alpha d M (ANp0 r)) act = Err IndexError. Proof. reflexivity. Qed.
Lemma alpha_flat : forall d M l act, alpha_rows (init_alpha d M (ANp1 l)) act = Err IndexError. Proof. reflexivity. Qed.
Lemma mapM_err : forall A B (f : A -> res B) e l, (exists a, In a l /\ f a = Err e) -> (forall a e', In a l -> f a = Err e' -> e' = e) -> mapM f l = Err e.
Proof.
  induction l as [|a l IH]; intros (b & Hb & E) H; [destruct Hb|]. cbn. destruct (f a) as [c|e'] eqn:Ea.
  - cbn. rewrite IH; auto. { destruct Hb as [<-|Hb]; [congruence|]. exists b. auto. } { intros x e' Hx Ex. apply (H x e'); [now right|exact Ex]. }
  - cbn. f_equal. apply (H a e'); [now left|exact Ea].
Qed.
Lemma alpha_short : forall d M l act, (exists m, In m act /\ (length l <= m)%nat) -> alpha_rows (init_alpha d M (ANp2 l)) act = Err IndexError.
Proof.
  intros d M l act (m & H1 & H2). cbn. apply mapM_err.
  - exists m. split; [exact H1|]. unfold take1. now rewrite (proj2 (nth_error_None l m) H2).
  - intros a e _ E. unfold take1 in E. destruct (nth_error l a); congruence.
Qed.

Lemma Rsum_const : forall A (l : list A) c, Rsum (map (fun _ => c) l) = INR (length l) * c.
Proof. intros. induction l as [|a l IH]; [cbn; lra|]. cbn [map length]. rewrite Rsum_cons, IH, S_INR. lra. Qed.
Lemma mean_alpha_zero : forall es d X, es <> [] -> ensemble (length es) d X -> cc_default (map Fin es) (map floats X) (Fin 0) = [floats (plain_mean d X)].
Proof.
  intros es d X Hne Hens.
  assert (A : admissible 0 (map Fin es)).
  { split. - intros e He. apply in_map_iff in He as (x & <- & _). left. eauto.
    - destruct es as [|x es]; [congruence|]. exists x. now left. }
  rewrite (consensus_gibbs 0 (map Fin es) d X A); [|now rewrite map_length]. f_equal. f_equal. unfold gibbs_point, plain_mean. apply map_ext. intros i.
  unfold gibbs_mean. destruct Hens as [Hl _]. rewrite Hl. f_equal.
  - clear - Hl. revert es Hl. induction X as [|p X IH]; intros [|e es] Hl; try discriminate; [reflexivity|].
    cbn [map combine]. rewrite !Rsum_cons. cbn [fst snd gibbs]. rewrite (IH es) by (cbn in Hl; congruence).
    replace (exp (- 0 * e)) with 1; [unfold coord; lra|]. replace (- 0 * e) with 0 by lra. now rewrite exp_0.
  - rewrite map_map. erewrite map_ext; [rewrite (Rsum_const _ es 1); lra|]. intros e. cbn. replace (- 0 * e) with 0 by lra. apply exp_0.
Qed.

(** ** CBO and CBOMemory *)
Lemma step_float : forall c o s, step_t DFloat c o s = step c o s. Proof. reflexivity. Qed.
Lemma mem_step_float : forall c p o z2 ms, mem_step_t DFloat c p o z2 ms = mem_step CBOMem c p o z2 ms.
Proof.
  intros. unfold mem_step_t, mem_step, mem_inner. destruct (pre_step c o (m_s ms)) as [s1|]; [|reflexivity]. cbn [bind m_s m_y m_v].
  change (mem_cbo_step_t DFloat c o s1 (m_y ms)) with (mem_cbo_step c o s1 (m_y ms)). destruct (mem_cbo_step c o s1 (m_y ms)) as [q1|]; [|reflexivity]. cbn [bind].
  destruct (memory_step c p z2 q1 (m_y ms)) as [q2|]; [|reflexivity]. cbn [bind]. destruct (gather (s_pidx q2) (s_x q2)) as [xe|]; reflexivity.
Qed.
Lemma step_int_raises : forall c o s s', step c o s = Ok s' -> step_t DInt c o s = Err TypeError.
Proof.
  intros c o s s' H. unfold step_t, step in *. destruct (pre_step c o s) as [s1|]; [|discriminate]. cbn [bind] in *.
  unfold cbo_step_t, cbo_step in *. destruct (compute_consensus c s1) as [s2|]; [|discriminate]. cbn [bind] in *. destruct (s_cons s2) as [cpt|]; [|reflexivity].
  destruct (gather (s_pidx s2) (s_x s2)); [|discriminate]. cbn [bind] in *. destruct (bc2 (c_vsub c) a cpt) as [d0|]; [|discriminate]. cbn [bind] in *.
  destruct (correction c cpt d0 s2) as [[dr s3]|]; [|discriminate]. reflexivity.
Qed.
Theorem cbo_int_step : forall c s log o, exec c s log -> plain c (s_N s) -> perms_valid o s -> step_t DInt c o s = Err TypeError.
Proof. intros c s log o E P V. destruct (exec_step_good c s log o E P V) as (s' & Hs). eapply step_int_raises; eauto. Qed.
Theorem cbo_int_optimize : forall c s log sched os fuel i b s', exec c s log -> plain c (s_N s) -> perms_valid (os i) s -> terminate c s = Ok (b, s') ->
  optimize_loop c (step_t DInt c) sched os (S fuel) i s = Some (if b then Ok s' else Err TypeError).
Proof.
  intros c s log sched os fuel i b s' E P V T. cbn. rewrite T. destruct b; [reflexivity|].
  destruct (term_frame c s s' false T) as (K1 & K2 & _).
  rewrite (cbo_int_step c s' log (os i) (ex_term _ _ _ _ _ E T)); [reflexivity|now rewrite K2|].
  unfold perms_valid in *. rewrite K1, K2 in *. exact V.
Qed.

Lemma mem_int_raises : forall c p o z2 ms ms', mem_step CBOMem c p o z2 ms = Ok ms' -> mem_step_t DInt c p o z2 ms = Err TypeError.
Proof.
  intros c p o z2 ms ms' H. unfold mem_step_t, mem_step, mem_inner in *. destruct (pre_step c o (m_s ms)) as [s1|]; [|discriminate]. cbn [bind m_s m_y m_v] in *.
  unfold mem_cbo_step_t, mem_cbo_step in *. destruct (mem_consensus c s1 (m_y ms)) as [cpt|]; [|discriminate]. cbn [bind] in *. cbv zeta in *.
  destruct (gather (s_pidx (set_cons (Some cpt) s1)) (s_x (set_cons (Some cpt) s1))) as [xp|]; [|discriminate]. cbn [bind] in *.
  destruct (bc2 (c_vsub c) xp cpt) as [d0|]; [|discriminate]. cbn [bind] in *. destruct (correction c cpt d0 (set_cons (Some cpt) s1)) as [[dr s3]|]; [|discriminate]. reflexivity.
Qed.
Theorem mem_int_step : forall c p o z2 ms log, mem_exec CBOMem c ms log -> perms_valid o (m_s ms) -> one_consensus_point c -> s_active (m_s ms) <> [] ->
  length (s_active (m_s ms)) = s_M (m_s ms) -> (c_bsize c = s_N (m_s ms) \/ (c_partial c = false /\ c_bsize c = 1%nat)) -> mem_step_t DInt c p o z2 ms = Err TypeError.
Proof.
  intros c p o z2 ms log E V OC Hne HA Hb. destruct (mem_works CBOMem c p o z2 ms log E V OC Hne HA) as (ms' & Hs); [destruct Hb as [|[]]; auto|]. eapply mem_int_raises; eauto.
Qed.

Lemma alpha_stays_zero : forall n k (s s' : st R vec), param PAlpha s = repeat (Fin 0) k -> times (S n) (multiply_update PAlpha (Fin (21 / 20)) (Fin 100000)) s = Ok s' -> param PAlpha s' = repeat (Fin 0) k.
Proof.
  intros n k s s' H T. assert (R0 : repeat (Fin 0) k = map Fin (repeat 0 k)) by (clear; induction k; cbn; congruence). rewrite R0 in H.
  rewrite (multiply_closed _ n PAlpha (21 / 20) 100000 s s' (repeat 0 k)); [|lra|lra|exact H|exact T].
  clear. induction k; cbn [repeat map]; [reflexivity|]. f_equal; [|exact IHk]. f_equal. rewrite Rmult_0_r. apply Rmin_right. lra.
Qed.
(** ** PSO *)
(** the part of inner_step before the velocities are stored *)
Definition pso_vel (c : cfg R vec) (p : mpar R) (o : orc vec) (z2 : nat -> nat -> vec) (ms : mst R vec) : res (arr vec * (st R vec * arr vec)) :=
  let s := m_s ms in
  cpt <- pso_consensus c s (m_y ms) ;;
  let s1 := set_cons (Some cpt) s in
  xp <- gather (s_pidx s1) (s_x s1) ;;
  cd <- bc2 (c_vsub c) xp cpt ;;
  yp <- gather (s_pidx s1) (m_y ms) ;;
  md <- bc2 (c_vsub c) xp yp ;;
  let sc := amapi (fun k n d => c_vscale c (s_sigma s1) (c_noise c (s_dt s1) d (o_z o k n))) cd in
  let sm := amapi (fun k n d => c_vscale c (p_sm p) (c_noise c (s_dt s1) d (z2 k n))) md in
  vp <- gather (s_pidx s1) (m_v ms) ;;
  ds <- correction c cpt (map (map (c_vscale c (fmul (s_lamda s1) (s_dt s1)))) cd) s1 ;;
  let '(kd, s2) := ds in
  a1 <- bc2 (c_vadd c) (map (map (c_vscale c (fmul (p_m p) (s_dt s2)))) vp) kd ;;
  a2 <- bc2 (c_vadd c) a1 (map (map (c_vscale c (fmul (p_lm p) (s_dt s2)))) md) ;;
  a3 <- bc2 (c_vadd c) a2 sc ;;
  a4 <- bc2 (c_vadd c) a3 sm ;;
  let q := fadd (p_m p) (fmul (p_gamma p) (s_dt s2)) in
  Ok (map (map (c_vscale c (fdiv (Fin k1) q))) a4, (s2, md)).
Ltac bd := match goal with |- context [bind ?r _] => destruct r; [cbn [bind]|reflexivity] end.
Lemma pso_inner_t_split : forall dv dx c p o z2 ms, pso_inner_t dv dx c p o z2 ms =
  bind (pso_vel c p o z2 ms) (fun w => let '(W, (s2, md)) := w in
    v' <- scatter_t dv (s_pidx s2) (m_v ms) W ;;
    xq <- gather (s_pidx s2) (s_x s2) ;;
    vq <- gather (s_pidx s2) v' ;;
    xq' <- bc2 (c_vadd c) xq (map (map (c_vscale c (s_dt s2))) vq) ;;
    x' <- scatter_t dx (s_pidx s2) (s_x s2) xq' ;;
    xe <- gather (s_pidx s2) x' ;;
    let s3 := set_fcalls (s_fcalls s2 + npoints xe) (set_nfe (map (fun n => n + shape1 xe)%nat (s_nfe s2)) (set_x x' (set_drift (Some md) s2))) in
    memorize_t dv c s3 (m_y ms) v' xe (map (map (c_f c)) xe)).
Proof.
  intros. unfold pso_inner_t, pso_vel. cbv zeta. do 6 bd. match goal with |- context [bind ?r _] => destruct r as [[kd s2]|]; [cbn [bind]|reflexivity] end.
  do 4 bd. reflexivity.
Qed.
Lemma memorize_float : forall c s y v xe en, memorize_t DFloat c s y v xe en = memorize c false s y v xe en.
Proof. intros. unfold memorize_t, memorize, scatter_t. do 5 bd. now rewrite casta_float. Qed.
Lemma bind_ext : forall A B (r : res A) (k k' : A -> res B), (forall a, k a = k' a) -> bind r k = bind r k'.
Proof. intros A B [a|e] k k' H; cbn; auto. Qed.
Lemma pso_inner_float : forall c p o z2 ms, pso_inner_t DFloat DFloat c p o z2 ms = pso_inner c p o z2 ms.
Proof.
  intros. unfold pso_inner_t, pso_inner. cbv zeta. do 6 (apply bind_ext; intro). apply bind_ext; intros [kd s2]. do 4 (apply bind_ext; intro).
  unfold scatter_t. rewrite casta_float. do 4 (apply bind_ext; intro). rewrite casta_float. do 2 (apply bind_ext; intro). apply memorize_float.
Qed.
Theorem pso_step_float : forall ppd c p o z2 ms, pso_step_t ppd c p o z2 (mktst DFloat DFloat ms) =
  rmap (fun ms' => mktst DFloat (ppd DFloat) ms') (mem_step Pso c p o z2 ms).
Proof.
  intros. unfold pso_step_t, mem_step. cbn [t_ms t_d t_x]. bd. rewrite pso_inner_float. bd. bd. reflexivity.
Qed.

Lemma pso_vel_frame : forall c p o z2 ms W s2 md, pso_vel c p o z2 ms = Ok (W, (s2, md)) ->
  s_x s2 = s_x (m_s ms) /\ s_pidx s2 = s_pidx (m_s ms) /\ s_dt s2 = s_dt (m_s ms).
Proof.
  intros c p o z2 ms W s2 md H. unfold pso_vel in H. cbv zeta in H. do 6 (apply bind_ok in H; destruct H as (? & _ & H)).
  apply bind_ok in H. destruct H as ([kd s2'] & E & H). do 4 (apply bind_ok in H; destruct H as (? & _ & H)).
  assert (s2' = s2) by congruence. subst s2'. apply correction_ok in E as (fc & nf & -> & _). auto.
Qed.
Lemma memorize_t_out : forall d c s y v xe en ms', memorize_t d c s y v xe en = Ok ms' ->
  m_v ms' = v /\ s_x (m_s ms') = s_x s /\ exists Y, scatter_t d (s_pidx s) y Y = Ok (m_y ms').
Proof.
  intros d c s y v xe en ms' H. unfold memorize_t in H. do 5 (apply bind_ok in H; destruct H as (? & _ & H)).
  apply bind_ok in H. destruct H as (y' & E & H). apply bind_ok in H. destruct H as (? & _ & H). injection H as <-. cbn [m_v m_s m_y]. sst. eauto.
Qed.
Lemma pso_inner_t_out : forall dv dx c p o z2 ms ms', pso_inner_t dv dx c p o z2 ms = Ok ms' ->
  exists W s2 md xq vq xq', pso_vel c p o z2 ms = Ok (W, (s2, md)) /\ scatter_t dv (s_pidx (m_s ms)) (m_v ms) W = Ok (m_v ms') /\
    gather (s_pidx (m_s ms)) (s_x (m_s ms)) = Ok xq /\ gather (s_pidx (m_s ms)) (m_v ms') = Ok vq /\
    bc2 (c_vadd c) xq (map (map (c_vscale c (s_dt (m_s ms)))) vq) = Ok xq' /\ scatter_t dx (s_pidx (m_s ms)) (s_x (m_s ms)) xq' = Ok (s_x (m_s ms')) /\
    exists Y i, scatter_t dv i (m_y ms) Y = Ok (m_y ms').
Proof.
  intros dv dx c p o z2 ms ms' H. rewrite pso_inner_t_split in H. apply bind_ok in H. destruct H as ([W [s2 md]] & E & H).
  destruct (pso_vel_frame _ _ _ _ _ _ _ _ E) as (F1 & F2 & F3). rewrite F1, F2, F3 in H.
  apply bind_ok in H. destruct H as (v' & E1 & H). apply bind_ok in H. destruct H as (xq & E2 & H). apply bind_ok in H. destruct H as (vq & E3 & H).
  apply bind_ok in H. destruct H as (xq' & E4 & H). apply bind_ok in H. destruct H as (x' & E5 & H). apply bind_ok in H. destruct H as (xe & E6 & H).
  cbv zeta in H. apply memorize_t_out in H as (G1 & G2 & Y & G3). sstall. rewrite G1, G2.
  exists W, s2, md, xq, vq, xq'. repeat split; auto. eauto.
Qed.

(** post-processing is the only change to x after inner_step *)
Lemma best_cur_x : forall k (s s' : st R vec), match k with CBOMem => mem_update_best_cur s | Pso => update_best_cur s end = Ok s' -> s_x s' = s_x s.
Proof.
  intros [] s s' H; unfold mem_update_best_cur, update_best_cur in H; apply bind_ok in H; destruct H as (am & _ & H); cbv zeta in H;
    apply bind_ok in H; destruct H as (q & _ & H); apply bind_ok in H; destruct H as (e & _ & H); injection H as <-; reflexivity.
Qed.
Lemma mem_post_x : forall k c (s s' : st R vec), mem_post_step k c s = Ok s' -> s_x s' = map (map (c_pp c)) (s_x s).
Proof.
  intros k c s s' H. unfold mem_post_step in H. cbv zeta in H. apply bind_ok in H. destruct H as (s3 & E3 & H). apply bind_ok in H. destruct H as (s5 & E5 & H).
  apply track_frame in E5 as (ti & ts & h & ->). injection H as <-. apply best_cur_x in E3. sst. unfold update_best. sst. rewrite E3.
  destruct (s_xold (set_x (map (map (c_pp c)) (s_x s)) s)); reflexivity.
Qed.

(** *** integer velocities and memories *)
Lemma init_x_eq : forall c x0 ch al sg la dt perm0 names extra save (s : st R vec), init c x0 ch al sg la dt perm0 names extra save = Ok s -> s_x s = x0.
Proof.
  intros c x0 ch al sg la dt perm0 names extra save s H. unfold init in H. cbv zeta in H. apply bind_ok in H. destruct H as (bp & _ & H).
  match type of H with Ok (init_history ?n ?e ?sv ?s0) = _ => destruct (init_history_char n e sv s0) as (ts & h & E & _) end.
  rewrite E in H. injection H as <-. reflexivity.
Qed.
Lemma init_alpha_eq : forall c x0 ch al sg la dt perm0 names extra save (s : st R vec), init c x0 ch al sg la dt perm0 names extra save = Ok s -> param PAlpha s = repeat al (length x0).
Proof.
  intros c x0 ch al sg la dt perm0 names extra save s H. unfold init in H. cbv zeta in H. apply bind_ok in H. destruct H as (bp & _ & H).
  match type of H with Ok (init_history ?n ?e ?sv ?s0) = _ => destruct (init_history_char n e sv s0) as (ts & h & E & _) end.
  rewrite E in H. injection H as <-. unfold param. sst. clear E. induction (length x0) as [|n IH]; [reflexivity|]. cbn [repeat concat app]. f_equal. exact IH.
Qed.
Theorem init_t_alpha : forall c x0 ch r sg la dt perm0 names extra save (s : st R vec), Rabs r < 1 ->
  (init_t DInt c x0 ch (Fin r) sg la dt perm0 names extra save = Ok s -> param PAlpha s = repeat (Fin 0) (length x0)) /\
  (init_t DFloat c x0 ch (Fin r) sg la dt perm0 names extra save = Ok s -> param PAlpha s = repeat (Fin r) (length x0)) /\
  (forall t, pso_init_t DInt c x0 ch (Fin r) sg la dt perm0 names extra save = Ok t -> param PAlpha (m_s (t_ms t)) = repeat (Fin 0) (length x0)) /\
  (forall t, pso_init_t DFloat c x0 ch (Fin r) sg la dt perm0 names extra save = Ok t -> param PAlpha (m_s (t_ms t)) = repeat (Fin r) (length x0)).
Proof.
  intros c x0 ch r sg la dt perm0 names extra save s Hr.
  assert (Z : cast1 DInt (Fin r) = Fin 0) by (cbn; now rewrite trunc_small).
  assert (P : forall d t, pso_init_t d c x0 ch (Fin r) sg la dt perm0 names extra save = Ok t -> param PAlpha (m_s (t_ms t)) = repeat (cast1 d (Fin r)) (length x0)).
  { intros d t H. unfold pso_init_t in H. apply bind_ok in H. destruct H as (ms & Em & H). injection H as <-. unfold mem_init in Em. apply bind_ok in Em. destruct Em as (s1 & Es & Em).
    injection Em as <-. cbn [t_ms m_s]. rewrite <- (init_alpha_eq _ _ _ _ _ _ _ _ _ _ _ _ Es). unfold param. sst. reflexivity. }
  repeat split.
  - intros H. unfold init_t in H. rewrite (init_alpha_eq _ _ _ _ _ _ _ _ _ _ _ _ H), Z. reflexivity.
  - intros H. exact (init_alpha_eq _ _ _ _ _ _ _ _ _ _ _ _ H).
  - intros t H. rewrite (P _ _ H), Z. reflexivity.
  - intros t H. rewrite (P _ _ H). reflexivity.
Qed.
Definition int_inv (t : tst) : Prop := t_d t = DInt -> all_integral (m_v (t_ms t)) /\ all_integral (m_y (t_ms t)).
Lemma exec_dtype : forall ppd c d t, pso_exec_t ppd c d t -> t_d t = d.
Proof.
  intros ppd c d t E. induction E; auto.
  - unfold pso_init_t in H1. apply bind_ok in H1. destruct H1 as (ms & _ & H1). injection H1 as <-. reflexivity.
  - unfold pso_step_t in H. apply bind_ok in H. destruct H as (s1 & _ & H). cbv zeta in H. apply bind_ok in H. destruct H as (ms2 & _ & H).
    apply bind_ok in H. destruct H as (s3 & _ & H). injection H as <-. exact IHE.
Qed.
Lemma step_t_out : forall ppd c p o z2 t t', pso_step_t ppd c p o z2 t = Ok t' -> exists s1 ms2,
  pre_step c o (m_s (t_ms t)) = Ok s1 /\ pso_inner_t (t_d t) (t_x t) c p o z2 (mkmst s1 (m_y (t_ms t)) (m_v (t_ms t)) (m_ev (t_ms t))) = Ok ms2 /\
  t_d t' = t_d t /\ t_x t' = ppd (t_x t) /\ m_y (t_ms t') = m_y ms2 /\ m_v (t_ms t') = m_v ms2 /\ s_x (m_s (t_ms t')) = map (map (c_pp c)) (s_x (m_s ms2)).
Proof.
  intros ppd c p o z2 t t' H. unfold pso_step_t in H. apply bind_ok in H. destruct H as (s1 & E1 & H). cbv zeta in H. apply bind_ok in H. destruct H as (ms2 & E2 & H).
  apply bind_ok in H. destruct H as (s3 & E3 & H). injection H as <-. exists s1, ms2. cbn [t_d t_x t_ms m_s m_y m_v]. apply mem_post_x in E3. auto 10.
Qed.
Theorem pso_int : forall ppd c t, vector_ops c -> pso_exec_t ppd c DInt t -> all_integral (m_v (t_ms t)) /\ all_integral (m_y (t_ms t)).
Proof.
  intros ppd c t (_ & _ & Vs) E. induction E; auto.
  - unfold pso_init_t in H1. apply bind_ok in H1. destruct H1 as (ms & Em & H1). injection H1 as <-. unfold mem_init in Em. apply bind_ok in Em. destruct Em as (s & Es & Em).
    injection Em as <-. cbn [t_ms m_v m_y]. rewrite (init_x_eq _ _ _ _ _ _ _ _ _ _ _ _ Es). specialize (H0 eq_refl). split; auto. rewrite Vs.
    intros row v G1 G2. apply in_map_iff in G1 as (r & <- & G1). apply in_map_iff in G2 as (w & <- & G2). intros a Ha. apply in_map_iff in Ha as (b & <- & Hb).
    destruct (H0 r w G1 G2 b Hb) as (z & ->). exists 0%Z. cbn. f_equal. lra.
  - pose proof (exec_dtype _ _ _ _ E) as Ed. destruct (step_t_out _ _ _ _ _ _ _ H) as (s1 & ms2 & _ & Hi & _ & _ & -> & -> & _). rewrite Ed in Hi.
    destruct (pso_inner_t_out _ _ _ _ _ _ _ _ Hi) as (W & s2 & md & xq & vq & xq' & _ & Hv & _ & _ & _ & _ & Y & i & Hy). cbn [m_s m_v m_y] in *.
    destruct IHE as [I1 I2]. split; [exact (scatter_t_int _ _ _ _ I1 Hv)|exact (scatter_t_int _ _ _ _ I2 Hy)].
Qed.
Lemma pso_inner_vel : forall c p o z2 ms ms', pso_inner c p o z2 ms = Ok ms' ->
  exists W s2 md, pso_vel c p o z2 ms = Ok (W, (s2, md)) /\ scatter (s_pidx (m_s ms)) (m_v ms) W = Ok (m_v ms').
Proof.
  intros c p o z2 ms ms' H. rewrite <- pso_inner_float in H. destruct (pso_inner_t_out _ _ _ _ _ _ _ _ H) as (W & s2 & md & xq & vq & xq' & H1 & H2 & _).
  exists W, s2, md. split; auto. unfold scatter_t in H2. now rewrite casta_float in H2.
Qed.
(** the stored velocity is the integer part of the documented one *)
Theorem pso_velocity : forall ppd c p o z2 t t' msf, vector_ops c -> pso_exec_t ppd c DInt t -> pso_step_t ppd c p o z2 t = Ok t' ->
  mem_step Pso c p o z2 (t_ms t) = Ok msf -> m_v (t_ms t') = casta DInt (m_v msf).
Proof.
  intros ppd c p o z2 t t' msf V E H Hf. destruct (pso_int _ _ _ V E) as [I1 I2]. pose proof (exec_dtype _ _ _ _ E) as Ed.
  destruct (step_t_out _ _ _ _ _ _ _ H) as (s1 & ms2 & E1 & Hi & _ & _ & _ & -> & _). rewrite Ed in Hi.
  destruct (pso_inner_t_out _ _ _ _ _ _ _ _ Hi) as (W & s2 & md & xq & vq & xq' & HW & Hv & _).
  unfold mem_step in Hf. rewrite E1 in Hf. cbn [bind] in Hf. apply bind_ok in Hf. destruct Hf as (msi & Hf & H2). apply bind_ok in H2. destruct H2 as (s3 & _ & H2).
  injection H2 as <-. cbn [m_v]. destruct (pso_inner_vel _ _ _ _ _ _ Hf) as (W' & s2' & md' & HW' & Hv').
  assert (W' = W) by congruence. subst W'. rewrite scatter_t_eq in Hv by (intros _; exact I1). cbn [m_v] in *.
  cbn [m_s] in *. rewrite Hv' in Hv. cbn [rmap] in Hv. congruence.
Qed.

(** *** velocities below one *)
Lemma gather_map : forall A B (f : A -> B) i X, gather i (map (map f) X) = rmap (map (map f)) (gather i X).
Proof.
  intros A B f i X. assert (T : forall C D (h : C -> D) l ix, takeM (map h l) ix = rmap (map h) (takeM l ix)).
  { intros C D h l ix. unfold takeM. rewrite <- (map_id ix) at 1. apply mapM_rmap. intros k _. unfold take1. rewrite nth_error_map. destruct (nth_error l k); reflexivity. }
  destruct i as [|rs|rs bs]; cbn [gather]; [reflexivity|apply T|]. rewrite T. destruct (takeM X rs) as [rows|]; [|reflexivity]. cbn [rmap bind].
  rewrite map_length. destruct (length rows =? length bs)%nat; [|reflexivity].
  replace (combine (map (map f) rows) bs) with (map (fun p => (map f (fst p), snd p)) (combine rows bs)).
  - apply mapM_rmap. intros [r b] _. apply T.
  - clear. revert bs. induction rows as [|r rows IH]; intros [|b bs]; cbn; auto. now rewrite IH.
Qed.
Lemma takeM_in_range : forall A (X : list A) rs G, takeM X rs = Ok G -> forallb (fun r => (r <? length X)%nat) rs = true.
Proof.
  intros A X rs G H. apply forallb_forall. intros r Hr. apply In_nth_error in Hr as (k & Hk). pose proof (takeM_nth _ _ _ _ _ _ H Hk) as E.
  assert (k < length G)%nat by (rewrite (takeM_length _ _ _ _ H); eapply nth_error_lt; eauto).
  destruct (nth_error_lt_Some _ _ _ H0) as (a & Ha). apply Nat.ltb_lt. apply (nth_error_lt _ _ _ a). congruence.
Qed.
Lemma mapiM_self : forall A (X : list A) (f : nat -> A -> res A), (forall k r, nth_error X k = Some r -> f k r = Ok r) -> mapiM f X = Ok X.
Proof.
  intros A X f Hf. apply mapM_intro; [rewrite combine_length, seq_length; lia|]. intros k [j r] Ha. rewrite combine_seq_nth in Ha.
  destruct (nth_error X k) as [r'|] eqn:Er; [|discriminate]. cbn in Ha. injection Ha as <- <-. exists r'. split; auto.
Qed.
Lemma put1_take : forall A (r : list A) ix v, takeM r ix = Ok v -> put1 ix r v = Ok r.
Proof.
  intros A r ix v H. destruct (put1 ix r v) as [r'|e] eqn:E.
  - f_equal. apply nth_error_ext. intros n. rewrite (put1_nth _ _ _ _ _ n (takeM_length _ _ _ _ H) E). destruct (last_index n ix) as [k|] eqn:El; [|reflexivity].
    apply last_index_Some in El. rewrite (takeM_nth _ _ _ _ _ _ H El). destruct (Nat.ltb_spec n (length r)) as [_|G]; [reflexivity|].
    symmetry. now apply nth_error_None.
  - exfalso. unfold put1 in E. rewrite (takeM_in_range _ _ _ _ H), (bto_eq _ v _ (takeM_length _ _ _ _ H)) in E. discriminate.
Qed.
Lemma scatter_gather : forall A i (X G : arr A), gather i X = Ok G -> scatter i X G = Ok X.
Proof.
  intros A i X G H. destruct i as [|rs|rs bs]; cbn [gather scatter] in *.
  - injection H as <-. unfold iop2. rewrite bto_id. cbn [bind]. assert (S0 : forall r : list A, map2 (fun _ b => b) r r = r) by (induction r; cbn; congruence).
    induction X as [|r X IH]; [reflexivity|]. cbn [combine mapM fst snd]. rewrite bto_id. cbn [bind]. rewrite S0, IH. reflexivity.
  - rewrite (takeM_in_range _ _ _ _ H), (bto_eq _ G) by (eapply takeM_length; eauto). cbn [bind]. apply mapiM_self. intros k r Hk.
    destruct (last_index k rs) as [j|] eqn:El; [|reflexivity]. apply last_index_Some in El. pose proof (takeM_nth _ _ _ _ _ _ H El) as E.
    rewrite (nth_error_nth G j [] (eq_trans E Hk)). apply bto_id.
  - apply bind_ok in H. destruct H as (rows & E1 & H). destruct (length rows =? length bs)%nat eqn:El; [|discriminate].
    pose proof (takeM_length _ _ _ _ E1) as L1. rewrite <- L1, El, (takeM_in_range _ _ _ _ E1). cbn [andb].
    apply Nat.eqb_eq in El. pose proof (mapM_length _ _ _ _ _ H) as L2. rewrite combine_length, <- El, Nat.min_id in L2.
    rewrite (bto_eq _ G _ L2). cbn [bind]. apply mapiM_self. intros k r Hk.
    destruct (last_index k rs) as [j|] eqn:Ej; [|reflexivity]. apply last_index_Some in Ej. pose proof (takeM_nth _ _ _ _ _ _ E1 Ej) as E. rewrite Hk in E.
    destruct (nth_error_lt_Some _ bs j) as (b & Hb); [rewrite <- El; eapply nth_error_lt; eauto|].
    destruct (mapM_nth _ _ _ _ _ j (r, b) H) as (g & Hg & Eg); [rewrite nth_error_combine, E, Hb; reflexivity|]. cbn in *.
    rewrite (nth_error_nth bs j [] Hb), (nth_error_nth G j [] Eg). now apply put1_take.
Qed.
(** arrays of the same shape *)
Definition same_shape {A B} (X : arr A) (Y : arr B) : Prop := map (map (fun _ => tt)) X = map (map (fun _ => tt)) Y.
Lemma rect_same : forall A B M N (X : arr A) (Y : arr B), rect M N X -> rect M N Y -> same_shape X Y.
Proof.
  intros A B M N X Y [L1 H1] [L2 H2]. unfold same_shape. subst M.
  assert (P1 : forall r, In r X -> length r = N) by (intros r Hr; apply In_nth_error in Hr as (k & Hk); eauto).
  assert (P2 : forall r, In r Y -> length r = N) by (intros r Hr; apply In_nth_error in Hr as (k & Hk); eauto).
  clear H1 H2. revert Y L2 P2. induction X as [|r X IH]; intros [|q Y] L2 P2; try discriminate; [reflexivity|]. cbn [map]. f_equal.
  - assert (T : forall C (l : list C), map (fun _ => tt) l = repeat tt (length l)) by (intros C l; induction l; cbn; congruence).
    rewrite !T, (P1 r (or_introl eq_refl)), (P2 q (or_introl eq_refl)). reflexivity.
  - apply IH; [intros; apply P1; now right|cbn in L2; congruence|intros; apply P2; now right].
Qed.
Lemma gather_same : forall A B i (X G : arr A) (Y H : arr B), same_shape X Y -> gather i X = Ok G -> gather i Y = Ok H -> same_shape G H.
Proof.
  intros A B i X G Y H S E1 E2. unfold same_shape in *. pose proof (gather_map _ _ (fun _ => tt) i X) as P. pose proof (gather_map _ _ (fun _ => tt) i Y) as Q.
  rewrite S, Q, E1, E2 in P. cbn in P. congruence.
Qed.
Lemma same_shape_bc2 : forall A B C (f : A -> B -> C) X Y, same_shape X Y -> bc2 f X Y = Ok (map2 (map2 f) X Y).
Proof.
  intros A B C f X Y S. unfold bc2. assert (L : length X = length Y) by (apply (f_equal (@length _)) in S; now rewrite !map_length in S).
  rewrite bpairs_same by auto. cbn [bind]. revert Y S L. induction X as [|r X IH]; intros [|q Y] S L; try discriminate; [reflexivity|].
  cbn [combine mapM fst snd map2]. unfold same_shape in S. cbn [map] in S. injection S as S1 S2.
  assert (Lr : length r = length q) by (apply (f_equal (@length _)) in S1; now rewrite !map_length in S1).
  rewrite bpairs_same by auto. cbn [bind]. rewrite IH; [|exact S2|cbn in L; congruence]. cbn [bind]. f_equal. f_equal. symmetry. apply map2_combine.
Qed.
Lemma gather_in : forall A i (X G : arr A) g a, gather i X = Ok G -> In g G -> In a g -> exists r, In r X /\ In a r.
Proof.
  assert (T : forall A (l : list A) ix r a, takeM l ix = Ok r -> In a r -> In a l).
  { intros A l ix r a H Ha. apply In_nth_error in Ha as (k & Hk).
    destruct (nth_error_lt_Some _ ix k) as (i & Hi); [rewrite <- (takeM_length _ _ _ _ H); eapply nth_error_lt; eauto|].
    rewrite (takeM_nth _ _ _ _ _ _ H Hi) in Hk. eapply nth_error_In; eauto. }
  intros A i X G g a H Hg Ha. destruct i as [|rs|rs bs]; cbn [gather] in H.
  - injection H as <-. eauto.
  - exists g. split; [eapply T; eauto|auto].
  - apply bind_ok in H. destruct H as (rows & E1 & H). destruct (length rows =? length bs)%nat eqn:El; [|discriminate].
    apply In_nth_error in Hg as (k & Hk).
    destruct (nth_error_lt_Some _ (combine rows bs) k) as ([r b] & Hr); [rewrite <- (mapM_length _ _ _ _ _ H); eapply nth_error_lt; eauto|].
    destruct (mapM_nth _ _ _ _ _ k (r, b) H Hr) as (g' & Hg & Eg). assert (g' = g) by congruence. subst g'. cbn in Hg.
    exists r. split; [|eapply T; eauto]. apply nth_error_In in Hr. apply in_combine_l in Hr. eapply T; eauto.
Qed.
Lemma add_zero : forall dt d (x v : vec), length x = d -> (forall a, In a x -> exists r, a = Fin r) -> length v = d -> (forall a, In a v -> a = Fin 0) ->
  map2 fadd x (map (fmul (Fin dt)) v) = x.
Proof.
  intros dt d x v H1 H2 H3 H4. assert (L : length x = length v) by congruence. clear H1 H3 d. revert v L H4. induction x as [|a x IH]; intros [|b v] L H4; try discriminate; [reflexivity|].
  cbn [map map2]. rewrite (H4 b (or_introl eq_refl)). destruct (H2 a (or_introl eq_refl)) as (r & ->). f_equal.
  - cbn. f_equal. lra.
  - apply IH; [intros; apply H2; now right|cbn in L; congruence|intros; apply H4; now right].
Qed.
Lemma add_zero_arr : forall dt d (X V : arr vec), same_shape X V -> all_points d X ->
  (forall row v, In row V -> In v row -> length v = d /\ forall a, In a v -> a = Fin 0) ->
  map2 (map2 (map2 fadd)) X (map (map (map (fmul (Fin dt)))) V) = X.
Proof.
  intros dt d X V S H0 H1. revert V S H1. induction X as [|r X IH]; intros [|q V] S H1; try discriminate; [reflexivity|].
  unfold same_shape in S. cbn [map] in S. injection S as S1 S2. cbn [map map2]. f_equal.
  - assert (P0 : forall v, In v r -> length v = d /\ forall a, In a v -> exists c, a = Fin c) by (intros; apply (H0 r); auto; now left).
    assert (P1 : forall v, In v q -> length v = d /\ forall a, In a v -> a = Fin 0) by (intros; apply (H1 q); auto; now left).
    clear - S1 P0 P1. revert q S1 P1. induction r as [|x r IH]; intros [|v q] S1 P1; try discriminate; [reflexivity|]. cbn [map map2]. cbn [map] in S1.
    injection S1 as S1. f_equal.
    + destruct (P0 x (or_introl eq_refl)), (P1 v (or_introl eq_refl)). eapply add_zero; eauto.
    + apply IH; auto. { intros; apply P0; now right. } { intros; apply P1; now right. }
  - apply IH; auto. { intros row v Hr Hv. apply (H0 row v); auto. now right. } { intros row v Hr Hv. apply (H1 row v); auto. now right. }
Qed.

Lemma rect_map_any : forall A B (f : A -> B) M N X, rect M N X -> rect M N (map (map f) X).
Proof.
  intros A B f M N X [L H]. split; [now rewrite map_length|]. intros k row Hk. rewrite nth_error_map in Hk. destruct (nth_error X k) as [r|] eqn:E; [|discriminate].
  cbn in Hk. injection Hk as <-. rewrite map_length. eauto.
Qed.
Lemma term_x : forall c (s s' : st R vec) b, terminate c s = Ok (b, s') -> s_x s' = s_x s.
Proof. intros c s s' b H. apply (term_frame c s s' b H). Qed.
Lemma exec_shape : forall ppd c d t, vector_ops c -> pso_exec_t ppd c d t -> exists M N, rect M N (s_x (m_s (t_ms t))) /\ rect M N (m_v (t_ms t)).
Proof.
  intros ppd c d t (_ & _ & Vs) E. induction E.
  - unfold pso_init_t in H1. apply bind_ok in H1. destruct H1 as (ms & Em & H1). injection H1 as <-. unfold mem_init in Em. apply bind_ok in Em. destruct Em as (s & Es & Em).
    injection Em as <-. cbn [t_ms m_v m_y m_s]. sst. rewrite (init_x_eq _ _ _ _ _ _ _ _ _ _ _ _ Es). exists (length x0), (shape1 x0).
    assert (Rx : rect (length x0) (shape1 x0) x0) by (split; [reflexivity|]; intros k row Hk; destruct H as [_ H]; eapply Forall_forall in H; [exact H|eapply nth_error_In; eauto]).
    split; [exact Rx|apply rect_map_any, Rx].
  - destruct IHE as (M & N & Rx & Rv). destruct (step_t_out _ _ _ _ _ _ _ H) as (s1 & ms2 & E1 & Hi & _ & _ & _ & -> & ->).
    destruct (pso_inner_t_out _ _ _ _ _ _ _ _ Hi) as (W & s2 & md & xq & vq & xq' & _ & Hv & _ & _ & _ & Hx & _). cbn [m_s m_v] in *.
    apply pre_step_frame in E1 as (ci & pi & ind & xo & ->). sstall. exists M, N. split; [apply rect_map_any|]; eapply scatter_shape; eauto.
  - cbn [t_ms m_v m_s]. rewrite (term_x _ _ _ _ H). exact IHE.
  - cbn [t_ms m_v m_s]. destruct H as (al & sg & la & dd & _ & ->). sst. exact IHE.
Qed.
Lemma exec_first : forall c d t, pso_exec_t pp_default_dtype c d t -> t_x t = DInt -> all_integral (s_x (m_s (t_ms t))).
Proof.
  intros c d t E. induction E; intros Hx.
  - unfold pso_init_t in H1. apply bind_ok in H1. destruct H1 as (ms & Em & H1). injection H1 as <-. cbn [t_x] in Hx. unfold mem_init in Em. apply bind_ok in Em. destruct Em as (s & Es & Em).
    injection Em as <-. cbn [t_ms m_s]. sst. rewrite (init_x_eq _ _ _ _ _ _ _ _ _ _ _ _ Es). auto.
  - destruct (step_t_out _ _ _ _ _ _ _ H) as (s1 & ms2 & _ & _ & _ & Ex & _). rewrite Ex in Hx. discriminate.
  - cbn [t_ms m_s t_x] in *. rewrite (term_x _ _ _ _ H). auto.
  - cbn [t_ms m_s t_x] in *. destruct H as (al & sg & la & dd & _ & ->). sst. auto.
Qed.
Lemma zero_cells : forall d X row v, all_below_one d X -> In row (casta DInt X) -> In v row -> length v = d /\ forall a, In a v -> a = Fin 0.
Proof.
  intros d X row v H Hr Hv. apply in_map_iff in Hr as (r & <- & Hr). apply in_map_iff in Hv as (w & <- & Hw). destruct (H r w Hr Hw) as [L B]. split; [unfold castv; now rewrite map_length|].
  intros a Ha. apply in_map_iff in Ha as (b & <- & Hb). destruct (B b Hb) as (q & -> & Hq). cbn. now rewrite trunc_small.
Qed.
Theorem pso_frozen : forall c p o z2 t t' msf d dt, vector_ops c -> pso_exec_t pp_default_dtype c DInt t -> pso_step_t pp_default_dtype c p o z2 t = Ok t' ->
  mem_step Pso c p o z2 (t_ms t) = Ok msf -> all_below_one d (m_v msf) -> all_points d (s_x (m_s (t_ms t))) -> s_dt (m_s (t_ms t)) = Fin dt ->
  s_x (m_s (t_ms t')) = map (map (c_pp c)) (s_x (m_s (t_ms t))).
Proof.
  intros c p o z2 t t' msf d dt V E H Hf B P Hdt. pose proof (pso_velocity _ _ _ _ _ _ _ _ V E H Hf) as Ev.
  destruct (exec_shape _ _ _ _ V E) as (M & N & Rx & Rv). pose proof (exec_first _ _ _ E) as Ix.
  destruct (step_t_out _ _ _ _ _ _ _ H) as (s1 & ms2 & E1 & Hi & _ & _ & _ & Ev2 & ->). rewrite Ev2 in Ev.
  destruct (pso_inner_t_out _ _ _ _ _ _ _ _ Hi) as (W & s2 & md & xq & vq & xq' & _ & Hv & Hx & Hq & Hb & Hs & _). cbn [m_s m_v] in *.
  apply pre_step_frame in E1 as (ci & pi & ind & xo & ->). sstall. f_equal.
  assert (Sx : same_shape xq vq).
  { eapply gather_same; [|exact Hx|exact Hq]. eapply rect_same; [exact Rx|]. eapply scatter_shape; eauto. }
  destruct V as (Va & _ & Vs). rewrite Va, Vs, Hdt in Hb.
  assert (Z : xq' = xq).
  { rewrite same_shape_bc2 in Hb.
    - injection Hb as Hb. rewrite <- Hb. apply (add_zero_arr dt d); auto.
      + intros row v Hr Hv'. destruct (gather_in _ _ _ _ _ _ Hx Hr Hv') as (r & H1 & H2). exact (P r v H1 H2).
      + intros row v Hr Hv'. destruct (gather_in _ _ _ _ _ _ Hq Hr Hv') as (r & H1 & H2). rewrite Ev in H1. exact (zero_cells d _ r v B H1 H2).
    - unfold same_shape in *. rewrite Sx, map_map. apply map_ext. intros r. now rewrite map_map. }
  subst xq'. pose proof (scatter_gather _ _ _ _ Hx) as G.
  rewrite scatter_t_eq in Hs by exact Ix. rewrite G in Hs. cbn in Hs. rewrite casta_fix_d in Hs by exact Ix. congruence.
Qed.
