(** * Symmetries of the problem relate the dynamics *)
From Coq Require Import String List Arith Bool Reals Permutation Lia Lra.
From Verif Require Import Scalar Np NpFacts State Pdyn PdynFacts PdynOk Exec TermSpec RVec RVecFacts Consensus ConsSpec ConsFacts PostProc Cbo CboSpec CboFacts AbsorbFacts
  TwinSpec TwinFacts SymFacts Memory MemSpec SimSpec SimNp SimFacts MemSymSpec SimMem SessSpec SimCbo.
Import ListNotations.
Open Scope R_scope.

(** ** weaker relations *)
Lemma maybe_impl : forall A B (R S : A -> B -> Prop) a b, (forall x y, R x y -> S x y) -> maybe R a b -> maybe S a b.
Proof. intros A B R S [a|] [b|] H; cbn; auto. Qed.
Lemma related_impl : forall K V V' (RV RD RV2 RD2 : V -> V' -> Prop) (RE RA RU RE2 RA2 RU2 : fl K -> fl K -> Prop) s s',
  (forall a b, RV a b -> RV2 a b) -> (forall a b, RD a b -> RD2 a b) -> (forall a b, RE a b -> RE2 a b) -> (forall a b, RA a b -> RA2 a b) -> (forall a b, RU a b -> RU2 a b) ->
  state_related RV RD RE RA RU s s' -> state_related RV2 RD2 RE2 RA2 RU2 s s'.
Proof.
  intros K V V' RV RD RV2 RD2 RE RA RU RE2 RA2 RU2 s s' H1 H2 H3 H4 H5 [].
  assert (HH : forall h h', hist_related RV RD RE RA RU h h' -> hist_related RV2 RD2 RE2 RA2 RU2 h h').
  { intros [] []; cbn; auto; try (apply entries_impl; auto); try (apply maybe_impl; intros ? ?; apply entries_impl; auto); try (apply F2_impl; auto).
    intros [U|U]; [left|right]; eapply F2_impl; eauto. }
  constructor; auto; try (eapply entries_impl; eauto; fail); try (eapply F2_impl; eauto; fail);
    try (eapply maybe_impl; [|eauto]; intros ? ?; apply entries_impl; auto; fail).
  eapply F2_impl; [|exact rl_hist]. intros a b [E1 E2]. split; auto. eapply F2_impl; eauto.
Qed.

Section Laws.
  Variables (f f' : vec -> fl R) (k : noise_model) (pp pp' : vec -> vec) (co : corr R) (b : nat) (partial cat : bool) (ks : list (crit R vec)) (save : bool).
  Variables (d d' : nat) (h : R) (g hh Li : list R -> list R) (RU : fl R -> fl R -> Prop) (ks' : list (crit R vec)).
  Let c := cbo_cfg f k pp co b partial cat ks save.
  Let c' := cbo_cfg f' k pp' co b partial cat ks' save.
  Hypothesis Hco : finite_corr co.
  Hypothesis Lg : forall p, length p = d -> length (g p) = d'.
  Hypothesis Lh : forall p, length p = d -> length (hh p) = d'.
  Hypothesis LLi : forall p, length p = d -> length (Li p) = d'.
  Hypothesis Hf : finite_obj d f.
  Hypothesis Hff : forall p, length p = d -> f' (floats (g p)) = add_energy h (f (floats p)).
  Hypothesis Hgibbs : forall a E X, admissible a E -> ensemble (length E) d X -> gibbs_point a E d' (map g X) = g (gibbs_point a E d X).
  Hypothesis Hsub : forall x y, length x = d -> length y = d -> vsub (g x) (g y) = Li (vsub x y).
  Hypothesis Ladd : forall u v, length u = d -> length v = d -> Li (vadd u v) = vadd (Li u) (Li v).
  Hypothesis Lscal : forall a u, length u = d -> Li (vscal a u) = vscal a (Li u).
  Hypothesis Hadd : forall x u, length x = d -> length u = d -> vadd (g x) (Li u) = g (vadd x u).
  Hypothesis Hnoise : forall dt u z, length u = d -> length z = d -> rnoise k dt (Li u) (hh z) = Li (rnoise k dt u z).
  Hypothesis Hnorm : forall P, (forall p, In p P -> length p = d) -> RU (fdiv (fnorm (concat (map floats P))) (Fin (INR (length (map floats P))))) (fdiv (fnorm (concat (map floats (map Li P)))) (Fin (INR (length (map floats (map Li P)))))).
  Hypothesis Hinf : RU PInf PInf.
  Hypothesis Hpp : forall p, length p = d -> exists q, pp (floats p) = floats q /\ length q = d /\ pp' (floats (g p)) = floats (g q).

  (** [v] and [v'] are finite, and [v'] is the image of [v] *)
  Definition img (j : list R -> list R) (v v' : vec) : Prop := exists p, length p = d /\ v = floats p /\ v' = floats (j p).
  Definition eimg (e e' : fl R) : Prop := e' = add_energy h e /\ e <> NaN.
  Definition fimg (e e' : fl R) : Prop := exists r, e = Fin r /\ e' = Fin (r + h).
  Definition aimg (a a' : fl R) : Prop := a' = a /\ finite_scalar a.

  Hypothesis Hcrit : Forall2 (crit_related eimg RU) ks ks'.

  Lemma F2_img : forall j l l', Forall2 (img j) l l' -> exists P, (forall p, In p P -> length p = d) /\ l = map floats P /\ l' = map floats (map j P).
  Proof.
    intros j l l' H. induction H as [|v v' l l' (p & Lp & -> & ->) H (P & HP & -> & ->)]. { exists []. cbn. split; [intros p []|auto]. }
    exists (p :: P). cbn. split; [intros q [<-|Hq]; auto|auto].
  Qed.
  Lemma F2_fimg : forall l l', Forall2 fimg l l' -> exists P, l = map Fin P /\ l' = map (fun e => fadd e (Fin h)) l.
  Proof.
    intros l l' H. induction H as [|v v' l l' (p & -> & ->) H (P & -> & ->)]. { exists []. cbn. auto. } exists (p :: P). cbn. auto.
  Qed.

  Theorem sym_laws : laws (img g) (img Li) (img hh) eimg fimg aimg RU finite_scalar time_step c c'.
  Proof.
    constructor; cbn [c c' cbo_cfg c_bsize c_partial c_concat c_savepts c_f c_vadd c_vsub c_vscale c_norm c_ccrow c_noise c_pp c_corr c_crit].
    - auto.
    - intros a a' (r & -> & ->). split; [reflexivity|discriminate].
    - intros a a' b0 b' [-> _] [-> _]. apply add_energy_lt.
    - intros a a' [-> _]. apply add_energy_nan.
    - split; [reflexivity|discriminate].
    - intros v v' (p & Lp & -> & ->). rewrite Hff by auto. destruct (Hf p Lp) as [r ->]. exists r. auto.
    - intros v v' w w' (p & Lp & -> & ->) (q & Lq & -> & ->). exists (vsub p q). rewrite !floats_sub, Hsub by auto. split; [apply length_vsub; auto|auto].
    - intros v v' w w' (p & Lp & -> & ->) (q & Lq & -> & ->). exists (vadd p q). rewrite !floats_add, Hadd by auto. split; [apply length_vadd; auto|auto].
    - intros v v' w w' (p & Lp & -> & ->) (q & Lq & -> & ->). exists (vadd p q). rewrite !floats_add, Ladd by auto. split; [apply length_vadd; auto|auto].
    - intros a v v' [r ->] (p & Lp & -> & ->). exists (vscal r p). rewrite length_vscal, !floats_scal, Lscal by auto. auto.
    - intros a (r & -> & _). exists r. auto.
    - intros dt v v' z z' (r & -> & Hr) (p & Lp & -> & ->) (q & Lq & -> & ->). exists (rnoise k r p q). rewrite !noise_floats, Hnoise by auto. split; [apply length_rnoise; auto|auto].
    - intros er er' xr xr' a a' Hne Hlen He Hx [-> [r ->]]. destruct (F2_fimg _ _ He) as (E & -> & ->). destruct (F2_img _ _ _ Hx) as (P & HP & -> & ->).
      rewrite !map_length in Hlen.
      assert (AD : admissible r (map Fin E)).
      { split; [intros e Hin; apply in_map_iff in Hin; destruct Hin as (x & <- & _); eauto|]. destruct E as [|x E]; [exfalso; apply Hne; reflexivity|]. exists x. cbn; auto. }
      assert (EN : ensemble (length (map Fin E)) d P) by (split; auto; rewrite map_length; auto).
      assert (EN' : ensemble (length (map Fin E)) d' (map g P)).
      { split; [rewrite !map_length; auto|]. intros q Hq. apply in_map_iff in Hq. destruct Hq as (q' & <- & Hq'). auto. }
      rewrite (shift_invariant r _ h d') by auto. rewrite (consensus_gibbs r _ d), (consensus_gibbs r _ d') by auto. rewrite Hgibbs by auto.
      constructor; [|constructor]. eexists. split; [|split; reflexivity]. apply gibbs_point_length.
    - intros v v' (p & Lp & -> & ->). destruct (Hpp p Lp) as (q & H1 & H2 & H3). exists q. auto.
    - intros l l' H. destruct (F2_img _ _ _ H) as (P & HP & -> & ->). apply Hnorm. auto.
    - exact Hinf.
    - destruct co as [|fac]; cbn in *; auto. intros a a' e e' [-> Ha] (r & -> & ->).
      assert (E : fsub (add_energy h a) (Fin (r + h)) = fsub a (Fin r)). { destruct a; cbn; auto. f_equal. ring. }
      rewrite E. split; auto. apply Hco. destruct a; cbn; congruence.
    - exact Hcrit.
    - intros a b0 [x ->] [y ->]. eexists. reflexivity.
    - intros a [x ->]. eexists. reflexivity.
    - split; eexists; reflexivity.
  Qed.

  Lemma sym_min : forall a a' e e', fimg a a' -> fimg e e' -> fimg (fmin a e) (fmin a' e').
  Proof.
    intros a a' e e' (r & -> & ->) (q & -> & ->). unfold fmin. cbn. unfold Rltb. destruct (Rlt_dec q r), (Rlt_dec (q + h) (r + h)); try lra; eexists; split; reflexivity.
  Qed.
  Lemma sym_zero : forall v v', img g v v' -> img Li (c_vscale c (Fin k0) v) (c_vscale c' (Fin k0) v').
  Proof.
    intros v v' (p & Lp & -> & ->). exists (vscal 0 p). rewrite length_vscal. split; auto. cbn [c c' cbo_cfg c_vscale].
    change (Fin k0) with (Fin (0 : R)). rewrite !floats_scal, Lscal by auto. split; auto. f_equal. apply (coord_ext _ _ d'); rewrite ?length_vscal; auto.
    intros i Hi. rewrite !coord_vscal. ring.
  Qed.

  Variables (phi chi lin : vec -> vec).
  Hypothesis Hphi : forall p, length p = d -> phi (floats p) = floats (g p).
  Hypothesis Hchi : forall p, length p = d -> chi (floats p) = floats (hh p).
  Hypothesis Hlin : forall p, length p = d -> lin (floats p) = floats (Li p).

  Lemma real_img : forall (j : list R -> list R) (ph : vec -> vec) v, (forall p, length p = d -> ph (floats p) = floats (j p)) -> real_point d v -> img j v (ph v).
  Proof. intros j ph v Hj (p & -> & Lp). exists p. auto. Qed.
  Lemma entries_img : forall (j : list R -> list R) (ph : vec -> vec) X, (forall p, length p = d -> ph (floats p) = floats (j p)) -> (forall row v, In row X -> In v row -> real_point d v) -> entries (img j) X (map (map ph) X).
  Proof.
    intros j ph X Hj HX. induction X as [|r X IH]; cbn; constructor; [|apply IH; intros; eapply HX; cbn; eauto].
    assert (Hr : forall v, In v r -> real_point d v) by (intros; eapply HX; cbn; eauto). clear - Hj Hr. induction r; cbn; constructor; [apply real_img; auto; apply Hr; cbn; auto|apply IHr; intros; apply Hr; cbn; auto].
  Qed.
  Lemma entries_eq : forall (j : list R -> list R) (ph : vec -> vec) X X', (forall p, length p = d -> ph (floats p) = floats (j p)) -> entries (img j) X X' -> X' = map (map ph) X.
  Proof.
    intros j ph X X' Hj H. induction H as [|r r' X X' Hr H IH]; cbn; f_equal; auto. clear - Hj Hr. induction Hr as [|v v' l l' (p & Lp & -> & ->) H IH]; cbn; f_equal; auto. symmetry; auto.
  Qed.

  (** whole sessions of CBOMemory and PSO *)
  Theorem sym_session : forall kd x0 checked alpha sigma lamda dt perm0 names extra sv l, sensible d b x0 alpha sigma lamda dt perm0 sv ->
    finite_calls kd d (length x0) (shape1 x0) dt l ->
    same_outcome (fun ms ms' => state_related (fun v v' => real_point d v /\ v' = phi v) (fun v v' => real_point d v /\ v' = lin v) (fun e e' => e' = add_energy h e) eq RU (m_s ms) (m_s ms') /\
        m_y ms' = map (map phi) (m_y ms) /\ m_v ms' = map (map lin) (m_v ms) /\ m_ev ms' = map (map phi) (m_ev ms))
      (mem_session kd c x0 checked alpha sigma lamda dt perm0 names extra sv l)
      (mem_session kd c' (map (map phi) x0) checked alpha sigma lamda dt perm0 names extra sv (map (map_draws chi) l)).
  Proof.
    intros kd x0 checked alpha sigma lamda dt perm0 names extra sv l (S1 & S2 & S3 & S4 & S5 & S6 & S7 & S8 & S9 & S10) HC.
    eapply so_mono; [|eapply (mem_session_so _ _ _ _ _ _ _ _ _ _ _ sym_laws sym_min sym_zero); eauto].
    - intros ms ms' [M1 M2 M3 M4 M5]. split; [|split; [|split]].
      + eapply related_impl; [..|exact M1]; auto.
        * intros u u' (p & Lp & -> & ->). split; [exists p; auto|symmetry; auto].
        * intros u u' (p & Lp & -> & ->). split; [exists p; auto|symmetry; auto].
        * intros e e' [-> _]. auto.
        * intros e e' [-> _]. auto.
      + eapply entries_eq; eauto.
      + eapply entries_eq; eauto.
      + eapply entries_eq; eauto.
    - apply entries_img; auto.
    - split; auto.
    - assert (HT : finite_scalar dt) by (destruct S10 as (r & -> & _); exists r; auto). clear - HC Hchi HT. revert dt HC HT. induction l as [|a l IH]; intros dt HC HT; cbn; auto.
      destruct a as [p o z2| |al sg la dt'|]; cbn in HC |- *; auto.
      + destruct HC as ((lm & sm & mm & ga & -> & Hm) & H1 & H2 & H3 & HC). split; auto. split; [split; auto; cbn; intros; apply real_img; auto|]. split; [intros; apply real_img; auto|].
        split; [|split; auto]. unfold finite_mpar. cbn. split; [exists lm; auto|]. split; [exists sm; auto|]. intros Hk. split; [exists mm; auto|]. destruct HT as (t & ->). specialize (Hm Hk t eq_refl).
        cbn. unfold k_is0. cbn. unfold Rltb. destruct (Rlt_dec (mm + ga * t) 0); [eexists; reflexivity|]. destruct (Rlt_dec 0 (mm + ga * t)); [eexists; reflexivity|]. exfalso. lra.
      + destruct HC as ((H1 & H2 & H3 & H4) & HC). split; [split; auto|]. do 3 (split; [auto|]). split; auto. split; auto. split; auto. apply IH; auto. destruct H4 as (r & -> & _); exists r; auto.
  Qed.

  (** whole sessions of CBO *)
  Theorem sym_cbo_session : forall x0 checked alpha sigma lamda dt perm0 names extra sv l, sensible d b x0 alpha sigma lamda dt perm0 sv ->
    sensible_calls d (length x0) (shape1 x0) l ->
    same_outcome (state_related (fun v v' => real_point d v /\ v' = phi v) (fun v v' => real_point d v /\ v' = lin v) (fun e e' => e' = add_energy h e) eq RU)
      (cbo_session c x0 checked alpha sigma lamda dt perm0 names extra sv l)
      (cbo_session c' (map (map phi) x0) checked alpha sigma lamda dt perm0 names extra sv (map (change_draws chi) l)).
  Proof.
    intros x0 checked alpha sigma lamda dt perm0 names extra sv l (S1 & S2 & S3 & S4 & S5 & S6 & S7 & S8 & S9 & S10) HC.
    eapply so_mono; [|eapply (cbo_session_so _ _ _ _ _ _ _ _ _ _ _ sym_laws); eauto].
    - intros s s' M1. eapply related_impl; [..|exact M1]; auto.
      * intros u u' (p & Lp & -> & ->). split; [exists p; auto|symmetry; auto].
      * intros u u' (p & Lp & -> & ->). split; [exists p; auto|symmetry; auto].
      * intros e e' [-> _]. auto.
      * intros e e' [-> _]. auto.
    - apply entries_img; auto.
    - split; auto.
    - clear - HC Hchi. revert HC. induction l as [|a l IH]; intros HC; cbn; auto.
      destruct a as [o| |al sg la dt'|]; cbn in HC |- *; auto.
      + destruct HC as (H1 & H2 & HC). split; [split; auto; cbn; intros; apply real_img; auto|]. split; auto.
      + destruct HC as ((H1 & H2 & H3 & H4) & HC). split; [split; auto|]. do 3 (split; [auto|]). auto.
  Qed.
End Laws.

(** ** instances *)
Lemma image_crits : forall h (RU : fl R -> fl R -> Prop) (ks : list (crit R vec)), Forall builtin ks -> (forall t u u', RU u u' -> fltb u' t = fltb u t) -> Forall2 (crit_related (eimg h) RU) ks (map (image_crit (add_energy h)) ks).
Proof.
  intros h RU ks Hks HU. rewrite Forall_forall in Hks. assert (G : forall q : crit R vec, builtin q -> crit_related (eimg h) RU q (image_crit (add_energy h) q)).
  { intros [t|t|n|n|t|gg] Hq; cbn in *; auto. intros e e' [-> _]; apply add_energy_lt. }
  induction ks as [|q l IH]; cbn; constructor; [apply G; apply Hks; cbn; auto|apply IH; intros; apply Hks; cbn; auto].
Qed.
Lemma same_norm : forall d (Li : list R -> list R), (forall u, length u = d -> sqnorm (Li u) = sqnorm u) -> forall P, (forall p, In p P -> length p = d) -> fnorm (concat (map floats P)) = fnorm (concat (map floats (map Li P))).
Proof. intros d Li Hnorm P HP. rewrite !fnorm_concat. do 3 f_equal. rewrite map_map. apply map_ext_in. intros p Hp. symmetry. apply Hnorm. auto. Qed.

(** what a symmetry has to satisfy *)
Record symmetry (f f' : vec -> fl R) (k : noise_model) (pp pp' : vec -> vec) (d : nat) (h : R) (g hh Li : list R -> list R) : Prop := {
  sy_g : forall p, length p = d -> length (g p) = d;
  sy_hh : forall p, length p = d -> length (hh p) = d;
  sy_Li : forall p, length p = d -> length (Li p) = d;
  sy_f : finite_obj d f;
  sy_ff : forall p, length p = d -> f' (floats (g p)) = add_energy h (f (floats p));
  sy_gibbs : forall a E X, admissible a E -> ensemble (length E) d X -> gibbs_point a E d (map g X) = g (gibbs_point a E d X);
  sy_sub : forall x y, length x = d -> length y = d -> vsub (g x) (g y) = Li (vsub x y);
  sy_addd : forall u v, length u = d -> length v = d -> Li (vadd u v) = vadd (Li u) (Li v);
  sy_scal : forall a u, length u = d -> Li (vscal a u) = vscal a (Li u);
  sy_add : forall x u, length x = d -> length u = d -> vadd (g x) (Li u) = g (vadd x u);
  sy_noise : forall dt u z, length u = d -> length z = d -> rnoise k dt (Li u) (hh z) = Li (rnoise k dt u z);
  sy_norm : forall u, length u = d -> sqnorm (Li u) = sqnorm u;
  sy_pp : forall p, length p = d -> exists q, pp (floats p) = floats q /\ length q = d /\ pp' (floats (g p)) = floats (g q) }.

Section Generic.
  Variables (f f' : vec -> fl R) (k : noise_model) (pp pp' : vec -> vec) (co : corr R) (b : nat) (partial cat : bool) (ks : list (crit R vec)) (save : bool).
  Variables (d : nat) (h : R) (g hh Li : list R -> list R) (phi chi lin : vec -> vec).
  Hypothesis Hks : Forall builtin ks.
  Hypothesis Hco : finite_corr co.
  Hypothesis SY : symmetry f f' k pp pp' d h g hh Li.
  Hypothesis Hphi : forall p, length p = d -> phi (floats p) = floats (g p).
  Hypothesis Hchi : forall p, length p = d -> chi (floats p) = floats (hh p).
  Hypothesis Hlin : forall p, length p = d -> lin (floats p) = floats (Li p).
  Let HN : forall P, (forall p, In p P -> length p = d) ->
    fdiv (fnorm (concat (map floats P))) (Fin (INR (length (map floats P)))) = fdiv (fnorm (concat (map floats (map Li P)))) (Fin (INR (length (map floats (map Li P))))).
  Proof. intros P HP. rewrite !map_length. f_equal. apply (same_norm d); auto. apply SY. Qed.
  Let HC : Forall2 (crit_related (eimg h) eq) ks (map (image_crit (add_energy h)) ks).
  Proof. apply image_crits; auto. intros t u u' ->. auto. Qed.

  Theorem generic_mem : forall kd x0 checked alpha sigma lamda dt perm0 names extra sv l, sensible d b x0 alpha sigma lamda dt perm0 sv ->
    finite_calls kd d (length x0) (shape1 x0) dt l ->
    same_outcome (mem_mapped (real_point d) phi lin (add_energy h))
      (mem_session kd (cbo_cfg f k pp co b partial cat ks save) x0 checked alpha sigma lamda dt perm0 names extra sv l)
      (mem_session kd (cbo_cfg f' k pp' co b partial cat (map (image_crit (add_energy h)) ks) save) (map (map phi) x0) checked alpha sigma lamda dt perm0 names extra sv (map (map_draws chi) l)).
  Proof.
    intros. destruct SY as [Q1 Q2 Q3 Q4 Q5 Q6 Q7 Q8 Q9 Q10 Q11 Q12 Q13]. unfold mem_mapped. eapply (sym_session f f' k pp pp' co b partial cat ks save d d h g hh Li eq (map (image_crit (add_energy h)) ks)); eauto.
  Qed.
  Theorem generic_cbo : forall x0 checked alpha sigma lamda dt perm0 names extra sv l, sensible d b x0 alpha sigma lamda dt perm0 sv ->
    sensible_calls d (length x0) (shape1 x0) l ->
    same_outcome (cbo_mapped (real_point d) phi lin (add_energy h))
      (cbo_session (cbo_cfg f k pp co b partial cat ks save) x0 checked alpha sigma lamda dt perm0 names extra sv l)
      (cbo_session (cbo_cfg f' k pp' co b partial cat (map (image_crit (add_energy h)) ks) save) (map (map phi) x0) checked alpha sigma lamda dt perm0 names extra sv (map (change_draws chi) l)).
  Proof.
    intros. destruct SY as [Q1 Q2 Q3 Q4 Q5 Q6 Q7 Q8 Q9 Q10 Q11 Q12 Q13]. unfold cbo_mapped. eapply (sym_cbo_session f f' k pp pp' co b partial cat ks save d d h g hh Li eq (map (image_crit (add_energy h)) ks)); eauto.
  Qed.
End Generic.

Lemma shift_symmetry : forall f k pp d h, finite_obj d f -> (forall p, length p = d -> exists q, pp (floats p) = floats q /\ length q = d) ->
  symmetry f (fun v => add_energy h (f v)) k pp pp d h (fun p => p) (fun p => p) (fun p => p).
Proof.
  intros f k pp d h Hf Hpp. constructor; auto.
  - intros. rewrite map_id. auto.
  - intros p Hp. destruct (Hpp p Hp) as (q & H1 & H2). eauto.
Qed.
Lemma translation_symmetry : forall f f' k pp pp' d t, finite_obj d f -> length t = d -> (forall p, length p = d -> f' (floats (vadd p t)) = f (floats p)) ->
  (forall p, length p = d -> exists q, pp (floats p) = floats q /\ length q = d /\ pp' (floats (vadd p t)) = floats (vadd q t)) ->
  symmetry f f' k pp pp' d 0 (fun p => vadd p t) (fun p => p) (fun p => p).
Proof.
  intros f f' k pp pp' d t Hf Ht Hff Hpp. constructor; auto.
  - intros p Hp. apply length_vadd; auto.
  - intros p Hp. rewrite add_energy_0. auto.
  - intros a E X HA HX. apply (coord_ext _ _ d); [apply gibbs_point_length|apply length_vadd; auto; apply gibbs_point_length|].
    intros i Hi. rewrite coord_vadd by (rewrite gibbs_point_length; auto). unfold gibbs_point, coord. rewrite !nth_map_seq by auto.
    unfold gibbs_mean. rewrite combine_map_r, map_map. cbn [fst snd]. assert (HS := gsum_pos _ _ HA).
    rewrite (Rsum_map_ext _ _ (fun q => gibbs a (fst q) * coord i (snd q) + nth i t 0 * gibbs a (fst q))).
    2:{ intros [e p] Hq. cbn [fst snd]. rewrite coord_vadd; [unfold coord; ring|]. apply in_combine_r in Hq. rewrite (proj2 HX p Hq). auto. }
    rewrite Rsum_map_plus, Rsum_map_scal. rewrite <- (map_map fst (gibbs a)), combine_map_fst by (symmetry; apply HX). field. lra.
  - intros x y Hx Hy. apply (coord_ext _ _ d).
    + apply length_vsub; apply length_vadd; auto.
    + apply length_vsub; auto.
    + intros i Hi. rewrite !coord_vsub, !coord_vadd by (rewrite ?(length_vadd x t d), ?(length_vadd y t d); congruence). ring.
  - intros x u Hx Hu. apply (coord_ext _ _ d); [apply length_vadd; auto; apply length_vadd; auto|apply length_vadd; auto; apply length_vadd; auto|].
    intros i Hi. rewrite !coord_vadd by (rewrite ?(length_vadd x t d), ?(length_vadd x u d); congruence). ring.
Qed.
Lemma rotation_symmetry : forall f f' k pp pp' d A, finite_obj d f -> isometry d A -> k <> NAniso -> (forall p, length p = d -> f' (floats (map (fun r => dot r p) A)) = f (floats p)) ->
  (forall p, length p = d -> exists q, pp (floats p) = floats q /\ length q = d /\ pp' (floats (map (fun r => dot r p) A)) = floats (map (fun r => dot r q) A)) ->
  symmetry f f' k pp pp' d 0 (lin A) (lin A) (lin A).
Proof.
  intros f f' k pp pp' d A Hf (HA1 & HA2 & HA3) Hk Hff Hpp.
  assert (LL : forall u, length (lin A u) = d) by (intros; unfold lin; rewrite map_length; auto).
  constructor; auto.
  - intros p Hp. rewrite add_energy_0. unfold lin. auto.
  - intros a E X HA HX. apply (coord_ext _ _ d); [apply gibbs_point_length|auto|]. intros i Hi. rewrite coord_lin by lia.
    assert (HR : length (nth i A []) = d) by (apply HA2; apply nth_In; lia).
    pose proof (dot_gibbs_point a E d X (nth i A []) HA HX HR) as DG. assert (HS := gsum_pos _ _ HA).
    unfold gibbs_point at 1. unfold coord. rewrite nth_map_seq by auto. unfold gibbs_mean. rewrite combine_map_r, map_map. cbn [fst snd].
    rewrite (Rsum_map_ext _ _ (fun q => gibbs a (fst q) * dot (nth i A []) (snd q))) by (intros q _; rewrite coord_lin by lia; auto).
    rewrite <- DG. field. lra.
  - intros x y Hx Hy. symmetry. apply lin_sub. congruence.
  - intros u v Hu Hv. apply lin_add. congruence.
  - intros a u _. apply lin_scal.
  - intros x u Hx Hu. symmetry. apply lin_add. congruence.
  - intros tt u z Hu Hz. unfold rnoise. destruct k; [rewrite lin_scal; auto| |congruence].
    rewrite !lin_scal. unfold vnorm. rewrite (HA3 u Hu : sqnorm (lin A u) = _). auto.
Qed.
Lemma rotate_floats : forall A p, rotate A (floats p) = floats (lin A p).
Proof. intros A p. unfold rotate, lin, floats. rewrite map_map. apply map_ext. intros r. apply fdot_floats. Qed.

Lemma map_id_arr : forall A (X : arr A), map (map (fun v => v)) X = X.
Proof. intros. transitivity (map (fun r => r) X); [apply map_ext; intros; apply map_id|apply map_id]. Qed.
Lemma map_draws_id : forall l : list (mcall (K := R) (V := vec)), map (map_draws (fun z : vec => z)) l = l.
Proof. intros l. transitivity (map (fun a => a) l); [|apply map_id]. apply map_ext. intros [p [z pm] z2| | |]; reflexivity. Qed.
Lemma change_draws_id : forall l : list (call (K := R) (V := vec)), map (change_draws (fun z : vec => z)) l = l.
Proof. intros l. transitivity (map (fun a => a) l); [|apply map_id]. apply map_ext. intros [[z pm]| | |]; reflexivity. Qed.
Lemma image_crit_0 : forall ks : list (crit R vec), map (image_crit (add_energy 0)) ks = ks.
Proof. intros ks. transitivity (map (fun q : crit R vec => q) ks); [|apply map_id]. apply map_ext. intros [tol| | | | |]; auto. cbn. rewrite add_energy_0. auto. Qed.
Lemma mapped_0 : forall d (ph li : vec -> vec) ms ms', mem_mapped (real_point d) ph li (add_energy 0) ms ms' -> mem_mapped (real_point d) ph li (fun e => e) ms ms'.
Proof. intros d ph li ms ms' [M1 M2]. split; auto. eapply related_impl; [..|exact M1]; auto. intros a a' ->. apply add_energy_0. Qed.
Lemma cbo_mapped_0 : forall d (ph li : vec -> vec) s s', cbo_mapped (real_point d) ph li (add_energy 0) s s' -> cbo_mapped (real_point d) ph li (fun e => e) s s'.
Proof. intros d ph li s s' M1. eapply related_impl; [..|exact M1]; auto. intros a a' ->. apply add_energy_0. Qed.

Section Instances.
  Variables (f : vec -> fl R) (k : noise_model) (co : corr R) (b : nat) (partial cat : bool) (ks : list (crit R vec)) (save : bool) (d : nat).
  Variables (x0 : arr vec) (checked : bool) (alpha sigma lamda dt : fl R) (perm0 : nat -> list nat) (names : option (list string)) (extra : list trk) (sv : option nat).
  Hypothesis Hks : Forall builtin ks.
  Hypothesis Hco : finite_corr co.
  Hypothesis Hf : finite_obj d f.
  Hypothesis Hs : sensible d b x0 alpha sigma lamda dt perm0 sv.

  Section Mem.
    Variables (kd : mkind) (l : list (mcall (K := R) (V := vec))).
    Hypothesis Hl : finite_calls kd d (length x0) (shape1 x0) dt l.
    Theorem mem_energy_shift : forall pp h, (forall p, length p = d -> exists q, pp (floats p) = floats q /\ length q = d) ->
      same_outcome (mem_mapped (real_point d) (fun v => v) (fun v => v) (add_energy h))
        (mem_session kd (cbo_cfg f k pp co b partial cat ks save) x0 checked alpha sigma lamda dt perm0 names extra sv l)
        (mem_session kd (cbo_cfg (fun v => add_energy h (f v)) k pp co b partial cat (map (image_crit (add_energy h)) ks) save) x0 checked alpha sigma lamda dt perm0 names extra sv l).
    Proof.
      intros pp h Hpp. rewrite <- (map_id_arr _ x0) at 2. rewrite <- map_draws_id at 2. eapply generic_mem; [exact Hks|exact Hco|apply shift_symmetry; auto|..]; auto.
    Qed.
    Theorem mem_translation : forall f' t pp pp', length t = d -> (forall p, length p = d -> f' (floats (vadd p t)) = f (floats p)) ->
      (forall p, length p = d -> exists q, pp (floats p) = floats q /\ length q = d /\ pp' (floats (vadd p t)) = floats (vadd q t)) ->
      same_outcome (mem_mapped (real_point d) (translate t) (fun v => v) (fun e => e))
        (mem_session kd (cbo_cfg f k pp co b partial cat ks save) x0 checked alpha sigma lamda dt perm0 names extra sv l)
        (mem_session kd (cbo_cfg f' k pp' co b partial cat ks save) (map (map (translate t)) x0) checked alpha sigma lamda dt perm0 names extra sv l).
    Proof.
      intros f' t pp pp' Ht Hff Hpp. eapply so_mono; [intros a a'; apply mapped_0|]. rewrite <- (image_crit_0 ks) at 2. rewrite <- map_draws_id at 2.
      eapply generic_mem; [exact Hks|exact Hco|apply translation_symmetry; eauto|..]; auto. intros p Hp. unfold translate. apply floats_add.
    Qed.
    Theorem mem_rotation : forall f' A pp pp', isometry d A -> k <> NAniso -> (forall p, length p = d -> f' (floats (map (fun r => dot r p) A)) = f (floats p)) ->
      (forall p, length p = d -> exists q, pp (floats p) = floats q /\ length q = d /\ pp' (floats (map (fun r => dot r p) A)) = floats (map (fun r => dot r q) A)) ->
      same_outcome (mem_mapped (real_point d) (rotate A) (rotate A) (fun e => e))
        (mem_session kd (cbo_cfg f k pp co b partial cat ks save) x0 checked alpha sigma lamda dt perm0 names extra sv l)
        (mem_session kd (cbo_cfg f' k pp' co b partial cat ks save) (map (map (rotate A)) x0) checked alpha sigma lamda dt perm0 names extra sv (map (map_draws (rotate A)) l)).
    Proof.
      intros f' A pp pp' HA Hk Hff Hpp. eapply so_mono; [intros a a'; apply mapped_0|]. rewrite <- (image_crit_0 ks) at 2.
      eapply generic_mem; [exact Hks|exact Hco|apply rotation_symmetry; eauto|..]; auto; intros; apply rotate_floats.
    Qed.
  End Mem.

  Section Cbo.
    Variable (l : list (call (K := R) (V := vec))).
    Hypothesis Hl : sensible_calls d (length x0) (shape1 x0) l.
    Theorem cbo_energy_shift : forall pp h, (forall p, length p = d -> exists q, pp (floats p) = floats q /\ length q = d) ->
      same_outcome (cbo_mapped (real_point d) (fun v => v) (fun v => v) (add_energy h))
        (cbo_session (cbo_cfg f k pp co b partial cat ks save) x0 checked alpha sigma lamda dt perm0 names extra sv l)
        (cbo_session (cbo_cfg (fun v => add_energy h (f v)) k pp co b partial cat (map (image_crit (add_energy h)) ks) save) x0 checked alpha sigma lamda dt perm0 names extra sv l).
    Proof.
      intros pp h Hpp. rewrite <- (map_id_arr _ x0) at 2. rewrite <- change_draws_id at 2. eapply generic_cbo; [exact Hks|exact Hco|apply shift_symmetry; auto|..]; auto.
    Qed.
    Theorem cbo_translation : forall f' t pp pp', length t = d -> (forall p, length p = d -> f' (floats (vadd p t)) = f (floats p)) ->
      (forall p, length p = d -> exists q, pp (floats p) = floats q /\ length q = d /\ pp' (floats (vadd p t)) = floats (vadd q t)) ->
      same_outcome (cbo_mapped (real_point d) (translate t) (fun v => v) (fun e => e))
        (cbo_session (cbo_cfg f k pp co b partial cat ks save) x0 checked alpha sigma lamda dt perm0 names extra sv l)
        (cbo_session (cbo_cfg f' k pp' co b partial cat ks save) (map (map (translate t)) x0) checked alpha sigma lamda dt perm0 names extra sv l).
    Proof.
      intros f' t pp pp' Ht Hff Hpp. eapply so_mono; [intros a a'; apply cbo_mapped_0|]. rewrite <- (image_crit_0 ks) at 2. rewrite <- change_draws_id at 2.
      eapply generic_cbo; [exact Hks|exact Hco|apply translation_symmetry; eauto|..]; auto. intros p Hp. unfold translate. apply floats_add.
    Qed.
    Theorem cbo_rotation : forall f' A pp pp', isometry d A -> k <> NAniso -> (forall p, length p = d -> f' (floats (map (fun r => dot r p) A)) = f (floats p)) ->
      (forall p, length p = d -> exists q, pp (floats p) = floats q /\ length q = d /\ pp' (floats (map (fun r => dot r p) A)) = floats (map (fun r => dot r q) A)) ->
      same_outcome (cbo_mapped (real_point d) (rotate A) (rotate A) (fun e => e))
        (cbo_session (cbo_cfg f k pp co b partial cat ks save) x0 checked alpha sigma lamda dt perm0 names extra sv l)
        (cbo_session (cbo_cfg f' k pp' co b partial cat ks save) (map (map (rotate A)) x0) checked alpha sigma lamda dt perm0 names extra sv (map (change_draws (rotate A)) l)).
    Proof.
      intros f' A pp pp' HA Hk Hff Hpp. eapply so_mono; [intros a a'; apply cbo_mapped_0|]. rewrite <- (image_crit_0 ks) at 2.
      eapply generic_cbo; [exact Hks|exact Hco|apply rotation_symmetry; eauto|..]; auto; intros; apply rotate_floats.
    Qed.
  End Cbo.
End Instances.
