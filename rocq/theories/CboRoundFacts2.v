(** * Lemmas: one step of CBO with rounding compared with the exact step *)
From Coq Require Import String List Arith Bool Reals Permutation Lia Lra.
From Verif Require Import Scalar Np NpFacts State Pdyn PdynFacts PdynStep PdynRun PdynOk Exec RunFacts BatchFacts MoveFacts RVec RVecFacts
  Consensus ConsSpec ConsFacts PostProc PostFacts Cbo CboSpec CboFacts AbsorbFacts MiniFacts Rounding RoundSpec RoundFacts2 ClockSpec CboRound CboRoundSpec CboRoundFacts.
Import ListNotations.
Open Scope R_scope.

Lemma mean_weights : forall a (E : list (fl R)) (X : list (list R)) i, length E = length X -> (forall y, In y E -> exists e, y = Fin e) ->
  Rsum (map2 Rmult (map (fun x => number (nth i x (Fin 0))) (map floats X)) (gibbs_w a (map number E))) = gibbs_mean a E X i.
Proof.
  intros a E X i L HF. unfold gibbs_w, gibbs_mean. assert (ED : map (fun y => exp (- a * y)) (map number E) = map (gibbs a) E).
  { rewrite map_map. apply map_ext_in. intros y Hy. destruct (HF y Hy) as (e & ->). reflexivity. }
  rewrite ED. set (D := Rsum (map (gibbs a) E)). clearbody D. clear ED. unfold Rdiv at 2. revert X L. induction E as [|y E IH]; intros [|x X] L; try discriminate; cbn; [lra|].
  unfold Rsum in IH. cbn in IH. rewrite IH; [|intros z Hz; apply HF; right; exact Hz|cbn in L; lia].
  destruct (HF y (or_introl eq_refl)) as (e & ->). cbn. unfold floats at 1. change (Fin 0) with (Fin 0%R). rewrite (map_nth Fin x 0). cbn. unfold coord, Rdiv. ring.
Qed.

Theorem step_exact_r : forall u v eta rnd Exp Log sum, rounding u eta rnd -> arithmetic u v eta rnd Exp Log sum -> positive_sums sum ->
  forall f k T b partial cat ks save, 0 <= T <= float_max ->
  let c := cbo_cfg_r rnd Exp Log sum f k (pp_point T false) b partial cat ks save in
  forall d F A s log o s' m X a la dt kap, objective_within d T F f -> INR b * (u + v) + u * (A * F) <= / 128 ->
  @exec R vec (KOps_rounded rnd) c s log -> b = s_N s -> perms_valid o s -> finite_draws d o -> parameters la dt 0 s ->
  nth_error (s_alpha s) m = Some [Fin a] -> Rabs a <= A -> In m (s_active s) -> ensemble_at s m d X -> within T X -> kap = - rnd (- la * dt) -> 0 <= kap <= 1 ->
  @step R vec (KOps_rounded rnd) c o s = Ok s' ->
  exists Y, ensemble_at s' m d Y /\ forall n x y l, nth_error X n = Some x -> nth_error Y n = Some y -> (l < d)%nat ->
    Rabs (coord l y - Rmax (- T) (Rmin T (coord l x - kap * (coord l x - gibbs_mean a (map f (map floats X)) X l)))) <=
      kap * (67 * (INR b * (u + v) + u * (A * F)) * T + 4 * INR b * eta) + (15 * u * (T + 2 * INR b * eta) + 4 * eta).
Proof.
  intros u v eta rnd Exp Log sum RO AR PS f k T b partial cat ks save HT c d F A s log o s' m X a la dt kap HF Hq E Hb P HD HP Ha Ba Hm [HX1 HX2] HW Hk Hk1 HSt.
  assert (Hb1 : (1 <= b)%nat) by (destruct (exec_wf _ _ _ E); tauto || apply (exec_wf _ _ _ E)).
  destruct (In_nth_error _ _ Hm) as (kk & Hkk).
  destruct (step_positions (O:=KOps_rounded rnd) c s log o s' kk m (map floats X) (Fin a) E P (one_point_r rnd Exp Log sum f k T b partial cat ks save) eq_refl HSt Hkk HX1 Ha)
    as (xb & cp & xr' & _ & _ & _ & HCC & Hx' & _ & _ & HU).
  destruct (HU Hb) as [-> HU']. clear HU. destruct HX2 as [LX DX]. assert (LXb : length X = b) by congruence.
  cbn [c cbo_cfg_r c_ccrow c_f] in HCC. unfold cc_r in HCC.
  set (es := map f (map floats X)) in *. set (e := map number es) in *. set (cs := coeffs_r rnd Exp Log sum (number (Fin a)) e) in *.
  set (col := fun j => map (fun x => number (nth j x (Fin 0))) (map floats X)).
  assert (Le : length e = b) by (unfold e, es; rewrite !map_length; exact LXb).
  assert (Hd0 : length (hd [] (map floats X)) = d). { destruct X as [|p X]; [cbn in LXb; lia|]. cbn. unfold floats. rewrite map_length. apply DX. left; auto. }
  rewrite Hd0 in HCC. injection HCC as HCC.
  set (r := map (fun j => mean_r rnd sum cs (col j)) (seq 0 d)).
  assert (Ecp : cp = floats r). { rewrite <- HCC. unfold r, floats. symmetry. exact (map_map (fun j => mean_r rnd sum cs (col j)) Fin (seq 0 d)). }
  assert (Lr : length r = d) by (unfold r; rewrite map_length, seq_length; reflexivity).
  assert (FE : forall y, In y es -> exists z, y = Fin z /\ Rabs z <= F).
  { intros y Hy. unfold es in Hy. rewrite map_map in Hy. apply in_map_iff in Hy as (p & <- & Hp). apply (HF p (DX p Hp)). intros i Hi. apply (HW p Hp). rewrite (DX p Hp). exact Hi. }
  assert (HE : forall y, In y e -> Rabs (a * y) <= A * F).
  { intros y Hy. unfold e in Hy. apply in_map_iff in Hy as (z & <- & Hz). destruct (FE z Hz) as (w & -> & Bw). cbn [number]. rewrite Rabs_mult. apply Rmult_le_compat; auto using Rabs_pos. }
  assert (Ne : e <> []) by (intros G; rewrite G in Le; cbn in Le; lia).
  assert (HM : forall i, (i < d)%nat -> Rabs (coord i r - gibbs_mean a es X i) <= 67 * (INR b * (u + v) + u * (A * F)) * T + 4 * INR b * eta).
  { intros i Hi. unfold coord at 1. replace (nth i r 0) with (mean_r rnd sum cs (col i)).
    2:{ symmetry. apply nth_error_nth. unfold r. rewrite nth_error_map, (nth_error_nth' (seq 0 d) 0%nat) by (rewrite seq_length; exact Hi). rewrite seq_nth by exact Hi. reflexivity. }
    assert (Lcol : length (col i) = length e) by (unfold col; rewrite !map_length; congruence).
    assert (Hcol : forall y, In y (col i) -> Rabs y <= T).
    { intros y Hy. unfold col in Hy. rewrite map_map in Hy. apply in_map_iff in Hy as (p & <- & Hp). unfold floats. change (Fin 0) with (Fin 0).
      replace (number (nth i (map Fin p) (Fin 0))) with (coord i p); [apply (HW p Hp); rewrite (DX p Hp); exact Hi|]. rewrite (map_nth Fin p 0). reflexivity. }
    destruct (default_consensus _ _ _ _ _ _ _ AR a e (A * F) (col i) T Ne HE ltac:(rewrite Le; exact Hq) Lcol Hcol) as (_ & _ & M). change (coeffs_r rnd Exp Log sum a e) with cs in M.
    rewrite Le in M. unfold col in M at 2. unfold e in M. rewrite mean_weights in M; [|unfold es; rewrite !map_length; reflexivity|intros y Hy; destruct (FE y Hy) as (z & -> & _); eauto].
    eapply Rle_trans; [exact M|]. right. ring. }
  pose proof (ro_eta _ _ _ RO) as Het. pose proof (ro_u _ _ _ RO) as Hu. pose proof (pos_INR b) as Hbp. assert (Q0 : 0 <= INR b * eta) by (apply Rmult_le_pos; lra).
  assert (Br : forall i, (i < d)%nat -> Rabs (coord i r) <= 2 * T + 4 * INR b * eta).
  { intros i Hi. destruct (consensus_r_within u v eta rnd Exp Log sum AR f k (pp_point T false) b partial cat ks save d T A F Hb1 (proj1 HT) HF Hq X a LXb DX HW Ba) as (cp' & EC & _ & BC).
    cbn [cbo_cfg_r c_ccrow c_f] in EC. unfold cc_r in EC. rewrite Hd0 in EC. injection EC as EC. change (map (fun j => Fin (mean_r rnd sum cs (col j))) (seq 0 d) = floats cp') in EC.
    assert (r = cp'). { assert (EF : floats r = floats cp') by (rewrite <- EC; unfold r, floats; exact (map_map (fun j => mean_r rnd sum cs (col j)) Fin (seq 0 d))).
      clear - EF. revert cp' EF. induction r as [|z r IH]; intros [|z' q] EF; try discriminate; auto. injection EF as -> EF. f_equal. auto. }
    subst cp'. apply BC. exact Hi. }
  exists (map (fun x => map (clip1 T) (movedr rnd (rnd (- la * dt)) r x)) X). split; [split|].
  - rewrite Hx', HU', Ecp. f_equal. apply nth_error_ext. intros n. rewrite mapi_nth, !nth_error_map. destruct (nth_error X n) as [x|] eqn:E1; cbn [option_map]; auto. f_equal.
    destruct (HD kk n) as (z & -> & Lz). assert (Lx : length x = d) by (apply DX; eapply nth_error_In; eauto).
    unfold c. erewrite moved_r; try eassumption; try congruence. apply pp_floats. exact HT.
  - destruct (step_keeps_r rnd Exp Log sum f k T b partial cat ks save HT s log o s' E P HSt) as (_ & -> & _). split; [rewrite map_length; exact LX|].
    intros y Hy. apply in_map_iff in Hy as (x & <- & Hx). rewrite map_length. unfold movedr. rewrite map2_length, Lr, (DX x Hx). lia.
  - intros n x y l Hx Hy Hl. rewrite nth_error_map, Hx in Hy. injection Hy as <-. pose proof (nth_error_In _ _ Hx) as Ix.
    rewrite (coord_moved rnd T d) by auto. eapply Rle_trans; [apply clip1_lip|].
    pose proof (stepr_error u eta rnd RO (rnd (- la * dt)) (coord l x) (coord l r) T (2 * T + 4 * INR b * eta) ltac:(lra) (HW x Ix l ltac:(rewrite (DX x Ix); exact Hl)) (Br l Hl)) as S1.
    specialize (HM l Hl). set (g := gibbs_mean a es X l) in *. set (Q := 67 * (INR b * (u + v) + u * (A * F)) * T + 4 * INR b * eta) in *.
    replace (rnd (- la * dt)) with (- kap) in * by lra. set (z := stepr rnd (- kap) (coord l x) (coord l r)) in *.
    replace (z - (coord l x - kap * (coord l x - g))) with ((z - (coord l x + - kap * (coord l x - coord l r))) + kap * (coord l r - g)) by ring.
    eapply Rle_trans; [apply Rabs_triang|]. rewrite Rabs_mult, (Rabs_right kap) by lra. assert (K : kap * Rabs (coord l r - g) <= kap * Q) by (apply Rmult_le_compat_l; lra).
    assert (U : 0 <= u * (INR b * eta)) by (apply Rmult_le_pos; lra).
    replace (5 * u * (T + (2 * T + 4 * INR b * eta)) + 4 * eta) with (15 * (u * T) + 20 * (u * (INR b * eta)) + 4 * eta) in S1 by ring.
    replace (15 * u * (T + 2 * INR b * eta) + 4 * eta) with (15 * (u * T) + 30 * (u * (INR b * eta)) + 4 * eta) by ring. lra.
Qed.
