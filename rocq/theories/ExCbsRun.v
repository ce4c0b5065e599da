(** * Runs with covariance noise: examples *)
From Coq Require Import String List Arith Bool Reals Lia Lra.
From Verif Require Import Scalar Np NpFacts RVec RVecFacts Consensus ConsSpec Cbo CboSpec ExCbo Nd MatSqrt MatSpec MatFacts CovNoise CovCbo MomentSpec CovMoment CbsRunSpec CbsRun CbsMove.
Import ListNotations.
Open Scope R_scope.

(** an eigendecomposition of symmetric 2x2 matrices *)
Definition eigh2 (d : nat) (C : mat) : (nat -> R) * mat :=
  let p := C 0%nat 0%nat in let q := C 0%nat 1%nat in let r := C 1%nat 1%nat in
  if Req_EM_T q 0 then (fun i => C i i, mid) else
  let h := (p - r) / 2 in let s := sqrt (h * h + q * q) in let e := h + s in let n := sqrt (e * e + q * q) in
  (fun i => match i with 0%nat => (p + r) / 2 + s | _ => (p + r) / 2 - s end,
   fun i j => match i, j with 0%nat, 0%nat => e / n | 0%nat, _ => - (q / n) | _, 0%nat => q / n | _, _ => e / n end).
Lemma two : forall P : nat -> nat -> Prop, P 0%nat 0%nat -> P 0%nat 1%nat -> P 1%nat 0%nat -> P 1%nat 1%nat -> forall i j, (i < 2)%nat -> (j < 2)%nat -> P i j.
Proof. intros P A B C D i j Hi Hj. destruct i as [|[|i]]; [| |lia]; (destruct j as [|[|j]]; [| |lia]); auto. Qed.
Lemma eigh2_ok : eigh_ok 2 eigh2.
Proof.
  intros C HS. pose proof (HS 0%nat 1%nat ltac:(lia) ltac:(lia)) as E10. unfold eigh2.
  set (p := C 0%nat 0%nat) in *. set (q := C 0%nat 1%nat) in *. set (r := C 1%nat 1%nat) in *. destruct (Req_EM_T q 0) as [Q|Q].
  - cbn [fst snd]. split; [|split]; intros i j; revert i j; apply two; unfold mmul, mtr, msum, mid; cbn; fold p q r; try rewrite <- E10; try rewrite Q; ring.
  - cbv zeta. set (h := (p - r) / 2). assert (Hq : 0 < q * q) by nra. assert (Hh : 0 <= h * h) by nra.
    set (s := sqrt (h * h + q * q)). assert (S2 : s * s = h * h + q * q) by (apply sqrt_sqrt; lra). assert (S0 : 0 < s) by (apply sqrt_lt_R0; lra).
    set (e := h + s). assert (E0 : 0 < e) by (unfold e; nra).
    set (n := sqrt (e * e + q * q)). assert (N2 : n * n = e * e + q * q) by (apply sqrt_sqrt; nra). assert (N0 : 0 < n) by (apply sqrt_lt_R0; nra).
    assert (NE : n * n = 2 * s * e) by (rewrite N2; unfold e; nra).
    set (c := e / n). set (t := q / n).
    assert (U : c * c + t * t = 1). { unfold c, t. replace (e / n * (e / n) + q / n * (q / n)) with ((e * e + q * q) / (n * n)) by (field; lra). rewrite <- N2. field. lra. }
    assert (CT : 2 * s * (c * t) = q). { unfold c, t. replace (2 * s * (e / n * (q / n))) with (q * (2 * s * e) / (n * n)) by (field; lra). rewrite <- NE. field. lra. }
    assert (CC : 2 * s * (c * c - t * t) = p - r).
    { unfold c, t. replace (2 * s * (e / n * (e / n) - q / n * (q / n))) with (2 * s * (e * e - q * q) / (n * n)) by (field; lra). rewrite NE.
      replace (e * e - q * q) with (2 * h * e) by (unfold e; nra). replace (2 * s * (2 * h * e) / (2 * s * e)) with (2 * h) by (field; lra). unfold h. field. }
    assert (UP : (p + r) / 2 * (c * c + t * t) = (p + r) / 2) by (rewrite U; ring). cbn [fst snd]. split; [|split]; intros i j; revert i j; apply two; unfold mmul, mtr, msum, mid; cbn; fold c t p q r; try rewrite <- E10; lra.
Qed.

(** two particles of dimension two with the same second coordinate *)
Definition lineX : list (list R) := [[0; 1]; [2; 1]].
Definition linex : nd (fl R) := mknd [1; 2; 2]%nat (fun i => match i with [_; n; k] => Fin (coord k (nth n lineX [])) | _ => NaN end).
Definition linput : inputs := {| i_la := 1; i_dt := 1 / 100; i_sg := 1; i_alpha := mknd [1; 1]%nat (fun _ => Fin 1); i_z := fun _ => Fin 1 |}.
Lemma linput_valid : valid_inputs 1 linput.
Proof. split; [cbn; lra|]. split; [reflexivity|]. split; [|eexists; reflexivity]. intros m Hm. exists 1. split; [reflexivity|lra]. Qed.
Lemma line_run : run_is linex 0 2 2 lineX.
Proof. split; [|reflexivity]. split; auto. intros p [<-|[<-|[]]]; auto. Qed.
Lemma bounded : forall N d (g : nat -> nat -> R), exists T, forall n k, (n < N)%nat -> (k < d)%nat -> - T < g n k < T.
Proof.
  intros N d g. assert (Q : forall n, exists T, forall k, (k < d)%nat -> - T < g n k < T).
  { intros n. induction d as [|d (T & HT)]. exists 0; intros; lia. exists (Rmax T (Rabs (g n d) + 1)). intros k Hk. destruct (Nat.eq_dec k d) as [-> | Hd].
    - pose proof (Rmax_r T (Rabs (g n d) + 1)). pose proof (Rle_abs (g n d)). pose proof (Rle_abs (- g n d)). rewrite Rabs_Ropp in *. lra.
    - specialize (HT k ltac:(lia)). pose proof (Rmax_l T (Rabs (g n d) + 1)). lra. }
  induction N as [|N (T & HT)]. exists 0; intros; lia. destruct (Q N) as (T' & HT'). exists (Rmax T T'). intros n k Hn Hk. destruct (Nat.eq_dec n N) as [-> | Hd].
  - specialize (HT' k Hk). pose proof (Rmax_r T T'). lra.
  - specialize (HT n k ltac:(lia) Hk). pose proof (Rmax_l T T'). lra.
Qed.
Lemma line_case : exists T y, unclipped sqf eigh2 true (fun u => u) T 1 2 2 0 linex y /\ one_step sqf eigh2 true (fun u => u) linput linex = Ok y /\ only_clips T (fun u => u) /\
  on_plane 2 (fun i => match i with 1%nat => 1 | _ => 0 end) 1 lineX.
Proof.
  destruct (step_form sqf eigh2 true 1 2 2 0 lineX linex linput 1 (sqf_finite 2) eigh2_ok eq_refl ltac:(lia) ltac:(lia) line_run linput_valid eq_refl) as (y & Q & Ey & Sy & _ & _ & Hy).
  set (g := fun n k => coord k (nth n lineX []) - i_la linput * i_dt linput * (coord k (nth n lineX []) - gibbs_mean 1 (map sqf (map floats lineX)) lineX k) +
           i_sg linput * sqrt (gain true 1 (i_dt linput)) * msum 2 (fun q => Q k q * rz (i_z linput [0%nat; n; q]))) in *.
  destruct (bounded 2 2 g) as (T & HT). exists T, (lift1 (fun u => u) y). split; [|split; [apply Ey|split]].
  - apply un_step with (y := linex) (i := linput). constructor. exact linput_valid. apply Ey. intros n k Hn Hk. exists (g n k). split; [|apply HT; auto]. exact (Hy n k Hn Hk).
  - intros v w H _. injection H; auto.
  - intros p [<-|[<-|[]]]; unfold msum; cbn; ring.
Qed.

(** turned by 90 degrees and moved by (1, 0); the objective moves along and is raised by 7 *)
Definition quarter : mat := fun i j => match i, j with 0%nat, 1%nat => -1 | 1%nat, 0%nat => 1 | _, _ => 0 end.
Definition shiftb (i : nat) : R := match i with 0%nat => 1 | _ => 0 end.
Definition sqf' (v : vec) : fl R := match v with [Fin a; Fin b] => fadd (sqf [Fin b; Fin (1 - a)]) (Fin 7) | _ => Fin 0 end.
Definition turnX : list (list R) := map (affine 2 quarter shiftb) lineX.
Definition turnx : nd (fl R) := mknd [1; 2; 2]%nat (fun i => match i with [_; n; k] => Fin (coord k (nth n turnX [])) | _ => NaN end).
Definition turnput : inputs := {| i_la := 1; i_dt := 1 / 100; i_sg := 1; i_alpha := mknd [1; 1]%nat (fun _ => Fin 1); i_z := fun i => match last i 0%nat with 0%nat => Fin (-1) | _ => Fin 1 end |}.
Lemma turnput_valid : valid_inputs 1 turnput.
Proof. split; [cbn; lra|]. split; [reflexivity|]. split. intros m Hm. exists 1. split; [reflexivity|lra]. intros j. cbn. destruct (last j 0%nat); eauto. Qed.
Lemma list2 : forall p : list R, length p = 2%nat -> p = [coord 0 p; coord 1 p].
Proof. intros [|a [|b [|c p]]] H; try discriminate H. reflexivity. Qed.
Lemma turn_case : finite_obj 2 sqf /\ finite_obj 2 sqf' /\ orthogonal 2 quarter /\
  (forall p, length p = 2%nat -> sqf' (floats (affine 2 quarter shiftb p)) = fadd (sqf (floats p)) (Fin 7)) /\
  run_is linex 0 2 2 lineX /\ run_is turnx 0 2 2 (map (affine 2 quarter shiftb) lineX) /\
  exists y y', moved_together sqf sqf' eigh2 eigh2 true 1 1 2 0 quarter linex turnx y y' /\ one_step sqf eigh2 true (fun u => u) linput linex = Ok y.
Proof.
  assert (F' : finite_obj 2 sqf').
  { intros p Hp. rewrite (list2 p Hp). cbn [floats map sqf']. destruct (sqf_finite 2 [coord 1 p; 1 - coord 0 p] eq_refl) as (v & E). change (floats [coord 1 p; 1 - coord 0 p]) with [Fin (coord 1 p); Fin (1 - coord 0 p)] in E. rewrite E. cbn [fadd]. eauto. }
  assert (FF : forall p, length p = 2%nat -> sqf' (floats (affine 2 quarter shiftb p)) = fadd (sqf (floats p)) (Fin 7)).
  { intros p Hp. rewrite (list2 p Hp). generalize (coord 0 p) (coord 1 p). intros u v. unfold affine, msum. cbn [seq map floats sqf' quarter shiftb Rsum fold_right coord nth]. f_equal. f_equal. f_equal; [|f_equal]; f_equal; ring. }
  assert (RT : run_is turnx 0 2 2 (map (affine 2 quarter shiftb) lineX)).
  { split; [|reflexivity]. split; auto. intros p [<-|[<-|[]]]; auto. }
  split; [apply sqf_finite|]. split; [exact F'|]. split. { intros i j; revert i j; apply two; unfold mmul, mtr, msum, mid, quarter; cbn; ring. }
  split; [exact FF|]. split; [exact line_run|]. split; [exact RT|].
  destruct (step_form sqf eigh2 true 1 2 2 0 lineX linex linput 1 (sqf_finite 2) eigh2_ok eq_refl ltac:(lia) ltac:(lia) line_run linput_valid eq_refl) as (y & Q & Ey & _).
  destruct (step_form sqf' eigh2 true 1 2 2 0 _ turnx turnput 1 F' eigh2_ok eq_refl ltac:(lia) ltac:(lia) RT turnput_valid eq_refl) as (y' & Q' & Ey' & _).
  exists (lift1 (fun u => u) y), (lift1 (fun u => u) y'). split; [|apply Ey].
  apply mt_step with (y := linex) (y' := turnx) (i := linput) (i' := turnput); auto using linput_valid, turnput_valid. constructor.
  repeat (split; [reflexivity|]). intros n q w v Hq Hw Hv. assert (W0 := Hw 0%nat ltac:(lia)). assert (W1 := Hw 1%nat ltac:(lia)). cbn in W0, W1, Hv. injection W0 as W0. injection W1 as W1.
  destruct q as [|[|q]]; [| |lia]; injection Hv as <-; unfold msum, quarter; cbn; rewrite <- W0, <- W1; ring.
Qed.
