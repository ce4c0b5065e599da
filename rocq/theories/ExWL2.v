(** * Concrete sessions of MirrorCBO with weighted_L2 *)
From Coq Require Import String List Arith Bool ZArith Permutation Lia Reals Lra.
From Verif Require Import Scalar Np State Pdyn Exec Script ExZ MemSpec Variant RVec Consensus Nd NdPart WL2 WL2Spec WL2Facts.
Import ListNotations.
Open Scope string_scope.
Open Scope nat_scope.
Open Scope list_scope.

Definition nanrep (v : fl Z) : fl Z := match v with Fin k => Fin k | PInf => Fin 5000 | NInf => Fin (-5000) | NaN => Fin 1000 end%Z.
Definition fzclip (v : fl Z) : fl Z := match v with Fin k => Fin (zclip k) | _ => v end.
Definition fbest (e : list (fl Z)) (x : list (fl Z)) (a : fl Z) : list (fl Z) :=
  match argmin e with Ok (j, _) => [nth j x NaN] | Err _ => [NaN] end.
(** one-dimensional particles with values NaN and infinity *)
Definition wcfg : cfg Z (fl Z) :=
  {| c_f := fun v => fmul v v; c_vadd := fadd; c_vsub := fsub; c_vscale := fmul;
     c_norm := fun l => Fin 0%Z; c_dmean := fun l => Fin 0%Z;
     c_ccrow := fbest; c_noise := fun dt d z => z; c_pp := fun v => fzclip (nanrep v);
     c_corr := NoCorr; c_bsize := 2; c_partial := false; c_concat := false; c_crit := []; c_savepts := false |}.
Definition wx : arr (fl Z) := [[Fin 3; Fin 5]]%Z.
Definition wperm : nat -> list nat := fun _ => [0; 1].
Definition winit (sg : Z) : res (st Z (fl Z)) :=
  init wcfg wx true (Fin 1%Z) (Fin sg) (Fin 0%Z) (Fin 1%Z) wperm (Some []) [] None.
Definition twice (v : fl Z) : fl Z := fmul (Fin 2%Z) v.
Definition worc (z : fl Z) : orc (fl Z) := {| o_z := fun _ _ => z; o_perm := wperm |}.

Lemma wconstructed : forall sg s0, winit sg = Ok s0 -> constructed wcfg s0.
Proof.
  intros sg s0 H. exists wx, true, (Fin 1%Z), (Fin sg), (Fin 0%Z), (Fin 1%Z), wperm, (Some []), [], None.
  split; [split; [reflexivity|repeat constructor]|]. split; [cbn; lia|]. split; [cbn; lia|].
  split; [intros; apply Permutation_refl|]. split; [discriminate|exact H].
Qed.
Lemma wpp : forall v, c_pp wcfg v = fzclip (nanrep v).
Proof. reflexivity. Qed.
Lemma wone : one_consensus_point wcfg.
Proof. intros e x a. cbn. unfold fbest. destruct (argmin e) as [[j v]|]; reflexivity. Qed.

(** one step of a session, with the side conditions *)
Definition wrun (g : option (fl Z -> fl Z)) (sg : Z) (zs : list (fl Z)) : option (st Z (fl Z) * heap (fl Z)) :=
  match winit sg with
  | Ok s0 => fold_left (fun acc z => match acc with
                                     | Some (s, h) => if perm_b (s_N s) [0; 1] && negb (length (s_active s) =? 0) then
                                                        match hstep g nanrep fzclip wcfg (worc z) (s, h) with Ok q => Some q | Err _ => None end
                                                      else None
                                     | None => None end) zs (Some (s0, heap0 twice s0))
  | Err _ => None
  end.
Lemma wvalid : forall z (s : st Z (fl Z)), perm_b (s_N s) [0; 1] = true -> perms_valid (worc z) s.
Proof. intros z s H m Hm. apply perm_b_ok. exact H. Qed.
Lemma wrun_ok : forall g sg zs s h, wrun g sg zs = Some (s, h) -> exists log, hexec g twice nanrep fzclip wcfg (length zs) (s, h) log.
Proof.
  intros g sg zs s h. unfold wrun. destruct (winit sg) as [s0|] eqn:E0; [|discriminate].
  pose proof (hx_init g twice nanrep fzclip wcfg s0 (wconstructed _ _ E0)) as H0.
  assert (G : forall zs n p log, hexec g twice nanrep fzclip wcfg n p log -> forall q,
    fold_left (fun acc z => match acc with
                            | Some (s, h) => if perm_b (s_N s) [0; 1] && negb (length (s_active s) =? 0) then
                                               match hstep g nanrep fzclip wcfg (worc z) (s, h) with Ok q => Some q | Err _ => None end
                                             else None
                            | None => None end) zs (Some p) = Some q ->
    exists log', hexec g twice nanrep fzclip wcfg (n + length zs) q log').
  { induction zs0 as [|z zs0 IH]; intros n p log H q E; cbn [fold_left] in E.
    - injection E as <-. rewrite Nat.add_0_r. eauto.
    - destruct p as [s1 h1]. destruct (perm_b (s_N s1) [0; 1]) eqn:Ep; cbn [andb] in E.
      2:{ exfalso. clear -E. induction zs0; cbn in E; [discriminate|auto]. }
      destruct (length (s_active s1) =? 0) eqn:Ea; cbn [negb] in E.
      { exfalso. clear -E. induction zs0; cbn in E; [discriminate|auto]. }
      destruct (hstep g nanrep fzclip wcfg (worc z) (s1, h1)) as [[s2 h2]|] eqn:Es.
      2:{ exfalso. clear -E. induction zs0; cbn in E; [discriminate|auto]. }
      cbn [length]. rewrite Nat.add_succ_r, <- Nat.add_succ_l. eapply IH; [|exact E]. eapply hx_step; eauto.
      + apply wvalid; auto.
      + intros Hn. rewrite Hn in Ea. discriminate. }
  intros E. exact (G zs 0 _ _ H0 _ E).
Qed.

(** lamda = sigma = 0: the update is zero, and yet the first step doubles the particles *)
Lemma w_jump : exists s h s' h', hexec None twice nanrep fzclip wcfg 0 (s, h) [] /\ perms_valid (worc (Fin 1%Z)) s /\ s_active s <> [] /\
  s_lamda s = Fin 0%Z /\ s_sigma s = Fin 0%Z /\ hstep None nanrep fzclip wcfg (worc (Fin 1%Z)) (s, h) = Ok (s', h') /\
  s_x s = [[Fin 3; Fin 5]]%Z /\ s_x s' = [[Fin 6; Fin 10]]%Z.
Proof.
  destruct (winit 0) as [s|] eqn:E; [|vm_compute in E; discriminate].
  pose proof (hx_init None twice nanrep fzclip wcfg s (wconstructed _ _ E)) as H0.
  destruct (hstep None nanrep fzclip wcfg (worc (Fin 1%Z)) (s, heap0 twice s)) as [[s' h']|] eqn:E1.
  2:{ vm_compute in E. injection E as <-. vm_compute in E1. discriminate. }
  exists s, (heap0 twice s), s', h'. split; [exact H0|]. vm_compute in E. injection E as <-.
  split. { apply wvalid. reflexivity. } split; [discriminate|]. split; [reflexivity|]. split; [reflexivity|]. split; [exact E1|].
  split; [reflexivity|]. vm_compute in E1. injection E1 as <- <-. reflexivity.
Qed.

(** with weighted_L2 a NaN draw is repaired in y too *)
Lemma w_repaired : exists s h log, hexec None twice nanrep fzclip wcfg 1 (s, h) log /\ s_x s = [[Fin 1000; Fin 1000]]%Z /\
  deref h (ry h) = [[Fin 1000; Fin 1000]]%Z.
Proof.
  destruct (wrun None 1 [NaN]) as [[s h]|] eqn:E; [|vm_compute in E; discriminate].
  destruct (wrun_ok _ _ _ _ _ E) as [log H]. exists s, h, log. split; [exact H|].
  vm_compute in E. injection E as <- <-. split; reflexivity.
Qed.
(** ... with a map that returns a new array it stays in y for good *)
Lemma w_nan : exists s h log, hexec (Some (fun v => v)) twice nanrep fzclip wcfg 3 (s, h) log /\ s_x s = [[Fin 1000; Fin 1000]]%Z /\
  deref h (ry h) = [[NaN; NaN]].
Proof.
  destruct (wrun (Some (fun v => v)) 1 [NaN; Fin 1%Z; Fin 2%Z]) as [[s h]|] eqn:E; [|vm_compute in E; discriminate].
  destruct (wrun_ok _ _ _ _ _ E) as [log H]. exists s, h, log. split; [exact H|].
  vm_compute in E. injection E as <- <-. split; reflexivity.
Qed.
(** ... and clipping changes x but not y: the next step starts again from the unclipped dual points *)
Lemma w_clip : exists s h log, hexec None twice nanrep fzclip wcfg 1 (s, h) log /\ s_x s = [[Fin 1000; Fin 1000]]%Z /\
  deref h (ry h) = [[Fin 2006; Fin 2010]]%Z.
Proof.
  destruct (wrun None 1 [Fin 2000%Z]) as [[s h]|] eqn:E; [|vm_compute in E; discriminate].
  destruct (wrun_ok _ _ _ _ _ E) as [log H]. exists s, h, log. split; [exact H|].
  vm_compute in E. injection E as <- <-. split; reflexivity.
Qed.
(** a session in which x = y, as wl2_step_cbo asks *)
Lemma w_equal : exists s h log, hexec None twice nanrep fzclip wcfg 1 (s, h) log /\ deref h (rx h) = deref h (ry h) /\
  exists s', step wcfg (worc (Fin 1%Z)) s = Ok s'.
Proof.
  destruct (wrun None 1 [Fin 1%Z]) as [[s h]|] eqn:E; [|vm_compute in E; discriminate].
  destruct (wrun_ok _ _ _ _ _ E) as [log H]. exists s, h, log. split; [exact H|].
  destruct (step wcfg (worc (Fin 1%Z)) s) as [s'|] eqn:E1; vm_compute in E; injection E as <- <-.
  - split; [reflexivity|eauto].
  - vm_compute in E1. discriminate.
Qed.

(** ** Arrays *)
Definition wa (a : R) : nd (fl R) := mknd [1; 1] (fun _ => Fin a).
Definition wmat : nd (fl R) := mknd [2; 2] (fun i => Fin (INR (nth 0 i 0 + 2 * nth 1 i 0))).
Definition wtheta : nd (fl R) := mknd [1; 2; 2] (fun i => Fin (INR (nth 1 i 0 + nth 2 i 0))).
Definition wrows : nd (fl R) := mknd [1; 2] (fun i => Fin (INR (1 + nth 1 i 0))).
(** A = [[0, 2], [1, 3]]: the second entry of grad(A)(1, 2) is 1.5 * 1 + 3 * 2 *)
Lemma w_rows : exists y, wl2_grad wmat wrows = Ok y /\ get y [0; 1] = Fin (15 / 2)%R.
Proof.
  destruct (grad_rows wmat wrows 1 2 eq_refl eq_refl) as (y & E & _ & G). exists y. split; [exact E|].
  rewrite G by lia. cbn. f_equal. lra.
Qed.

(** ** Refutations *)
Lemma zero_update_refuted :
  ~ (forall (c : cfg Z (fl Z)) gr nn cl n s h log o s' h', (forall v, c_pp c v = cl (nn v)) -> one_consensus_point c -> c_corr c = NoCorr ->
       hexec None gr nn cl c n (s, h) log -> perms_valid o s -> s_active s <> [] -> hstep None nn cl c o (s, h) = Ok (s', h') ->
       s_lamda s = Fin 0%Z -> s_sigma s = Fin 0%Z -> s_x s' = map (map (c_pp c)) (s_x s)).
Proof.
  intros H. destruct w_jump as (s & h & s' & h' & HX & P & A & L & S & E & X & X').
  specialize (H wcfg twice nanrep fzclip 0 s h [] _ s' h' wpp wone eq_refl HX P A E L S). rewrite X, X' in H. discriminate.
Qed.
Lemma dual_repaired_refuted :
  ~ (forall (c : cfg Z (fl Z)) g gr nn cl n s h log, (forall v, c_pp c v = cl (nn v)) -> (forall v, nn v <> NaN) ->
       hexec (Some g) gr nn cl c n (s, h) log -> n <> 0 -> forall m k v, cell (deref h (ry h)) m k = Some v -> v <> NaN).
Proof.
  intros H. destruct w_nan as (s & h & log & HX & X & Y).
  apply (H wcfg (fun v => v) twice nanrep fzclip 3 s h log wpp ltac:(intros [k| | |]; discriminate) HX ltac:(discriminate) 0 0 NaN); auto.
  rewrite Y. reflexivity.
Qed.
Lemma vectors_refuted :
  ~ (forall (A theta : nd (fl R)) M N d, shape A = [d; d] -> shape theta = [M; N; d] -> exists y, wl2_grad A theta = Ok y).
Proof.
  intros H. destruct (H wmat wtheta 1 2 2 eq_refl eq_refl) as [y E]. rewrite (grad_vector wmat wtheta 2 1 2 2) in E; [discriminate|reflexivity|reflexivity|lia].
Qed.
