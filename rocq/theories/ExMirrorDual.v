(** * Concrete sessions of MirrorCBO with tracked dual points and resampling *)
From Coq Require Import String List Arith Bool ZArith Permutation Lia Reals.
From Verif Require Import Scalar Np State Pdyn Exec Script ExZ MemSpec Variant VarExactSpec RVec Cbo CboSpec MirrorDual MirrorDualSpec.
Import ListNotations.
Open Scope string_scope.
Open Scope nat_scope.
Open Scope list_scope.

(** exact arithmetic on floats: the order of additions does not matter, whatever the components are *)
Lemma fadd_swap : forall a w b : fl R, fadd (fadd a w) b = fadd (fadd a b) w.
Proof. intros [x| | |] [y| | |] [z| | |]; cbn; auto. f_equal. cbn. ring. Qed.
Lemma vec_swap : forall a b w : vec, map2 fadd (map2 fadd a w) b = map2 fadd (map2 fadd a b) w.
Proof. induction a as [|x a IH]; intros [|y b] [|z w]; cbn; auto. rewrite fadd_swap, IH. auto. Qed.
Lemma cbo_swap : forall f k pp co b partial cat ks save u v w, let c := cbo_cfg f k pp co b partial cat ks save in
  c_vadd c (c_vadd c u w) v = c_vadd c (c_vadd c u v) w.
Proof. intros. apply vec_swap. Qed.

Definition mdc : cfg Z Z := zcfg sqf NoCorr 2 false false [].
Definition mdx : arr Z := [[10; 4]]%Z.
Definition mdp : nat -> list nat := fun _ => [0; 1].
Definition mdinit : res (st Z Z) := init mdc mdx true (Fin 1%Z) (Fin 0%Z) (Fin 1%Z) (Fin 1%Z) mdp (Some ["x"; "energy"]) [] (Some 2).
Definition mgc (v : Z) : Z := (v - 1)%Z.
Definition mgr (v : Z) : Z := (v + 1)%Z.
Definition mdz (k n : nat) : Z := (100 + Z.of_nat n)%Z.

Lemma md_hyps : is_array (length mdx) (shape1 mdx) mdx /\ 1 <= shape1 mdx /\ 1 <= c_bsize mdc <= shape1 mdx /\
  (forall m, m < length mdx -> Permutation (mdp m) (seq 0 (shape1 mdx))).
Proof. split; [split; [reflexivity|repeat constructor]|]. split; [cbn; lia|]. split; [cbn; lia|]. intros. apply Permutation_refl. Qed.

Lemma md_constructed : forall s0, mdinit = Ok s0 -> constructed mdc s0.
Proof.
  intros s0 H. destruct md_hyps as (A & B & C & D). exists mdx, true, (Fin 1%Z), (Fin 0%Z), (Fin 1%Z), (Fin 1%Z), mdp, (Some ["x"; "energy"]), [], (Some 2).
  split; [exact A|]. split; [exact B|]. split; [exact C|]. split; [exact D|]. split; [discriminate|exact H].
Qed.

(** runs of actions, with the side conditions checked *)
Inductive mact : Type := MStep (z : Z) | MResample (var : vname) (idx : list nat).
Fixpoint mplay (l : list mact) (acc : list (arr Z * arr Z)) (p : (st Z Z * arr Z) * list (arr Z))
    : option (list (arr Z * arr Z) * ((st Z Z * arr Z) * list (arr Z))) :=
  match l with
  | [] => Some (acc, p)
  | MStep z :: l' =>
      if perm_b (s_N (fst (fst p))) [0; 1] && negb (length (s_active (fst (fst p))) =? 0) then
        match mirror_tstep mgc mdc (zorc z [0; 1]) p with
        | Ok q => mplay l' (acc ++ [(s_x (fst (fst q)), snd (fst q))]) q
        | Err _ => None end
      else None
  | MResample var idx :: l' =>
      match mirror_resample mdc var (Fin 1%Z) mdz idx (fst p) with Ok q => mplay l' acc (q, snd p) | Err _ => None end
  end.
Lemma mplay_ok : forall l s0 acc s y hy acc' s' y' hy', msess mgc mgr mdc s0 acc s y hy ->
  mplay l acc ((s, y), hy) = Some (acc', ((s', y'), hy')) -> msess mgc mgr mdc s0 acc' s' y' hy'.
Proof.
  induction l as [|[z|var idx] l IH]; intros s0 acc s y hy acc' s' y' hy' H E; cbn [mplay fst snd] in E.
  - injection E as <- <- <- <-. auto.
  - destruct (perm_b (s_N s) [0; 1]) eqn:Ep; [|discriminate]. cbn [andb] in E.
    destruct (length (s_active s) =? 0) eqn:Ea; [discriminate|]. cbn [negb] in E.
    destruct (mirror_tstep _ _ _ _) as [[[s1 y1] h1]|] eqn:E1; [|discriminate]. cbn [fst snd] in E.
    eapply IH; [|exact E]. eapply ms_step; eauto. apply zperm_valid; auto. intros Hn. rewrite Hn in Ea. discriminate.
  - destruct (mirror_resample _ _ _ _ _ _) as [[s1 y1]|] eqn:E1; [|discriminate].
    eapply IH; [|exact E]. eapply ms_resample; eauto.
Qed.
Definition mrun (l : list mact) := match mdinit with Ok s0 => option_map (fun r => (s0, r)) (mplay l [] ((s0, mirror_attr mgr s0), track_y_init)) | Err _ => None end.
Lemma mrun_ok : forall l s0 acc s y hy, mrun l = Some (s0, (acc, ((s, y), hy))) -> mdinit = Ok s0 /\ msess mgc mgr mdc s0 acc s y hy.
Proof.
  intros l s0 acc s y hy H. unfold mrun in H. destruct mdinit as [t0|]; [|discriminate].
  destruct (mplay _ _ _) as [[a [[s1 y1] h1]]|] eqn:E; [|discriminate]. cbn [option_map] in H. injection H as <- <- <- <- <-.
  split; auto. eapply mplay_ok; [|exact E]. apply ms_init.
Qed.
Ltac play l :=
  let r := eval vm_compute in (mrun l) in
  match r with Some (?s0, (?acc, ((?s, ?y), ?hy))) =>
    exists s0, acc, s, y, hy;
    let E := fresh in assert (E : mrun l = Some (s0, (acc, ((s, y), hy)))) by (vm_cast_no_check (eq_refl (Some (s0, (acc, ((s, y), hy))))));
    apply mrun_ok in E; destruct E as [? ?] end.

(** a step, resampling of x by 100 and 101, two more steps; save_int = 2 *)
Lemma ex_history : exists s0 l s y hy, mdinit = Ok s0 /\ NoDup ["x"; "energy"] /\ (In "drift" ["x"; "energy"] -> ~ In "particle_idx" ["x"; "energy"]) /\
  In "x" ["x"; "energy"] /\ msess mgc mgr mdc s0 l s y hy /\
  l = [([[4; 4]], [[5; 5]]); ([[4; 3]], [[5; 4]]); ([[3; 3]], [[4; 4]])]%Z /\
  hist_get "x" (s_hist s) = Some [HX [[10; 4]]; HX [[4; 4]]; HX [[3; 3]]]%Z /\ hy = [[[5; 5]]; [[4; 4]]]%Z.
Proof.
  play [MStep 0%Z; MResample VarX [0]; MStep 0%Z; MStep 0%Z]. split; [assumption|]. split.
  { repeat constructor; cbn; intuition discriminate. }
  split; [cbn; intuition discriminate|]. split; [cbn; auto|]. split; [assumption|]. repeat split; reflexivity.
Qed.

(** the recorded dual points do not belong to the positions recorded at the same index *)
Lemma ex_misaligned : exists s0 l s y hy x0 y0, mdinit = Ok s0 /\ msess mgc mgr mdc s0 l s y hy /\
  match hist_get "x" (s_hist s) with Some h => nth_error h 0 = Some (HX x0) /\ length h <> length hy | None => False end /\
  nth_error hy 0 = Some y0 /\ x0 <> map (map (fun v => c_pp mdc (mgc v))) y0.
Proof.
  play [MStep 0%Z; MStep 0%Z; MStep 0%Z]. eexists _, _. split; [assumption|]. split; [assumption|]. split; [vm_compute; split; [reflexivity|discriminate]|].
  split; [reflexivity|]. vm_compute. discriminate.
Qed.

(** the positions after the resampling, and a step after it *)
Lemma ex_move : exists s0 l s y hy, mdinit = Ok s0 /\ msess mgc mgr mdc s0 l s y hy /\ one_consensus_point mdc /\ c_corr mdc = NoCorr /\
  perms_valid (zorc 3 [0; 1]) s /\ s_active s = [0] /\ s_x s = [[104; 105]]%Z /\ y = [[5; 5]]%Z /\
  exists s' y' hy', mirror_tstep mgc mdc (zorc 3 [0; 1]) ((s, y), hy) = Ok ((s', y'), hy') /\ y' = [[5; 4]]%Z /\ s_x s' = [[4; 3]]%Z.
Proof.
  play [MStep 0%Z; MResample VarX [0]]. split; [assumption|]. split; [assumption|]. split; [apply zbest_one|]. split; [reflexivity|].
  split; [apply zperm_valid; reflexivity|]. split; [reflexivity|]. split; [reflexivity|]. split; [reflexivity|].
  eexists _, _, _. split; [vm_compute; reflexivity|]. split; reflexivity.
Qed.

(** resampling of y keeps its displacement *)
Lemma ex_shift : exists s0 l s y hy, mdinit = Ok s0 /\ msess mgc mgr mdc s0 l s y hy /\ one_consensus_point mdc /\ c_corr mdc = NoCorr /\
  (forall a b w, c_vadd mdc (c_vadd mdc a w) b = c_vadd mdc (c_vadd mdc a b) w) /\ perms_valid (zorc 3 [0; 1]) s /\ s_M s = 1 /\
  exists sr yr s1 y1 h1 s2 y2 h2, mirror_resample mdc VarY (Fin 1%Z) mdz [0] (s, y) = Ok (sr, yr) /\
    mirror_tstep mgc mdc (zorc 3 [0; 1]) ((s, y), hy) = Ok ((s1, y1), h1) /\
    mirror_tstep mgc mdc (zorc 3 [0; 1]) ((sr, yr), hy) = Ok ((s2, y2), h2) /\ y1 = [[5; 5]]%Z /\ y2 = [[105; 106]]%Z /\ s_x s2 = [[104; 105]]%Z.
Proof.
  play [MStep 0%Z]. split; [assumption|]. split; [assumption|]. split; [apply zbest_one|]. split; [reflexivity|]. split; [cbn; intros; lia|].
  split; [apply zperm_valid; reflexivity|]. split; [reflexivity|].
  eexists _, _, _, _, _, _, _, _. split; [vm_compute; reflexivity|]. split; [vm_compute; reflexivity|]. split; [vm_compute; reflexivity|].
  split; [reflexivity|]. split; reflexivity.
Qed.

(** resampling x moved the particles by 100 each, yet the positions after the next step are those without the resampling;
    a CBO started from the same two states keeps the displacement *)
Definition mdz1 (k n : nat) : Z := 100%Z.
Lemma ex_undone : exists s0 l s y hy sr yr s1 y1 h1 s2 y2 h2, mdinit = Ok s0 /\ msess mgc mgr mdc s0 l s y hy /\
  mirror_resample mdc VarX (Fin 1%Z) mdz1 [0] (s, y) = Ok (sr, yr) /\ s_x s = [[4; 4]]%Z /\ s_x sr = [[104; 104]]%Z /\
  mirror_tstep mgc mdc (zorc 0 [0; 1]) ((s, y), hy) = Ok ((s1, y1), h1) /\
  mirror_tstep mgc mdc (zorc 0 [0; 1]) ((sr, yr), hy) = Ok ((s2, y2), h2) /\ s_x s2 = s_x s1 /\ y2 = y1 /\
  exists t1 t2, step mdc (zorc 0 [0; 1]) s = Ok t1 /\ step mdc (zorc 0 [0; 1]) sr = Ok t2 /\ s_x t1 = [[4; 4]]%Z /\ s_x t2 = [[104; 104]]%Z.
Proof.
  play [MStep 0%Z]. eexists _, _, _, _, _, _, _, _. split; [assumption|]. split; [assumption|]. split; [vm_compute; reflexivity|]. split; [reflexivity|].
  split; [reflexivity|]. split; [vm_compute; reflexivity|]. split; [vm_compute; reflexivity|]. split; [reflexivity|]. split; [reflexivity|].
  eexists _, _. split; [vm_compute; reflexivity|]. split; [vm_compute; reflexivity|]. split; reflexivity.
Qed.
