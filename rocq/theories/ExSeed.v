(** * Streams: a concrete numpy and concrete scripts *)
From Coq Require Import String List Arith Bool ZArith Permutation Lia.
From Verif Require Import Scalar Np State Pdyn Exec Script RunFacts ExZ Seed SeedSpec SeedFacts.
Import ListNotations.
Open Scope nat_scope.
Open Scope list_scope.

(** generators are counters: draws count up, permutations alternate *)
Definition znp : numpy nat Z := {|
  np_rng := fun s => 10 * s; np_mt := fun s => s; np_fresh := fun g => (g, S g);
  np_normal := fun g r n => ((fun k i => Z.of_nat (g + k * n + i)), g + r * n);
  np_uniform := fun g r n => (map (fun k => map (fun i => Z.of_nat (g + k * n + i)) (seq 0 n)) (seq 0 r), g + r * n);
  np_permuted := fun g r n => ((fun m => if Nat.even (g + m) then seq 0 n else rev (seq 0 n)), S g) |}.
Lemma znp_ok : numpy_ok znp.
Proof.
  split.
  - intros g r n m _. cbn. destruct (Nat.even (g + m)); [apply Permutation_refl|]. symmetry. apply Permutation_rev.
  - intros g r n. cbn. split; [now rewrite map_length, seq_length|]. rewrite Forall_forall. intros row H. apply in_map_iff in H as (k & <- & _). now rewrite map_length, seq_length.
Qed.
Definition zw (g e : nat) : world nat := mkworld g e.
(** [zargs x seed check glob]: batches of two out of three *)
Definition zargs (x : option (arr Z)) (seed : option nat) (check glob : bool) : args Z Z :=
  {| a_c := zcfg sqf NoCorr 2 true false [CMaxIt (Some 20)]; a_x := x; a_M := 2; a_N := 3; a_seed := seed; a_bseed := 42; a_check := check; a_global := glob;
     a_alpha := Fin 1%Z; a_sigma := Fin 1%Z; a_lamda := Fin 1%Z; a_dt := Fin 1%Z; a_names := None; a_extra := []; a_save := None |}.
Definition zgood : args Z Z := zargs (Some zx1) (Some 7) true false.
Lemma zgood_ok : args_ok zgood /\ reproducible_args zgood.
Proof. split; [split; [split; [split; [reflexivity|repeat constructor]|cbn; lia]|discriminate]|split; [discriminate|split; [discriminate|reflexivity]]]. Qed.
Definition keep (s : st Z Z) : res (st Z Z) := Ok s.
Lemma keep_ok : sched_ok keep.
Proof. intros s s' H. injection H as <-. exists (s_alpha s), (s_sigma s), (s_lamda s), (s_dt s). split; [auto|]. now destruct s. Qed.
(** positions of dynamic [k] after a script *)
Definition positions (k : nat) (l : list (cmd Z Z nat)) (w : world nat) : option (arr Z) :=
  match snd (run_script znp l w) k with Some (_, Ok d) => Some (s_x (d_s d)) | _ => None end.

(** two scripts with the same commands for dynamic 0, mixed with other dynamics and uses of np.random *)
Definition zscriptA : list (cmd Z Z nat) := [CNew 0 zgood; CStep 0; COpt 0 keep 2; CReset 0; CStep 0].
Definition zscriptB : list (cmd Z Z nat) :=
  [CWorld (fun w => mkworld (S (w_glob w)) (w_os w)); CNew 1 (zargs None None true true); CNew 0 zgood; CStep 1; CStep 0; CWorld (fun w => mkworld 99 (w_os w)); COpt 1 keep 3;
   COpt 0 keep 2; CReset 0; CStep 1; CStep 0; CReset 1].
Lemma zscripts : script_ok zscriptB /\ reproducible 0 zscriptB /\ filter (about 0) zscriptA = map (redirect 0) (filter (about 0) zscriptB) /\
  (exists x, positions 0 zscriptA (zw 0 0) = Some x /\ positions 0 zscriptB (zw 5 6) = Some x /\ x <> zx1) /\ positions 1 zscriptB (zw 5 6) <> positions 1 zscriptB (zw 6 6).
Proof.
  split; [|split; [|split; [reflexivity|split]]].
  - split.
    + intros k a H. cbn in H. repeat (destruct H as [H|H]; [try discriminate H; injection H as <- <-; first [apply zgood_ok|split; [cbn; lia|discriminate]]|]). destruct H.
    + intros k f n H. cbn in H. repeat (destruct H as [H|H]; [try discriminate H; injection H as <- <- <-; exact keep_ok|]). destruct H.
  - intros a H. cbn in H. repeat (destruct H as [H|H]; [try discriminate H; injection H as <-; apply zgood_ok|]). destruct H.
  - let r := eval vm_compute in (positions 0 zscriptA (zw 0 0)) in match r with Some ?x => exists x end. split; [vm_compute; reflexivity|]. split; [vm_compute; reflexivity|]. vm_compute. discriminate.
  - vm_compute. discriminate.
Qed.
Lemma znone : positions 0 [CNew 0 (zargs None (Some 7) false false)] (zw 0 0) <> positions 0 [CNew 0 (zargs None (Some 7) false false)] (zw 1 0).
Proof. vm_compute. discriminate. Qed.
Lemma znoseed : positions 0 [CNew 0 (zargs (Some zx1) None false false); CStep 0] (zw 0 0) <> positions 0 [CNew 0 (zargs (Some zx1) None false false); CStep 0] (zw 0 1).
Proof. vm_compute. discriminate. Qed.
Lemma zglob : positions 0 [CNew 0 (zargs (Some zx1) (Some 7) false true); CNew 1 (zargs (Some zx1) (Some 7) false true); CStep 0; CStep 1] (zw 0 0) <>
              positions 0 [CNew 0 (zargs (Some zx1) (Some 7) false true); CNew 1 (zargs (Some zx1) (Some 7) false true); CStep 1; CStep 0] (zw 0 0).
Proof. vm_compute. discriminate. Qed.
Lemma zcheck : positions 0 [CNew 0 (zargs (Some zx1) (Some 7) true false); CStep 0] (zw 0 0) <> positions 0 [CNew 0 (zargs (Some zx1) (Some 7) false false); CStep 0] (zw 0 0).
Proof. vm_compute. discriminate. Qed.
(** different objectives, seeds and samplers, same batches *)
Definition zother : args Z Z :=
  {| a_c := zcfg (fun v => Fin (v + 5)%Z) NoCorr 2 false false []; a_x := None; a_M := 2; a_N := 3; a_seed := Some 8; a_bseed := 42; a_check := false; a_global := true;
     a_alpha := Fin 3%Z; a_sigma := Fin 2%Z; a_lamda := Fin 1%Z; a_dt := Fin 1%Z; a_names := None; a_extra := []; a_save := None |}.
Fixpoint zsteps (a : args Z Z) (n : nat) : res (dyn Z Z nat) * world nat :=
  match n with
  | 0 => construct znp a (zw 0 0)
  | S n' => match zsteps a n' with (Ok d, w) => seeded_step znp a w d | r => r end
  end.
Lemma zsteps_life : forall a n d, fst (zsteps a n) = Ok d -> life znp a n d.
Proof.
  induction n; intros d H; cbn [zsteps] in H.
  - destruct (construct znp a (zw 0 0)) as [r w] eqn:E. cbn in H. subst r. eapply li_new; eauto.
  - destruct (zsteps a n) as [[d1|e] w1]; [|discriminate]. destruct (seeded_step znp a w1 d1) as [r w] eqn:E. cbn in H. subst r. eapply li_step; [apply IHn; reflexivity|exact E].
Qed.
Lemma zbatches : args_ok zgood /\ args_ok zother /\ same_batching zgood zother /\ (exists d d' d1 d1' w w', life znp zgood 2 d /\ life znp zother 2 d' /\ s_x (d_s d) <> s_x (d_s d') /\
  seeded_step znp zgood (zw 0 0) d = (Ok d1, w) /\ seeded_step znp zother (zw 4 4) d' = (Ok d1', w') /\
  batch_of (d_s d1) 1 [2; 1] /\ batch_of (d_s d1') 1 [2; 1] /\ batch_of (d_s d1) 0 [0; 1]).
Proof.
  split; [apply zgood_ok|]. split; [split; [cbn; lia|discriminate]|]. split; [repeat split|].
  let r := eval vm_compute in (fst (zsteps zgood 2)) in match r with Ok ?x => assert (E1 : fst (zsteps zgood 2) = Ok x) by (vm_cast_no_check (eq_refl (Ok x))); exists x end.
  let r := eval vm_compute in (fst (zsteps zother 2)) in match r with Ok ?x => assert (E2 : fst (zsteps zother 2) = Ok x) by (vm_cast_no_check (eq_refl (Ok x))); exists x end.
  match type of E1 with _ = Ok ?x => let r := eval vm_compute in (seeded_step znp zgood (zw 0 0) x) in match r with (Ok ?y, ?v) => exists y; match type of E2 with _ = Ok ?x2 =>
    let r2 := eval vm_compute in (seeded_step znp zother (zw 4 4) x2) in match r2 with (Ok ?y2, ?v2) => exists y2, v, v2 end end end end.
  split; [apply zsteps_life; exact E1|]. split; [apply zsteps_life; exact E2|]. split; [vm_compute; discriminate|].
  split; [vm_compute; reflexivity|]. split; [vm_compute; reflexivity|].
  split; [|split]; (eexists _, _; split; [reflexivity|]); cbn; auto.
Qed.
Lemma zdraw : exists s log s', exec zc1 s log /\ plain zc1 (s_N s) /\ perms_valid (zorc 1 [1; 2; 0]) s /\ step zc1 (zorc 1 [1; 2; 0]) s = Ok s' /\ width zc1 s = 2.
Proof.
  destruct zex1 as (s & log & E & _ & P & _ & HN & _).
  assert (V : perms_valid (zorc 1 [1; 2; 0]) s) by (apply zperm_valid; now rewrite HN).
  destruct (exec_step_good zc1 s log _ E P V) as (s' & Hs). exists s, log, s'. repeat (split; [solve [auto]|]). unfold width. rewrite HN. reflexivity.
Qed.
