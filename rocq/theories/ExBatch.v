(** * Concrete executions for batching and for the independence of runs *)
From Coq Require Import String List Arith Bool ZArith Permutation Lia.
From Verif Require Import Scalar Np State Pdyn Exec TermSpec Script ExZ BatchSpec IndepSpec IndepFacts.
Import ListNotations.
Open Scope nat_scope.
Open Scope list_scope.

Definition zcb (concat : bool) : cfg Z Z := zcfg sqf NoCorr 2 true concat [].
Definition zinit (c : cfg Z Z) (x0 : arr Z) (p : list nat) : res (st Z Z) :=
  init c x0 false (Fin 1%Z) (Fin 1%Z) (Fin 1%Z) (Fin 1%Z) (fun _ => p) None [] None.

Lemma zinit_constructed : forall c x0 p s, is_array_b (length x0) (shape1 x0) x0 = true ->
  1 <= shape1 x0 -> 1 <= c_bsize c <= shape1 x0 -> perm_b (shape1 x0) p = true ->
  zinit c x0 p = Ok s -> constructed c s.
Proof.
  intros c x0 p s B HN Hb P H. unfold is_array_b in B. apply andb_prop in B. destruct B as [B1 B2].
  exists x0, false, (Fin 1%Z), (Fin 1%Z), (Fin 1%Z), (Fin 1%Z), (fun _ => p), None, [], None.
  split; [split; auto|].
  { apply Forall_forall. intros r Hr. rewrite forallb_forall in B2. apply Nat.eqb_eq. auto. }
  repeat split; auto; try lia; try discriminate. intros. apply perm_b_ok; auto.
Qed.

Ltac ok_step c o s := let r := eval vm_compute in (step c o s) in
  match r with Ok ?s' => s' end.

Ltac serve3 c m s0 o1 o2 o3 b1 b2 b3 :=
  let s1 := ok_step c o1 s0 in let s2 := ok_step c o2 s1 in let s3 := ok_step c o3 s2 in
  exists s3;
  refine (sv_step c m s0 [b1; b2] s2 o3 s3 b3 _ _ _ _);
  [ refine (sv_step c m s0 [b1] s1 o2 s2 b2 _ _ _ _);
    [ refine (sv_step c m s0 [] s0 o1 s1 b1 (sv_nil c m s0) _ _ _) | | |] | | |];
  try (apply zperm_valid; vm_compute; reflexivity); try (vm_compute; reflexivity).

(** 'concat' with N = 3, b = 2: batches 2,0 | 1,1 | 2,0; the second batch repeats an index. *)
Lemma concat_example : exists s s', constructed (zcb true) s /\ s_N s = 3 /\ s_M s = 2 /\
  served (zcb true) 1 s [[2; 0]; [1; 1]; [2; 0]] s'.
Proof.
  let r := eval vm_compute in (zinit (zcb true) zx1 [2; 0; 1]) in
  match r with Ok ?s => exists s; cut (exists s', served (zcb true) 1 s [[2; 0]; [1; 1]; [2; 0]] s') end.
  - intros [s' H]. exists s'. split.
    + eapply (zinit_constructed (zcb true) zx1 [2; 0; 1]); try (vm_compute; reflexivity); vm_compute; lia.
    + split; [reflexivity|]. split; [reflexivity|exact H].
  - match goal with |- exists s', served _ _ ?s _ _ =>
      serve3 (zcb true) 1 s (zorc 1 [0; 1; 2]) (zorc 1 [1; 2; 0]) (zorc 1 [0; 1; 2]) [2; 0] [1; 1] [2; 0] end.
Qed.

(** 'resample' with N = 4, b = 2: the first two batches use every particle once *)
Definition zx4 : arr Z := [[7; -4; 9; 1]; [3; 2; -8; 5]]%Z.
Lemma resample_example : exists s s', constructed (zcb false) s /\ s_N s = 4 /\ s_M s = 2 /\
  served (zcb false) 1 s [[2; 0]; [3; 1]; [1; 2]] s'.
Proof.
  let r := eval vm_compute in (zinit (zcb false) zx4 [2; 0; 3; 1]) in
  match r with Ok ?s => exists s; cut (exists s', served (zcb false) 1 s [[2; 0]; [3; 1]; [1; 2]] s') end.
  - intros [s' H]. exists s'. split.
    + eapply (zinit_constructed (zcb false) zx4 [2; 0; 3; 1]); try (vm_compute; reflexivity); vm_compute; lia.
    + split; [reflexivity|]. split; [reflexivity|exact H].
  - match goal with |- exists s', served _ _ ?s _ _ =>
      serve3 (zcb false) 1 s (zorc 1 [0; 1; 2; 3]) (zorc 1 [0; 1; 2; 3]) (zorc 1 [1; 2; 0; 3]) [2; 0] [3; 1] [1; 2] end.
Qed.

(** Independence: run 1 of [zx1] on its own *)
Lemma zsched_runwise : runwise_sched zsched.
Proof.
  intros s m t s' H E. inversion E; subst. eexists. split; [reflexivity|].
  destruct s, t, H; constructor; auto. cbn in *. intuition.
Qed.

Definition zc1' : cfg Z Z := zcfg sqf NoCorr 2 true false [CEnergyTol (Fin 5%Z); CMaxIt (Some 20)].

Lemma indep_example : runwise_sched zsched /\ exists s t, exec zc1 s [] /\ exec zc1 t [] /\ s_M s = 2 /\ mirrors s 1 t /\
  s_x t = [[3; 2; -8]]%Z /\ In 1 (s_active s) /\ s_active t = [0] /\
  no_nan zc1 /\ plain zc1 (s_N s) /\ Forall positive_tol (c_crit zc1) /\ nonneg_dt s /\
  exists s', loop zc1 zsched s 3 s'.
Proof.
  split; [exact zsched_runwise|].
  let r := eval vm_compute in (zinit zc1 zx1 [2; 0; 1]) in
  let r' := eval vm_compute in (zinit zc1 [[3; 2; -8]]%Z [2; 0; 1]) in
  match r with Ok ?s => match r' with Ok ?t => exists s, t end end.
  split; [|split].
  - apply ex_init. eapply (zinit_constructed zc1 zx1 [2; 0; 1]); try (vm_compute; reflexivity); vm_compute; lia.
  - apply ex_init. eapply (zinit_constructed zc1 [[3; 2; -8]]%Z [2; 0; 1]); try (vm_compute; reflexivity); vm_compute; lia.
  - split; [reflexivity|]. split; [constructor; vm_compute; auto|].
    split; [reflexivity|]. split; [vm_compute; auto|]. split; [reflexivity|]. split; [apply sq_no_nan|].
    split; [apply zplain|]. split; [repeat constructor|]. split; [exists 1%Z; split; reflexivity|].
    eexists. eapply loop_iter with (o := zorc 1 [1; 2; 0]).
    + eapply loop_iter with (o := zorc (-2) [1; 2; 0]).
      * eapply loop_iter with (o := zorc 1 [1; 2; 0]).
        -- apply loop_start.
        -- vm_compute. reflexivity.
        -- apply zperm_valid. reflexivity.
        -- vm_compute. reflexivity.
        -- vm_compute. reflexivity.
      * vm_compute. reflexivity.
      * apply zperm_valid. reflexivity.
      * vm_compute. reflexivity.
      * vm_compute. reflexivity.
    + vm_compute. reflexivity.
    + apply zperm_valid. reflexivity.
    + vm_compute. reflexivity.
    + vm_compute. reflexivity.
Qed.
