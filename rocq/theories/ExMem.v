(** * CBOMemory and PSO: concrete runs *)
From Coq Require Import String List Arith Bool ZArith Permutation Lia.
From Verif Require Import Scalar ScalarFacts Np State Pdyn Exec PdynOk PdynStep Script ExZ Memory MemSpec MemFacts MemFacts2 MemFacts3.
Import ListNotations.
Open Scope nat_scope.
Open Scope list_scope.

Section Opt.
  Context {K V : Type} {O : KOps K}.

  (** optimize is an execution *)
  Lemma mem_optimize_exec : forall k (c : cfg K V) p os zs fuel i (ms : mst K V) log ms', mem_exec k c ms log ->
    (forall j (s : st K V), s_M s = s_M (m_s ms) -> s_N s = s_N (m_s ms) -> perms_valid (os j) s) ->
    mem_optimize k c p os zs fuel i ms = Some (Ok ms') -> exists log', mem_exec k c ms' log'.
  Proof.
    intros k c p os zs fuel. induction fuel as [|fuel IH]; intros i ms log ms' HE HP H; cbn [mem_optimize] in H;
      destruct (terminate c (m_s ms)) as [[[] s']|e] eqn:Et; try discriminate.
    - inversion H; subst ms'. exists log. eapply mx_term; eauto.
    - inversion H; subst ms'. exists log. eapply mx_term; eauto.
    - destruct (mem_step k c p (os i) (zs i) (mkmst s' (m_y ms) (m_v ms) (m_ev ms))) as [ms2|e] eqn:Es; [|discriminate].
      pose proof (mx_term _ _ _ _ _ _ HE Et) as HE1. destruct (terminate_MN _ _ _ _ Et) as (A1 & A2 & _).
      assert (Hne : s_active s' <> []).
      { unfold terminate in Et. apply bind_ok in Et. destruct Et as (s1 & _ & Et). inversion Et; subst s1. destruct (s_active s'); discriminate. }
      assert (P : perms_valid (os i) s') by (apply HP; auto).
      pose proof (mx_step _ _ _ _ _ _ _ _ HE1 P Hne Es) as HE2.
      destruct (mem_step_ok _ _ _ _ _ _ _ (mem_exec_wf _ _ _ _ HE1) (perms_valid_ok _ _ P) Hne Es) as (_ & _ & _ & B1 & B2 & _).
      cbn [m_s] in B1, B2. eapply IH; [exact HE2| |exact H]. intros j s Q1 Q2. apply HP; congruence.
  Qed.

  (** a computable sequence of steps (with draws) and termination checks *)
  Inductive mact : Type := MStep (o : orc V) (z2 : nat -> nat -> V) | MTerm.
  Fixpoint macts (k : mkind) (c : cfg K V) (p : mpar K) (l : list mact) (q : mst K V * list (nat * nat * V)) : option (mst K V * list (nat * nat * V)) :=
    match l with
    | [] => Some q
    | MStep o z2 :: l' =>
        if forallb (fun m => perm_b (s_N (m_s (fst q))) (o_perm o m)) (seq 0 (s_M (m_s (fst q)))) && negb (length (s_active (m_s (fst q))) =? 0) then
          match mem_step k c p o z2 (fst q) with
          | Ok ms' => macts k c p l' (ms', snd q ++ mem_evaluated ms')
          | Err _ => None
          end
        else None
    | MTerm :: l' =>
        match terminate c (m_s (fst q)) with
        | Ok (_, s') => macts k c p l' (mkmst s' (m_y (fst q)) (m_v (fst q)) (m_ev (fst q)), snd q)
        | Err _ => None
        end
    end.
  Definition mscript (k : mkind) (c : cfg K V) (p : mpar K) (x0 : arr V) (al sg la dt : fl K) (perm0 : list nat) (l : list mact) :=
    if is_array_b (length x0) (shape1 x0) x0 && (1 <=? shape1 x0) && (1 <=? c_bsize c) && (c_bsize c <=? shape1 x0) && perm_b (shape1 x0) perm0 then
      match mem_init c x0 false al sg la dt (fun _ => perm0) None [] None with
      | Ok ms => macts k c p l (ms, mem_evaluated ms)
      | Err _ => None
      end
    else None.
  Lemma macts_exec : forall k (c : cfg K V) p l ms log ms' log', mem_exec k c ms log -> macts k c p l (ms, log) = Some (ms', log') -> mem_exec k c ms' log'.
  Proof.
    intros k c p l. induction l as [|a l IH]; intros ms log ms' log' E H; cbn [macts fst snd] in H.
    - inversion H; subst; auto.
    - destruct a as [o z2|].
      + destruct (_ && _) eqn:B; [|discriminate]. apply andb_prop in B. destruct B as [B1 B2].
        destruct (mem_step k c p o z2 ms) as [ms1|] eqn:Es; [|discriminate]. eapply IH; [|exact H].
        eapply mx_step; eauto.
        * intros m Hm. rewrite forallb_forall in B1. apply perm_b_ok, B1, in_seq. lia.
        * destruct (s_active (m_s ms)); [discriminate|discriminate].
      + destruct (terminate c (m_s ms)) as [[b s']|] eqn:Et; [|discriminate]. eapply IH; [|exact H]. eapply mx_term; eauto.
  Qed.
  Lemma mscript_exec : forall k (c : cfg K V) p x0 al sg la dt perm0 l ms log,
    mscript k c p x0 al sg la dt perm0 l = Some (ms, log) -> mem_exec k c ms log.
  Proof.
    intros k c p x0 al sg la dt perm0 l ms log H. unfold mscript in H.
    match type of H with (if ?b then _ else _) = _ => destruct b eqn:B; [|discriminate] end.
    do 4 (apply andb_prop in B; destruct B as [B ?]).
    destruct (mem_init _ _ _ _ _ _ _ _ _ _ _) as [ms0|] eqn:I; [|discriminate].
    eapply macts_exec; [|exact H]. apply mx_init.
    unfold is_array_b in B. apply andb_prop in B. destruct B as [B1 B2]. apply Nat.eqb_eq in B1. apply Nat.leb_le in H1, H2, H3.
    exists x0, false, al, sg, la, dt, (fun _ => perm0), None, [], None. repeat split; auto.
    - apply Forall_forall. intros r Hr. rewrite forallb_forall in B2. apply Nat.eqb_eq. auto.
    - intros. apply perm_b_ok; auto.
    - discriminate.
  Qed.
End Opt.
Arguments mact : clear implicits.

Lemma z_exact : forall f cr b pa cc ks log, exact_log (zcfg f cr b pa cc ks) log.
Proof. intros f cr b pa cc ks log m n x y _ _. split; cbn; destruct (x - y)%Z eqn:E; lia. Qed.

(** a particle that never saw anything better than its start *)
Definition gap (B : positive) (v : Z) : fl Z := if Z.eqb v 0 then Fin 0%Z else Fin (Z.pos B).
Definition mc1 (B : positive) : cfg Z Z := zcfg (gap B) NoCorr 1 true false [CMaxIt (Some 1)].
Definition mpar0 : mpar Z := mkmpar (Fin 0%Z) (Fin 0%Z) (Fin 1%Z) (Fin 0%Z).
Definition mem1 (B : positive) : option (res (mst Z Z)) :=
  match mem_init (mc1 B) [[0%Z]] false (Fin 1%Z) (Fin 1%Z) (Fin 1%Z) (Fin 1%Z) (fun _ => [0]) None [] None with
  | Ok ms => mem_optimize CBOMem (mc1 B) mpar0 (fun _ => zorc 1 [0]) (fun _ _ _ => 0%Z) 5 0 ms
  | Err e => Some (Err e)
  end.

Definition drop (B : positive) (v : Z) : fl Z := if Z.eqb v 0 then Fin (Z.pos B) else Fin 0%Z.
Definition pc1 (B : positive) : cfg Z Z := zcfg (drop B) NoCorr 1 true false [CMaxIt (Some 1)].
Definition pso1 (B : positive) : option (res (mst Z Z)) :=
  match mem_init (pc1 B) [[0%Z]] false (Fin 1%Z) (Fin 1%Z) (Fin 1%Z) (Fin 1%Z) (fun _ => [0]) None [] None with
  | Ok ms => mem_optimize Pso (pc1 B) mpar0 (fun _ => zorc 1 [0]) (fun _ _ _ => 0%Z) 5 0 ms
  | Err e => Some (Err e)
  end.

Lemma mc1_constructed : forall B, exists ms, mem_constructed (mc1 B) ms /\
  mem_init (mc1 B) [[0%Z]] false (Fin 1%Z) (Fin 1%Z) (Fin 1%Z) (Fin 1%Z) (fun _ => [0]) None [] None = Ok ms.
Proof.
  intros B. destruct (mem_init (mc1 B) [[0%Z]] false (Fin 1%Z) (Fin 1%Z) (Fin 1%Z) (Fin 1%Z) (fun _ => [0]) None [] None) as [ms|] eqn:E; [|discriminate E].
  exists ms. split; auto. exists [[0%Z]], false, (Fin 1%Z), (Fin 1%Z), (Fin 1%Z), (Fin 1%Z), (fun _ => [0]), None, [], None.
  split; [split; [auto|repeat constructor]|]. split; [cbn; auto|]. split; [cbn; auto|]. split; [intros; apply (perm_b_ok 1); reflexivity|].
  split; [discriminate|exact E].
Qed.
Lemma pc1_constructed : forall B, exists ms, mem_constructed (pc1 B) ms /\
  mem_init (pc1 B) [[0%Z]] false (Fin 1%Z) (Fin 1%Z) (Fin 1%Z) (Fin 1%Z) (fun _ => [0]) None [] None = Ok ms.
Proof.
  intros B. destruct (mem_init (pc1 B) [[0%Z]] false (Fin 1%Z) (Fin 1%Z) (Fin 1%Z) (Fin 1%Z) (fun _ => [0]) None [] None) as [ms|] eqn:E; [|discriminate E].
  exists ms. split; auto. exists [[0%Z]], false, (Fin 1%Z), (Fin 1%Z), (Fin 1%Z), (Fin 1%Z), (fun _ => [0]), None, [], None.
  split; [split; [auto|repeat constructor]|]. split; [cbn; auto|]. split; [cbn; auto|]. split; [intros; apply (perm_b_ok 1); reflexivity|].
  split; [discriminate|exact E].
Qed.
Lemma gap_no_nan : forall B, no_nan (mc1 B).
Proof. intros B v. cbn. unfold gap. destruct (Z.eqb v 0); auto. Qed.
Lemma drop_no_nan : forall B, no_nan (pc1 B).
Proof. intros B v. cbn. unfold drop. destruct (Z.eqb v 0); auto. Qed.

Theorem memory_mismatch : forall B : positive, exists (c : cfg Z Z) p os zs ms ms' x, no_nan c /\ one_consensus_point c /\ mem_constructed c ms /\
  (forall j s, s_N s = s_N (m_s ms) -> perms_valid (os j) (s : st Z Z)) /\
  mem_optimize CBOMem c p os zs 5 0 ms = Some (Ok ms') /\ s_it (m_s ms') = 1 /\
  s_be (m_s ms') = [Fin 0%Z] /\ s_bp (m_s ms') = [x] /\ c_f c x = Fin (Z.pos B).
Proof.
  intros B. destruct (mc1_constructed B) as (ms & HC & E).
  assert (E1 : mem1 B = mem_optimize CBOMem (mc1 B) mpar0 (fun _ => zorc 1 [0]) (fun _ _ _ => 0%Z) 5 0 ms) by (unfold mem1; rewrite E; auto).
  destruct (mem1 B) as [[ms'|]|] eqn:E2; try (vm_compute in E2; discriminate E2).
  exists (mc1 B), mpar0, (fun _ => zorc 1 [0]), (fun _ _ _ => 0%Z), ms, ms', 1%Z.
  split; [apply gap_no_nan|]. split; [apply zbest_one|]. split; auto.
  split. { intros j s Hs. apply zperm_valid. rewrite Hs. vm_compute in E. injection E as <-. reflexivity. }
  split; auto. vm_compute in E2. injection E2 as <-. cbn. auto.
Qed.

Theorem pso_mismatch : forall B : positive, exists (c : cfg Z Z) p os zs ms ms' x, no_nan c /\ one_consensus_point c /\ mem_constructed c ms /\
  (forall j s, s_N s = s_N (m_s ms) -> perms_valid (os j) (s : st Z Z)) /\
  mem_optimize Pso c p os zs 5 0 ms = Some (Ok ms') /\ s_it (m_s ms') = 1 /\
  s_be (m_s ms') = [Fin 0%Z] /\ s_bp (m_s ms') = [x] /\ c_f c x = Fin (Z.pos B).
Proof.
  intros B. destruct (pc1_constructed B) as (ms & HC & E).
  assert (E1 : pso1 B = mem_optimize Pso (pc1 B) mpar0 (fun _ => zorc 1 [0]) (fun _ _ _ => 0%Z) 5 0 ms) by (unfold pso1; rewrite E; auto).
  destruct (pso1 B) as [[ms'|]|] eqn:E2; try (vm_compute in E2; discriminate E2).
  exists (pc1 B), mpar0, (fun _ => zorc 1 [0]), (fun _ _ _ => 0%Z), ms, ms', 0%Z.
  split; [apply drop_no_nan|]. split; [apply zbest_one|]. split; auto.
  split. { intros j s Hs. apply zperm_valid. rewrite Hs. vm_compute in E. injection E as <-. reflexivity. }
  split; auto. vm_compute in E2. injection E2 as <-. cbn. auto.
Qed.

(** two runs of two particles; after one step run 1 has met energy_tol = 5 *)
Definition zcm : cfg Z Z := zcfg sqf NoCorr 2 true false [CEnergyTol (Fin 5%Z); CMaxIt (Some 20)].
Definition mpar1 : mpar Z := mkmpar (Fin 1%Z) (Fin 1%Z) (Fin 1%Z) (Fin 0%Z).
Definition zx2 : arr Z := [[27; -14]; [3; 2]]%Z.
Definition zmscript (k : mkind) (l : list (mact Z)) :=
  mscript k zcm mpar1 zx2 (Fin 1%Z) (Fin 1%Z) (Fin 1%Z) (Fin 1%Z) [0; 1] l.
Definition step2 : mact Z := MStep (zorc 1 [0; 1]) (fun _ _ => 1%Z).


Ltac run_mscript S0 :=
  let S := eval cbv delta [zmscript] beta in S0 in
  let r := eval vm_compute in S in
  match r with
  | Some (?ms, ?l) =>
      exists ms, l;
      assert (Hrun : S = Some (ms, l)) by (vm_cast_no_check (@eq_refl _ (Some (ms, l))));
      split; [eapply mscript_exec; exact Hrun|clear Hrun]
  end.

Lemma zmem_state : exists ms log, mem_exec CBOMem zcm ms log /\ s_M (m_s ms) = 2 /\ s_N (m_s ms) = 2 /\ s_active (m_s ms) = [0; 1] /\
  s_energy (m_s ms) = [[Fin 729%Z; Fin 144%Z]; [Fin 9%Z; Fin 4%Z]] /\ m_y ms = [[27; -12]; [3; 2]]%Z /\ length log = 12.
Proof. run_mscript (zmscript CBOMem [MTerm; step2; step2]). cbn. auto 10. Qed.

Lemma zmem_partial : exists ms log, mem_exec CBOMem zcm ms log /\ s_M (m_s ms) = 2 /\ s_active (m_s ms) = [0].
Proof. run_mscript (zmscript CBOMem [MTerm; step2; MTerm]). cbn. auto. Qed.
Lemma zpso_partial : exists ms log, mem_exec Pso zcm ms log /\ s_M (m_s ms) = 2 /\ s_active (m_s ms) = [0].
Proof. run_mscript (zmscript Pso [MTerm; step2; MTerm]). cbn. auto. Qed.
Lemma zpso_state : exists ms log, mem_exec Pso zcm ms log /\ s_M (m_s ms) = 2 /\ s_N (m_s ms) = 2 /\ s_active (m_s ms) = [0; 1].
Proof. run_mscript (zmscript Pso [MTerm; step2]). cbn. auto. Qed.
(** construction with batches of two of three particles *)
Definition zcm3 : cfg Z Z := zcfg sqf NoCorr 2 true false [CMaxIt (Some 20)].
Lemma zmem_batch : forall k, exists ms log, mem_exec k zcm3 ms log /\ s_M (m_s ms) = 1 /\ s_N (m_s ms) = 3 /\ s_active (m_s ms) = [0].
Proof. intros k. run_mscript (mscript k zcm3 mpar1 [[7; -4; 9]]%Z (Fin 1%Z) (Fin 1%Z) (Fin 1%Z) (Fin 1%Z) [0; 2; 1] []). cbn. auto. Qed.
