(** * A concrete CBO dynamic over the reals, used for examples *)
From Coq Require Import String List Arith Bool Reals Permutation Lia Lra.
From Verif Require Import Scalar Np NpFacts State Pdyn PdynRun PdynOk Exec RunFacts Script RVec RVecFacts Consensus ConsSpec ConsFacts PostProc Cbo CboSpec CboFacts TwinSpec SymFacts.
Import ListNotations.
Open Scope R_scope.

(** f(x) = |x|^2 *)
Definition sqf (v : vec) : fl R := fsum (map (fun a => fmul a a) v).
Lemma sqf_floats : forall p, sqf (floats p) = Fin (sqnorm p).
Proof.
  intros. unfold sqf, floats. rewrite map_map. rewrite <- (map_map (fun a => a * a) Fin), fsum_fin.
  unfold sqnorm, dot. rewrite map2_same. auto.
Qed.
Lemma sqf_finite : forall d, finite_obj d sqf.
Proof. intros d p _. rewrite sqf_floats. eauto. Qed.

(** three particles in the plane; run 1 is concentrated in one point *)
Definition cX : list (list R) := [[0; 1]; [2; 1]; [-1; 1]].
Definition cx0 : arr vec := [map floats cX; repeat (floats [3; 4]) 3].
Definition corc : orc vec := {| o_z := fun k n => floats [INR n + 1; -1]; o_perm := fun _ => [1; 0; 2]%nat |}.
Definition cinit (c : cfg R vec) (a la dt sg : R) : res (st R vec) :=
  init c cx0 false (Fin a) (Fin sg) (Fin la) (Fin dt) (fun _ => [2; 0; 1]%nat) None [] None.

Lemma corc_finite : finite_draws 2 corc.
Proof. intros k n. eexists. split; reflexivity. Qed.

Lemma cinit_ok : forall c a la dt sg, (1 <= c_bsize c <= 3)%nat -> 0 <= dt -> exists s, cinit c a la dt sg = Ok s /\ exec c s [] /\
  s_M s = 2%nat /\ s_N s = 3%nat /\ s_active s = [0; 1]%nat /\ perms_valid corc s /\ finite_alpha s /\ parameters la dt sg s /\
  ensemble_at s 0 2 cX /\ all_at s 1 [3; 4] /\ finite_state 2 s /\ s_x s = cx0.
Proof.
  intros c a la dt sg Hb Hdt. eexists. split; [reflexivity|].
  assert (FA : finite_alpha (init_history None [] None {| s_M := 2; s_N := 3; s_x := cx0; s_xold := None;
                 s_energy := repeat (repeat PInf 3) 2; s_cons := None; s_drift := None;
                 s_alpha := repeat [Fin a] 2; s_sigma := Fin sg; s_lamda := Fin la; s_dt := Fin dt;
                 s_t := Fin k0; s_it := 0; s_be := repeat PInf 2; s_bce := repeat PInf 2; s_bp := [floats [0; 1]; floats [3; 4]]; s_bcp := [];
                 s_fmin := repeat PInf 2; s_udiff := repeat PInf 2; s_nfe := repeat 0%nat 2; s_fcalls := 0;
                 s_active := seq 0 2; s_reason := repeat None 2; s_cidx := IAll; s_pidx := IAll;
                 s_ind := if (c_bsize c =? 3)%nat then [] else map (fun _ => [2; 0; 1]%nat) (seq 0 2);
                 s_cep := None; s_tracks := []; s_hist := []; s_trackit := 0; s_save := 1 |})).
  { intros m Hm. cbn in Hm. destruct m as [|[|m]]; [exists a; reflexivity|exists a; reflexivity|lia]. }
  split; [|split; [reflexivity|split; [reflexivity|split; [reflexivity|split; [|split; [exact FA|split; [|split; [|split; [|split; [|reflexivity]]]]]]]]]].
  - apply ex_init. exists cx0, false, (Fin a), (Fin sg), (Fin la), (Fin dt), (fun _ => [2; 0; 1]%nat), None, [], None.
    split; [split; [reflexivity|repeat constructor]|]. split; [cbn; lia|]. split; [exact Hb|].
    split; [|split; [discriminate|reflexivity]].
    intros m _. apply (perm_b_ok 3). reflexivity.
  - intros m _. apply (perm_b_ok 3). reflexivity.
  - repeat split; auto.
  - split; [reflexivity|]. split; [reflexivity|]. intros p [<-|[<-|[<-|[]]]]; reflexivity.
  - reflexivity.
  - split; [split; [exact FA|exists la, dt, sg; repeat split; auto]|].
    intros row v Hr Hv. change (In row cx0) in Hr. destruct Hr as [<-|[<-|[]]].
    + destruct Hv as [<-|[<-|[<-|[]]]]; eexists; split; reflexivity.
    + destruct Hv as [<-|[<-|[<-|[]]]]; eexists; split; reflexivity.
Qed.

Lemma csteps : forall f k pp b partial cat ks save s log m, let c := cbo_cfg f k pp NoCorr b partial cat ks save in
  exec c s log -> perms_valid corc s -> In m (s_active s) ->
  forall n, exists s', steps_active c m 2 s n s' /\ (exists log', exec c s' log') /\ perms_valid corc s' /\ In m (s_active s').
Proof.
  intros f k pp b partial cat ks save s log m c E P Hm n. induction n as [|n (s1 & S1 & (l1 & E1) & P1 & A1)].
  - exists s. split; [constructor|]. eauto.
  - destruct (exec_step_good c s1 l1 corc E1 (cbo_plain _ _ _ _ _ _ _ _ _) P1) as (s2 & HS).
    destruct (step_char c corc s1 (exec_wf _ _ _ E1) (perms_valid_ok _ _ P1) (or_introl (fun _ _ _ => eq_refl)) eq_refl) as
      (t & HSt & _ & (M1 & N1 & _ & _ & _ & _ & _ & _ & Ac1 & _) & _).
    rewrite HS in HSt. injection HSt as <-. exists s2. split; [|split; [|split]].
    + eapply sa_step; eauto. exact corc_finite.
    + eexists. eapply ex_step; eauto.
    + intros i Hi. rewrite N1. apply P1. congruence.
    + rewrite Ac1. auto.
Qed.

Lemma clater : forall f k pp b partial cat ks save s log, let c := cbo_cfg f k pp NoCorr b partial cat ks save in
  exec c s log -> perms_valid corc s -> exists s', step c corc s = Ok s' /\ later c 2 s s'.
Proof.
  intros f k pp b partial cat ks save s log c E P.
  destruct (exec_step_good c s log corc E (cbo_plain _ _ _ _ _ _ _ _ _) P) as (s2 & HS). exists s2. split; auto.
  eapply la_step; [apply la_start|eauto|exact corc_finite|auto].
Qed.

(** a pair of executions *)
Lemma cpaired : forall phi chi c c' a la dt sg s s', c_bsize c' = c_bsize c -> c_corr c = NoCorr -> c_corr c' = NoCorr ->
  one_consensus_point c -> one_consensus_point c' -> (1 <= c_bsize c <= 3)%nat -> 0 <= dt ->
  cinit c a la dt sg = Ok s ->
  init c' (map (map phi) cx0) false (Fin a) (Fin sg) (Fin la) (Fin dt) (fun _ => [2; 0; 1]%nat) None [] None = Ok s' ->
  exists s1 s1', step c corc s = Ok s1 /\ paired phi c c' chi (finite_state 2) (finite_draws 2) s1 s1'.
Proof.
  intros phi chi c c' a la dt sg s s' B N1 N2 O1 O2 Hb Hdt I1 I2.
  destruct (cinit_ok c a la dt sg Hb Hdt) as (s0 & I0 & E & _ & HN & _ & P & _ & _ & _ & _ & FS & _). rewrite I1 in I0. injection I0 as <-.
  assert (PA : paired phi c c' chi (finite_state 2) (finite_draws 2) s s').
  { eapply (pa_init phi c c' chi _ _ cx0 false); eauto.
    - split; [reflexivity|repeat constructor].
    - cbn; lia.
    - intros m _. apply (perm_b_ok 3). reflexivity.
    - discriminate. }
  destruct (exec_step_good c s [] corc E (conj (or_introl O1) N1) P) as (s1 & HS).
  set (o' := {| o_z := fun k n => chi (o_z corc k n); o_perm := o_perm corc |}).
  assert (E' : exec c' s' []).
  { apply ex_init. exists (map (map phi) cx0), false, (Fin a), (Fin sg), (Fin la), (Fin dt), (fun _ => [2; 0; 1]%nat), None, [], None.
    split; [split; [reflexivity|repeat constructor]|]. split; [cbn; lia|]. split; [rewrite B; exact Hb|].
    split; [|split; [discriminate|exact I2]]. intros m _. apply (perm_b_ok 3). reflexivity. }
  assert (P' : perms_valid o' s').
  { intros m Hm. cbn [o' o_perm]. assert (s_N s' = 3%nat) as ->; [|apply (perm_b_ok 3); reflexivity].
    injection I2 as <-. reflexivity. }
  destruct (exec_step_good c' s' [] o' E' (conj (or_introl O2) N2) P') as (s1' & HS').
  exists s1, s1'. split; auto. eapply pa_step; eauto. exact corc_finite.
Qed.
