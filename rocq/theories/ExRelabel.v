(** * Concrete relabelled runs *)
From Coq Require Import String List Arith Bool Reals Permutation Lia Lra.
From Verif Require Import Scalar Np NpFacts State Pdyn PdynFacts PdynStep PdynRun PdynOk Exec TermSpec RunFacts Script BestFacts RVec RVecFacts Consensus ConsSpec ConsFacts
  PostProc Cbo CboSpec CboFacts TwinSpec SymFacts ExCbo RelabelSpec RelabelFacts RelabelReal.
Import ListNotations.
Open Scope R_scope.

(** the first and the last particle of run 0 change places *)
Definition sw (m i : nat) : nat := match m, i with 0%nat, 0%nat => 2%nat | 0%nat, 2%nat => 0%nat | _, _ => i end.
Definition cx0' : arr vec := [map floats [[-1; 1]; [2; 1]; [0; 1]]; repeat (floats [3; 4]) 3].

Lemma sw_bij : forall m, bijection 3 (sw m) (sw m).
Proof. intros m i Hi. destruct m; destruct i as [|[|[|i]]]; cbn; lia. Qed.

Lemma cx0_reordered : rows_reordered 2 3 sw cx0 cx0'.
Proof.
  split; [reflexivity|]. split; [reflexivity|]. intros [|[|m]] Hm; [| |lia].
  - exists (map floats cX), (map floats [[-1; 1]; [2; 1]; [0; 1]]). repeat split. intros [|[|[|i]]] Hi; try lia; reflexivity.
  - exists (repeat (floats [3; 4]) 3), (repeat (floats [3; 4]) 3). repeat split.
Qed.

Lemma crelabelled : forall (c : cfg R vec) a la dt sg s s', c_corr c = NoCorr -> one_consensus_point c -> (1 <= c_bsize c <= 3)%nat -> 0 <= dt ->
  cinit c a la dt sg = Ok s ->
  init c cx0' false (Fin a) (Fin sg) (Fin la) (Fin dt) (fun m => map (sw m) [2; 0; 1]%nat) None [] None = Ok s' ->
  let o' := {| o_z := fun k n => o_z corc k (if negb (c_bsize c =? 3)%nat && c_partial c then n else sw k n); o_perm := fun m => map (sw m) (o_perm corc m) |} in
  relabelled_runs sw sw c (finite_state 2) (finite_draws 2) s s' /\ exec c s [] /\ exec c s' [] /\
  exists s1 s1', step c corc s = Ok s1 /\ step c o' s' = Ok s1' /\ relabelled_runs sw sw c (finite_state 2) (finite_draws 2) s1 s1'.
Proof.
  intros c a la dt sg s s' NC O1 Hb Hdt I1 I2 o'.
  destruct (cinit_ok c a la dt sg Hb Hdt) as (s0 & I0 & E & HM & HN & HA & P & _ & _ & _ & _ & FS & _). rewrite I1 in I0. injection I0 as <-.
  assert (PA : relabelled_runs sw sw c (finite_state 2) (finite_draws 2) s s').
  { eapply (rr_init sw sw c _ _ cx0 cx0' false); eauto.
    - split; [reflexivity|repeat constructor].
    - cbn; lia.
    - exact cx0_reordered.
    - intros m _. apply (perm_b_ok 3). reflexivity.
    - intros m _. reflexivity.
    - discriminate.
    - rewrite HN. intros m _. apply sw_bij. }
  assert (PW : forall m l, Permutation l (seq 0 3) -> Permutation (map (sw m) l) (seq 0 3)).
  { intros m l Hl. apply (bijection_perm 3 (sw m) (sw m)); [apply sw_bij|auto]. }
  assert (E' : exec c s' []).
  { apply ex_init. exists cx0', false, (Fin a), (Fin sg), (Fin la), (Fin dt), (fun m => map (sw m) [2; 0; 1]%nat), None, [], None.
    split; [split; [reflexivity|repeat constructor]|]. split; [cbn; lia|]. split; [exact Hb|].
    split; [|split; [discriminate|exact I2]]. intros m _. apply PW. apply (perm_b_ok 3). reflexivity. }
  assert (P' : perms_valid o' s').
  { intros m Hm. cbn [o' o_perm]. assert (s_N s' = 3%nat) as ->; [|apply PW; apply (perm_b_ok 3); reflexivity].
    injection I2 as <-. reflexivity. }
  destruct (exec_step_good c s [] corc E (conj (or_introl O1) NC) P) as (s1 & HS).
  destruct (exec_step_good c s' [] o' E' (conj (or_introl O1) NC) P') as (s1' & HS').
  split; auto. split; auto. split; auto. exists s1, s1'. split; auto. split; auto. eapply rr_step; eauto.
  - exact corc_finite.
  - split.
    + intros m _. reflexivity.
    + intros k m n Hk _. rewrite HN, HA in *. assert (k = m) as ->. { destruct k as [|[|[|k]]]; cbn in Hk; congruence. } reflexivity.
Qed.

(** with equal energies the first particle of the list wins *)
Lemma const_best : forall (c : cfg R vec) o s log m u v, exec c s log -> perms_valid o s -> one_consensus_point c -> c_corr c = NoCorr ->
  c_bsize c = 3%nat -> s_N s = 3%nat -> (forall x, c_f c x = Fin 0) -> In m (s_active s) -> nth_error (s_be s) m = Some PInf ->
  nth_error (s_x s) m = Some (v :: u) -> exists s1, step c o s = Ok s1 /\ nth_error (s_bp s1) m = Some v /\ nth_error (s_be s1) m = Some (Fin 0).
Proof.
  intros c o s log m u v E P G NC Hb HN Hf Hin Hbe Hx. pose proof (exec_wf _ _ _ E) as W.
  destruct (step_char c o s W (perms_valid_ok _ _ P) (or_introl G) NC) as (t & HSt & Wt & _ & _ & _ & (cp & d & _ & _ & _ & _ & Hact) & _).
  exists t. split; auto. destruct (In_nth_error _ _ Hin) as (k & Hk). assert (Hm : (m < s_M s)%nat) by (apply W; auto).
  destruct (row_at_Some c s m W Hm) as (w & Er & _). destruct (Hact _ _ _ Hk Er) as (u1 & cpr & dr & u2 & Q1 & _ & _ & Q4 & Q5).
  destruct (row_at_lt _ _ _ Er) as (_ & A1 & A2 & A3 & A4 & _). rewrite Hx in A1. injection A1 as A1. rewrite Hbe in A4. injection A4 as A4.
  assert (Lw : length (r_x w) = 3%nat). { rewrite <- A1, <- HN. exact (proj2 (w_x _ _ W) _ _ Hx). }
  assert (Le : length (r_e w) = 3%nat). { rewrite <- HN. exact (proj2 (w_e _ _ W) _ _ A2). }
  assert (S1 : run_sel c o s m = seq 0 3). { unfold run_sel. rewrite HN, Hb. reflexivity. }
  assert (EN : r_e u1 = map (fun _ => Fin 0) (r_x w) /\ r_be u1 = r_be w).
  { unfold run_move in Q1. destruct (r_a w) as [|al [|]]; try discriminate. rewrite S1, (takeM_seq _ _ 3 Lw) in Q1. cbn [bind] in Q1.
    rewrite (put1_seq _ 3) in Q1 by (rewrite ?map_length; auto). cbn [bind] in Q1.
    apply bind_ok in Q1. destruct Q1 as (xp & _ & Q1). cbv zeta in Q1. apply bind_ok in Q1. destruct Q1 as (xr & _ & Q1). injection Q1 as <- _ _. cbn [r_e r_be].
    split; auto. apply map_ext. auto. }
  destruct EN as [EN EB]. unfold run_post in Q4. rewrite EN, EB, <- A4, <- A1 in Q4.
  destruct u as [|u1' [|u2' [|]]]; rewrite <- A1 in Lw; try discriminate. cbn [map] in Q4.
  assert (AM : argmin [Fin 0; Fin 0; Fin 0] = Ok (0%nat, Fin 0)).
  { cbn. replace (Rltb 0 0) with false; [cbn; reflexivity|]. symmetry. apply Rltb_false. lra. }
  rewrite AM in Q4. cbn in Q4. injection Q4 as <-. apply row_at_lt in Q5. destruct Q5 as (_ & _ & _ & _ & -> & -> & _). split; reflexivity.
Qed.

Lemma relabelled_tie : exists s s' (c := cbo_cfg (fun _ => Fin 0) NIso (fun v => v) NoCorr 3 true false [CMaxIt (Some 5%nat)] true),
  finite_obj 2 (fun _ => Fin 0) /\ relabelled_runs sw sw c (finite_state 2) (finite_draws 2) s s' /\ s_be s' = s_be s /\ nth_error (s_be s) 0 = Some (Fin 0) /\
  nth_error (s_bp s') 0 <> nth_error (s_bp s) 0.
Proof.
  set (c := cbo_cfg (fun _ => Fin 0) NIso (fun v => v) NoCorr 3 true false [CMaxIt (Some 5%nat)] true).
  assert (FO : finite_obj 2 (fun _ => Fin 0)) by (intros p _; eexists; reflexivity).
  destruct (cinit_ok c 1 1 (/ 2) 3) as (s & I & E & HM & HN & HA & P & _ & _ & _ & _ & _ & HX); [cbn; lia|lra|].
  destruct (crelabelled c 1 1 (/ 2) 3 s _ eq_refl (fun _ _ _ => eq_refl) ltac:(cbn; lia) ltac:(lra) I eq_refl) as (PA & _ & E' & s1 & s1' & S1 & S1' & R).
  match type of PA with relabelled_runs _ _ _ _ _ _ ?t => set (s' := t) in * end.
  exists s1, s1'. cbn zeta. split; auto. split; auto.
  assert (RL : relabelled sw sw s1 s1').
  { apply (cbo_relabelled (fun _ => Fin 0) NIso (fun v => v) 3 true false [CMaxIt (Some 5%nat)] true 2); auto; [repeat constructor|intros p Hp; exists p; auto]. }
  split; [apply RL|].
  destruct (const_best c corc s [] 0 [floats [2; 1]; floats [-1; 1]] (floats [0; 1]) E P (fun _ _ _ => eq_refl) eq_refl eq_refl HN (fun _ => eq_refl)) as (t & T1 & T2 & T3).
  { rewrite HA. cbn; auto. }
  { injection I as <-. reflexivity. }
  { rewrite HX. reflexivity. }
  rewrite S1 in T1. injection T1 as <-.
  set (o' := {| o_z := fun k n => o_z corc k (if negb (c_bsize c =? 3)%nat && c_partial c then n else sw k n); o_perm := fun m => map (sw m) (o_perm corc m) |}) in *.
  destruct (const_best c o' s' [] 0 [floats [2; 1]; floats [0; 1]] (floats [-1; 1]) E') as (t & T1' & T2' & T3'); try reflexivity.
  { intros m _. apply (bijection_perm 3 (sw m) (sw m)); [apply sw_bij|]. apply (perm_b_ok 3). reflexivity. }
  { intros e x a. reflexivity. }
  { cbn; auto. }
  rewrite S1' in T1'. injection T1' as <-. split; auto. rewrite T2, T2'. intros H. injection H as H. lra.
Qed.
