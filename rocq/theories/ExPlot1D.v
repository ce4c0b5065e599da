(** * Concrete cases for the one-dimensional plots *)
From Coq Require Import String List Arith Bool Permutation Lia Reals Lra.
From Verif Require Import Scalar Np PdynFacts State Pdyn PdynStep PdynOk Exec Script ExZ RVec ConsSpec Cbo CboSpec CboFacts RunFacts LivePlot LiveFacts LiveReal Plot1D Plot1DFacts.
Import ListNotations.
Open Scope R_scope.

(** one run of three particles on the line, mini-batches of two; the objective is 1 + x^2 *)
Definition parab (v : vec) : fl R := match v with [Fin a] => Fin (1 + a ^ 2) | _ => PInf end.
Definition lx0 : arr vec := [map (fun p => [Fin p]) [0; 2; 3]].
Definition lorc : orc vec := {| o_z := fun _ _ => [Fin 1]; o_perm := fun _ => [1; 0; 2]%nat |}.
Definition pcfg : cfg R vec := cbo_cfg parab NAniso (fun v => v) NoCorr 2 true false [CMaxIt (Some 10%nat)] false.

Lemma parab_pos : forall p, exists y, parab [Fin p] = Fin y /\ 0 < y.
Proof. intros p. exists (1 + p ^ 2). split; [reflexivity|]. pose proof (pow2_ge_0 p). lra. Qed.

Lemma plot1d_case : exists s s', constructed pcfg s /\ exec pcfg s [] /\ perms_valid lorc s /\ step pcfg lorc s = Ok s' /\ finite_obj 1 parab /\
  length (s_active s) = s_M s /\ s_N s = 3%nat /\ nth_error (s_x s) 0 = Some (map (fun p => [Fin p]) [0; 2; 3]) /\ nth_error (s_alpha s) 0 = Some [Fin 5].
Proof.
  assert (HI : exists s, init pcfg lx0 false (Fin 5) (Fin 1) (Fin 1) (Fin (/ 10)) (fun _ => [2; 0; 1]%nat) None [] None = Ok s /\
    length (s_active s) = s_M s /\ s_N s = 3%nat /\ s_M s = 1%nat /\ nth_error (s_x s) 0 = Some (map (fun p => [Fin p]) [0; 2; 3]) /\ nth_error (s_alpha s) 0 = Some [Fin 5]).
  { eexists. split; [reflexivity|]. repeat split; reflexivity. }
  destruct HI as (s & Hs & H1 & H2 & H3 & H4 & H5).
  assert (HC : constructed pcfg s).
  { exists lx0, false, (Fin 5), (Fin 1), (Fin 1), (Fin (/ 10)), (fun _ => [2; 0; 1]%nat), None, [], None.
    split; [split; [reflexivity|repeat constructor]|]. split; [cbn; lia|]. split; [cbn; lia|].
    split; [intros; apply (perm_b_ok 3); reflexivity|]. split; [discriminate|exact Hs]. }
  assert (P : perms_valid lorc s). { intros m _. rewrite H2. apply (perm_b_ok 3). reflexivity. }
  destruct (exec_step_good pcfg s [] lorc (ex_init _ _ HC) (cbo_plain _ _ _ _ _ _ _ _ _) P) as (s' & HS).
  exists s, s'. split; [exact HC|]. split; [exact (ex_init _ _ HC)|]. split; [exact P|]. split; [exact HS|].
  split. { intros [|p [|]] Hp; try discriminate. eexists. reflexivity. }
  auto.
Qed.

Lemma evals_case : exists s s' ps, constructed pcfg s /\ step pcfg lorc s = Ok s' /\ rect (s_M s) 3 (s_x s) /\
  (forall xo, s_xold s' = Some xo -> rect (s_M s') 3 xo) /\ live_plot parab 0 0 true true true s [s'] = Ok ps /\ total_evals ps = 6%nat.
Proof.
  destruct plot1d_case as (s & s' & HC & E & P & HS & Hf & HA & HN & Hx & Ha).
  pose proof (first_spec pcfg s parab 0 (map Fin [0; 2; 3]) true HC Hx) as H1.
  destruct (picture_spec parab NAniso (fun v => v) 2 true false [CMaxIt (Some 10%nat)] false s [] lorc s' 0 [0; 2; 3] 5 E P HS Hf HA Hx Ha) as (q & H2 & _).
  assert (RX : rect (s_M s) 3 (s_x s)) by (rewrite <- HN; apply (w_x _ _ (exec_wf _ _ _ E))).
  assert (EM : s_M s' = s_M s).
  { apply (step_ok_char pcfg lorc s s' (exec_wf _ _ _ E) (perms_valid_ok _ _ P) HS). }
  eexists s, s', _. split; [exact HC|]. split; [exact HS|]. split; [exact RX|].
  split. { rewrite (step_old _ _ _ _ HS). intros xo H. injection H as <-. rewrite EM. exact RX. }
  split. { unfold live_plot. rewrite H1. cbn [bind q_drift next_pics]. rewrite H2. cbn [bind]. reflexivity. }
  cbn. rewrite HN. reflexivity.
Qed.
